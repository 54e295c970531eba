(** * Concrete cases with complex coefficients *)

From Coq Require Import String Ascii Reals Lra Lia List ZArith Bool.
From Coquelicot Require Import Complex.
From Verif Require Import Ops Syms Poly Gdual Functions Spec ElemR Uni Cplx SpecTaylor SpecCpx CoefFacts CoreProofs MiscProofs FunAlg CFun CFun2 CTayProofs CTayIdent CEmbed CQuad CProg CQuadId.
Import ListNotations.
Open Scope R_scope.
Open Scope string_scope.

Lemma cvar_ok (v : C) s n : (exists c r, s = String c r /\ c <> "d"%char) -> (n < 1000)%nat -> exists g : gdual C, gvar v s n = Ok g.
Proof.
  intros (c & r & -> & Hc) L. pose proof (gvar_spec v (String c r) n) as S.
  destruct (gvar v (String c r) n) as [g|x]; [eauto|exfalso].
  destruct x; auto; [destruct S as [S|[r' S]]; [lia|inversion S; auto]|discriminate].
Qed.
Lemma csample a : exists d, cexpands 3 d (fun x => (a + x "dx") * (Ci + x "dy"))%C /\ valid d /\
  get_order d = 3%nat /\ constant_cf d = (a * Ci)%C.
Proof.
  destruct (cvar_ok a "x" 3) as [X EX]; [eexists; eexists; split; [reflexivity|discriminate]|lia|].
  destruct (cvar_ok Ci "y" 3) as [Y EY]; [eexists; eexists; split; [reflexivity|discriminate]|lia|].
  pose proof (cexpands_var 3 3 a "x" X (le_n _) EX) as HX.
  pose proof (cexpands_var 3 3 Ci "y" Y (le_n _) EY) as HY.
  destruct (cexpands_arith 3 _ _ _ _ HX HY) as (_ & _ & M & _).
  pose proof (gvar_spec a "x" 3) as SX. rewrite EX in SX. destruct SX as (_ & _ & OX & _).
  pose proof (gvar_spec Ci "y" 3) as SY. rewrite EY in SY. destruct SY as (_ & _ & OY & _).
  exists (gmul X Y). split; [exact M|]. split; [apply M|]. split.
  - unfold get_order in *. cbn [gmul gord]. rewrite OX, OY. reflexivity.
  - rewrite <- (cexpands_at _ _ _ M). unfold ccenter. ring.
Qed.
Lemma Ccos_im b : Ccos (0, b) = RtoC (cosh b).
Proof. unfold Ccos. cbn [fst snd]. rewrite cos_0, sin_0. unfold RtoC. f_equal; ring. Qed.
Lemma cdom_case : cdom Xlog (Ci * Ci + Ci)%C /\ cdom Xatanh Ci /\ cdom Xtan Ci /\ cdom Xtanh (RtoC 1).
Proof.
  cbn [cdom]. split; [|split; [split|split]].
  - intros [A _]. revert A. unfold Ci, Cplus, Cmult. cbn [fst snd]. lra.
  - intros [A _]. revert A. unfold Ci, Cplus, RtoC. cbn [fst snd]. lra.
  - intros [A _]. revert A. unfold Ci, Cminus, Cplus, Copp, RtoC. cbn [fst snd]. lra.
  - unfold Ci. rewrite Ccos_im. apply RtoC_neq0. pose proof (cosh_pos 1). lra.
  - destruct (RC_sinhcosh 1) as [_ <-]. apply RtoC_neq0. pose proof (cosh_pos 1). lra.
Qed.
Lemma slit_1 : slit (RtoC 1).
Proof. intros [_ A]. cbn in A. lra. Qed.
Lemma cprog_case : exists point,
  cnames_ok (fun _ => 7%nat) (XDiv (XFun Xsin (XMul (XVar "x") (XFun Xlog (XVar "y")))) (XPow (XVar "y") (XFun Xexp (XNumMul Ci (XVar "x"))))) /\
  cfits (XDiv (XFun Xsin (XMul (XVar "x") (XFun Xlog (XVar "y")))) (XPow (XVar "y") (XFun Xexp (XNumMul Ci (XVar "x"))))) 7 /\
  csmooth (XDiv (XFun Xsin (XMul (XVar "x") (XFun Xlog (XVar "y")))) (XPow (XVar "y") (XFun Xexp (XNumMul Ci (XVar "x"))))) point.
Proof.
  assert (A : forall c, c <> "d"%char -> exists c0 r, String c "" = String c0 r /\ c0 <> "d"%char) by (intros c H; exists c, ""; auto).
  assert (S1 : slit (RtoC 1 + Ci)%C) by (intros [X _]; revert X; unfold Ci, Cplus, RtoC; cbn [fst snd]; lra).
  exists (fun _ => RtoC 1 + Ci)%C. split; [|split].
  - cbn [cnames_ok]. repeat split; try (apply A; discriminate).
  - cbn [cfits cfits1]. repeat split; lia.
  - cbn [csmooth cplx cdom cval]. repeat split; auto.
    rewrite Cpower_exp by (apply slit_neq0; auto). apply Cexp_neq0.
Qed.
Lemma rprog_case : exists e', to_complex (Div (Fun1 Fsin (Mul (Var "x") (Fun1 Flog (Var "y")))) (PowReal (Var "y") (1 / 2))) = Some e' /\
  SpecTaylor.fits (Div (Fun1 Fsin (Mul (Var "x") (Fun1 Flog (Var "y")))) (PowReal (Var "y") (1 / 2))) 7 /\
  smooth (Div (Fun1 Fsin (Mul (Var "x") (Fun1 Flog (Var "y")))) (PowReal (Var "y") (1 / 2))) (fun _ => 1).
Proof.
  eexists. split; [reflexivity|]. split; [cbn [SpecTaylor.fits fits1]; repeat split; lia|].
  cbn [smooth real dom1]. repeat split; auto; try lra; [left; lra|].
  unfold rpow. destruct (Rlt_dec 0 1); [|lra]. unfold Rpower. pose proof (exp_pos (1 / 2 * ln 1)). lra.
Qed.
Lemma ident_case : exists d : gdual C, valid d /\ get_order d = 3%nat /\ slit (constant_cf d) /\
  - PI < snd (constant_cf d) < PI /\ Ccos (constant_cf d) <> RtoC 0 /\ snd (constant_cf d) <> 0.
Proof.
  destruct (csample (RtoC 1)) as (d & _ & V & O & E). exists d. rewrite E. replace (RtoC 1 * Ci)%C with Ci by ring.
  pose proof PI2_1. split; [auto|]. split; [auto|]. split; [|split; [|split]].
  - intros [A _]. cbn in A. lra.
  - cbn. lra.
  - unfold Ci. rewrite Ccos_im. apply RtoC_neq0. pose proof (cosh_pos 1). lra.
  - cbn. lra.
Qed.
Lemma quad_case : exists d, cexpands 3 d (fun x => (RtoC 1 + Ci + x "dx") * (Ci + x "dy"))%C /\ get_order d = 3%nat /\
  (forall s, In s (psyms (gp d)) -> exists c t, s = dsym (String c t) /\ c <> "d"%char) /\
  (forall q, cdomq q (constant_cf d) /\ exists r, runD (quadD q) d = Ok r).
Proof.
  set (pt := fun s : string => if String.eqb s "x" then (RtoC 1 + Ci)%C else Ci).
  set (e := XMul (XVar "x") (XVar "y")).
  assert (NO : cnames_ok (fun _ => 3%nat) e).
  { cbn [cnames_ok e]. repeat split; try lia; eexists; eexists; (split; [reflexivity|discriminate]). }
  assert (FT : cfits e 3) by (cbn; auto). assert (SM : csmooth e pt) by (cbn; auto).
  destruct (ccalc_inv pt (fun _ => 3%nat) 3 3 (fun _ => conj (le_n _) (le_n _)) e NO FT SM) as (g & E & EX & O).
  destruct (ccalc_ok pt (fun _ => 3%nat) e NO) as (g' & E' & _ & G). assert (g' = g) by congruence. subst g'.
  assert (Cc : constant_cf g = ((RtoC 1 + Ci) * Ci)%C) by (rewrite <- (cexpands_at _ _ _ EX); rewrite at_center; reflexivity).
  exists g. split; [exact EX|]. split.
  - destruct EX as (_ & [L|L] & _); [lia|]. exfalso.
    cbn [ccalc e] in E. destruct (gvar (pt "x") "x" 3) as [X|] eqn:EX; cbn [rbind] in E; [|discriminate].
    destruct (gvar (pt "y") "y" 3) as [Y|] eqn:EY; cbn [rbind] in E; [|discriminate]. inversion E; subst g.
    pose proof (gvar_spec (pt "x") "x" 3) as SX. rewrite EX in SX. destruct SX as (_ & _ & OX & _).
    unfold get_order in *. cbn [gmul gord] in L. lia.
  - split; [exact G|]. intros q. split; [|apply runD_ok; [apply EX|exact G]].
    rewrite Cc. destruct q; cbn [cdomq]; (split; intros [A B]; revert A B; unfold Ci, Cminus, Cplus, Copp, Cmult, RtoC; cbn [fst snd]; lra).
Qed.
Lemma qprog_case : exists point,
  cnames_ok (fun _ => 7%nat) (XMul (XQuad Qatan (XVar "x")) (XQuad Qatanh (XNumMul Ci (XVar "y")))) /\
  cfits (XMul (XQuad Qatan (XVar "x")) (XQuad Qatanh (XNumMul Ci (XVar "y")))) 7 /\
  csmooth (XMul (XQuad Qatan (XVar "x")) (XQuad Qatanh (XNumMul Ci (XVar "y")))) point.
Proof.
  exists (fun _ => RtoC 1). split; [|split].
  - cbn [cnames_ok]. repeat split; try lia; eexists; eexists; (split; [reflexivity|discriminate]).
  - cbn [cfits]. repeat split; lia.
  - cbn [csmooth cplx cdomq]. repeat split; intros [A B]; revert A B; unfold Ci, Cminus, Cplus, Copp, Cmult, RtoC; cbn [fst snd]; lra.
Qed.
