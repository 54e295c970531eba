(** * Derivatives and integrals of Python expressions over gdual_vdouble as functions (proof file for C53) *)
From Coq Require Import String Ascii Reals List ZArith Bool Arith Lra Lia.
From Coquelicot Require Import Coquelicot.
From Verif Require Import Ops Syms SymsFacts Poly Gdual Functions Spec FunAlg ElemR SpecTaylor CoreProofs ValueProofs MiscProofs Vectorized SpecVec CompRel VecProofs VecSamples
  PyFun SpecPy PyFunProofs PyVec SpecPyVec PyVecProofs PyVecMore PyDeriv PyIntegral PyVecDeriv.
Import ListNotations.
Open Scope R_scope.
Local Open Scope string_scope.

Section Calculus.
  Variables (N n m : nat) (vd : string -> bool) (env : string -> vpyval R N) (G : nat -> string -> gdual R) (point : string -> R) (p : pyexpr R).
  Hypothesis HE : forall s, if vd s then exists g, env s = WVec g /\ (forall i, (i < N)%nat -> both N i true g (G i s)) else env s = WPlain (VFloat (point s)).
  Hypothesis HS : forall i, (i < N)%nat -> py_smooth vd p (inputs vd (G i) point center) m.
  Hypothesis NU : is_number vd p = false.
  Hypothesis ST : forall i, (i < N)%nat -> steps_ok N i env (fun s => if vd s then VGdual (G i s) else VFloat (point s)) p.

  Lemma component_run k g i : (i < N)%nat -> (forall i s, (i < N)%nat -> vd s = true -> input k m (G i s)) -> vpy_eval env p = Ok (WVec g) ->
    exists h, py_eval (fun s => if vd s then VGdual (G i s) else VFloat (point s)) p = Ok (VGdual h) /\ both N i true g h.
  Proof.
    intros Hi HI E.
    assert (HC : forall s, is_component N i (env s) (if vd s then VGdual (G i s) else VFloat (point s))).
    { intros s. specialize (HE s). destruct (vd s); [destruct HE as (g' & -> & B); exact (B i Hi)|rewrite HE; reflexivity]. }
    destruct (python_gdual m k vd (fun s => if vd s then VGdual (G i s) else VFloat (point s)) (G i) point
      ltac:(intros s; reflexivity) (fun s => HI i s Hi) p (HS i Hi) NU) as (h & Eh & _).
    pose proof (eval_components Hi (proj1 sign_R) (proj2 sign_R) env _ HC p (ST i Hi)) as O. rewrite E, Eh in O. exists h. split; [exact Eh|exact O].
  Qed.
  Lemma vec_partial g s r : (forall i s, (i < N)%nat -> vd s = true -> input (S n) m (G i s)) -> vpy_eval env p = Ok (WVec g) -> gpartial g s = Ok r ->
    forall i d, (i < N)%nat ->
    (exists q, 0 < q /\ forall x, small x q ->
       derivable_pt_lim (fun t => py_real p (inputs vd (G i) point (update x (dsym s) t))) (x (dsym s)) (d x)) ->
    exists h, both N i true r h /\ taylor_of n h d.
  Proof.
    intros HI E Er i d Hi Hd. destruct (component_run (S n) g i Hi HI E) as (h & Eh & B).
    assert (X : exists h', gpartial h s = Ok h') by (revert Er; unfold gpartial; destruct (check_var_name s); cbn; [eauto|discriminate]).
    destruct X as (h' & Eh'). exists h'. split; [eapply both_partial; eauto|].
    apply (python_partial n m vd (fun s => if vd s then VGdual (G i s) else VFloat (point s)) (G i) point p) with (s := s) (g := h); auto.
    intros s'. reflexivity.
  Qed.
  Lemma vec_integral g s r : (forall i s, (i < N)%nat -> vd s = true -> input n m (G i s)) -> (Z.of_nat m < 2147483648)%Z ->
    vpy_eval env p = Ok (WVec g) -> gintegrate g s = Ok r ->
    forall i M, (i < N)%nat -> (M <= S n)%nat -> (M <= get_order g)%nat ->
    exists h, both N i true r h /\
      taylor_of M h (fun x => RInt (fun t => py_real p (inputs vd (G i) point (update x (dsym s) t))) 0 (x (dsym s))).
  Proof.
    intros HI M31 E Er i M Hi L1 L2. destruct (component_run n g i Hi HI E) as (h & Eh & B).
    pose proof (both_coef Hi (proj1 sign_R) (proj2 sign_R) _ g h B) as (_ & Oe & _).
    assert (X : exists h', gintegrate h s = Ok h') by (revert Er; unfold gintegrate; destruct (check_var_name s); cbn; [eauto|discriminate]).
    destruct X as (h' & Eh'). exists h'. split; [eapply both_integrate; eauto|].
    apply (python_integral n m vd (fun s => if vd s then VGdual (G i s) else VFloat (point s)) (G i) point p) with (g := h); auto.
    - intros s'. reflexivity.
    - rewrite <- Oe. auto.
  Qed.
End Calculus.

(** 2 / x + log(x) at x = gdual_vdouble([1, 2], "x", 3): derivative and integral at the second point *)
Lemma vcalc_case : exists g r w h k, vpy_eval vcase_env vcase_expr = Ok (WVec g) /\ gpartial g "x" = Ok r /\ gintegrate g "x" = Ok w /\
  both 2 1 true r h /\ taylor_of 2 h (fun x => - 2 / ((2 + x "dx") * (2 + x "dx")) + 1 / (2 + x "dx")) /\
  both 2 1 true w k /\ taylor_of 3 k (fun x => RInt (fun t => 2 / (2 + t) + ln (2 + t)) 0 (x "dx")).
Proof.
  assert (GV : forall i, gvar (component 2 i vcase_c) "x" 3 = Ok (vcase_g i)) by (intros; reflexivity).
  assert (CI : forall i, (i < 2)%nat -> component 2 i vcase_c = 1 + INR i) by (intros [|[|i]] H; [cbn; ring|cbn; ring|lia]).
  assert (VA : forall i x, value (vcase_g i) x = component 2 i vcase_c + x "dx").
  { intros i x. rewrite (gvar_value _ "x" 3 _ x (GV i)). reflexivity. }
  set (vd := fun s => String.eqb s "x"). set (G := fun (i : nat) (_ : string) => vcase_g i). set (pt := fun _ : string => 0).
  assert (A1 : forall s, if vd s then exists g, vcase_env s = WVec g /\ (forall i, (i < 2)%nat -> both 2 i true g (G i s)) else vcase_env s = WPlain (VFloat (pt s))).
  { intros s. unfold vcase_env, vd. destruct (String.eqb s "x"); [|reflexivity]. exists vcase_x. split; auto.
    intros i Hi. eapply (both_var 2 i vcase_c "x" 3); [reflexivity|apply GV]. }
  assert (A2 : forall i s, (i < 2)%nat -> vd s = true -> input 3 3 (G i s)).
  { intros i s Hi _. split; [exact (reach_var _ _ _ _ (GV i))|]. pose proof (gvar_spec (component 2 i vcase_c) "x" 3) as S. rewrite GV in S.
    destruct S as (_ & _ & O & S & _). unfold G. split; [|left; unfold get_order in *; lia].
    rewrite S. intros s' [<-|[]]. exists "x"%char, "". split; [reflexivity|discriminate]. }
  assert (A3 : forall i, (i < 2)%nat -> py_smooth vd vcase_expr (inputs vd (G i) pt center) 3).
  { intros i Hi. assert (P : inputs vd (G i) pt center "x" = 1 + INR i).
    { unfold inputs, vd. cbn [String.eqb Ascii.eqb Bool.eqb]. unfold G. rewrite VA, CI by auto. unfold center. ring. }
    pose proof (pos_INR i).
    unfold vcase_expr. cbn [py_smooth py_real]. rewrite P. unfold math_ok. cbn [lookup find math_table fst snd String.eqb Ascii.eqb Bool.eqb mf_dom mf_upto].
    split; [split; [auto|split; [auto|intros X; Lra.lra]]|]. split; [|auto]. split; [auto|].
    split; [cbn; Lra.lra|intros _; exact I]. }
  assert (A4 : forall i, (i < 2)%nat -> steps_ok 2 i vcase_env (fun s => if vd s then VGdual (G i s) else VFloat (pt s)) vcase_expr).
  { intros i Hi. apply no_steps_ok. cbn. split; [split; [auto|split; [auto|discriminate]]|]. split; [|discriminate]. split; [auto|discriminate]. }
  assert (V : forall x, py_real vcase_expr (inputs vd (G 1%nat) pt x) = 2 / (2 + x "dx") + ln (2 + x "dx")).
  { intros x. unfold vcase_expr. cbn [py_real]. unfold inputs, vd. cbn [String.eqb Ascii.eqb Bool.eqb]. unfold G. rewrite VA, CI by lia.
    replace (1 + INR 1) with 2 by (cbn; ring). reflexivity. }
  assert (E : exists g, vpy_eval vcase_env vcase_expr = Ok (WVec g) /\ get_order g = 3%nat) by (eexists; split; reflexivity).
  destruct E as (g & E & Og). destruct (gpartial g "x") as [r|] eqn:Er; [|discriminate]. destruct (gintegrate g "x") as [w|] eqn:Ew; [|discriminate].
  destruct (vec_partial 2 2 3 vd vcase_env G pt vcase_expr A1 A3 eq_refl A4 g "x" r A2 E Er 1%nat
    (fun x => - 2 / ((2 + x "dx") * (2 + x "dx")) + 1 / (2 + x "dx")) ltac:(lia)) as (h & Bh & Th).
  { exists (1 / 2). split; [lra|]. intros x Hx. assert (B := Hx "dx"). apply Rabs_le_between in B.
    apply is_derive_Reals. apply (is_derive_ext (fun t => 2 / (2 + t) + ln (2 + t))); [intros t; rewrite V; reflexivity|].
    change (dsym "x") with "dx". auto_derive; [repeat split; lra|field; lra]. }
  destruct (vec_integral 2 3 3 vd vcase_env G pt vcase_expr A1 A3 eq_refl A4 g "x" w A2 ltac:(lia) E Ew 1%nat 3%nat ltac:(lia) ltac:(lia) ltac:(lia)) as (k & Bk & Tk).
  exists g, r, w, h, k. repeat (split; [auto|]).
  eapply taylor_near; [|exact Tk]. exists 1. split; [lra|]. intros x _. apply RInt_ext. intros t _. rewrite V. change (dsym "x") with "dx".
  rewrite (update_same x "dx" t). reflexivity.
Qed.
