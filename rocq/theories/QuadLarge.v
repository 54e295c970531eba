(** * The quadrature functions at orders from 2^31 on (proof file) *)
From Coq Require Import String Ascii List Arith Bool Lia ZArith Reals Lra.
From Coquelicot Require Import Coquelicot.
From Verif Require Import Ops Syms SymsFacts Poly PolyFacts Sem Den Gdual GdualFacts Functions FunStruct FunAlg Spec CoefFacts CoreProofs CalcProofs ValueProofs MiscProofs ElemR SpecTaylor Uni UniFun UniFun2 Taylor TayFun TayQuad TayProofs TayIdent TMArith TMMul TrigWrap.
Import ListNotations.
Open Scope string_scope.
Open Scope R_scope.

Definition bare (g : gdual R) : Prop := gwf g /\ pterms (gp g) = [].
Lemma bare_valid g : bare g -> valid g.
Proof. intros [W E]. apply valid_iff. split; auto. unfold gnz, nz. rewrite E. constructor. Qed.
Lemma bare_value g x : bare g -> value g x = 0.
Proof. intros [W E]. unfold value. rewrite E. reflexivity. Qed.
Lemma bare_add a b : bare a -> bare b -> bare (gadd a b).
Proof. intros [W E] [W' E']. split; [apply gadd_gwf; auto|]. unfold gadd, padd, pext. cbn [gp pterms]. rewrite E, E'. reflexivity. Qed.
Definition large (g : gdual R) : Prop := (2147483648 <= Z.of_nat (gord g) < 4294967296)%Z.
Lemma integral_bare (f dg df t : gdual R) s : gwf f -> gwf dg -> large f -> (gord dg <= gord f)%nat -> gpartial f s = Ok df -> gintegrate (gmul dg df) s = Ok t -> bare t.
Proof.
  intros Wf Wd L Ld E1 E2. apply gpartial_gwf in E1; auto. destruct E1 as [W1 O1].
  assert (WM : gwf (gmul dg df)) by (apply gmul_gwf; auto). split; [apply (gintegrate_gwf (gmul dg df) s t WM E2)|].
  apply (integrate_big (gmul dg df) s t); auto. unfold get_order. cbn [gmul gord]. rewrite O1. replace (Nat.max (gord dg) (gord f)) with (gord f) by lia. exact L.
Qed.
Lemma compose_large (f dg : gdual R) g0 r : gwf f -> gwf dg -> large f -> (gord dg <= gord f)%nat ->
  compose_from_derivative f dg g0 = Ok r -> forall x, value r x = g0.
Proof.
  intros Wf Wd L Ld E x. unfold compose_from_derivative in E. destruct (get_symbol_set f) as [|s ss].
  - injection E as <-. apply value_const.
  - destruct (gpartial f s) as [df|] eqn:E1; cbn [rbind] in E; [|discriminate].
    destruct (gintegrate (gmul dg df) s) as [t|] eqn:E2; cbn [rbind] in E; [|discriminate].
    assert (B := integral_bare f dg df t s Wf Wd L Ld E1 E2). clear E1 E2 df.
    destruct (compose_loop s ss f dg t) as [u|] eqn:E3; cbn [rbind] in E; [|discriminate]. injection E as <-.
    assert (Bu : bare u).
    { revert s f dg t Wf Wd L Ld B E3. induction ss as [|s' ss IH]; intros s f dg t Wf Wd L Ld B E3; cbn [compose_loop] in E3; [injection E3 as <-; auto|].
      destruct (gpartial (gsubs_val f (dsym s) _) s') as [df|] eqn:E1; cbn [rbind] in E3; [|discriminate].
      destruct (gintegrate (gmul (gsubs_val dg (dsym s) _) df) s') as [t'|] eqn:E2; cbn [rbind] in E3; [|discriminate].
      assert (B' := integral_bare _ _ df t' s' (gsubs_val_gwf f (dsym s) _ Wf) (gsubs_val_gwf dg (dsym s) _ Wd) L Ld E1 E2).
      apply (IH s' (gsubs_val f (dsym s) k0) (gsubs_val dg (dsym s) k0) (gadd t t')); auto; try (apply gsubs_val_gwf; auto). apply bare_add; auto. }
    rewrite value_add_sg by (apply bare_valid; auto). rewrite (bare_value u); auto. apply Rplus_0_r.
Qed.
Ltac ords := repeat first [apply sto_div_sg|apply sto_sub_sg|apply sto_add_sg|apply sto_sub_gs|apply sto_add_gs|apply sto_mul_sg|apply sto_sqrt|apply sto_exp|apply sto_mul]; auto.
Lemma quad_value f d r : valid d -> large d -> runD f d = Ok r -> forall x, value r x = realD f (constant_cf d).
Proof.
  intros V L E. apply valid_iff in V. destruct V as [W N]. assert (S := sto_self d W N).
  assert (G : forall dg g0 r, sto (gsyms d) (gord d) dg -> compose_from_derivative d dg g0 = Ok r -> forall x, value r x = g0).
  { intros dg g0 q Q. apply compose_large; auto; [apply Q|]. rewrite (sto_ord _ _ _ Q). lia. }
  assert (GE : forall r, gerf d = Ok r -> forall x, value r x = erf_R (constant_cf d)).
  { intros q Eq. refine (G _ _ q _ Eq). ords. constructor.
    - apply gneg_gwf; auto.
    - apply valid_gnz, valid_neg, valid_iff. auto.
    - reflexivity.
    - reflexivity. }
  destruct f; cbn [runD realD] in *; try (refine (G _ _ r _ E); ords; fail); auto.
  unfold gerfc in E. destruct (gerf d) as [q|] eqn:Eq; [|discriminate]. cbn [rbind] in E. injection E as <-. intros x.
  rewrite value_sub_sg; [rewrite (GE q); auto|]. apply (runD_valid Derf d q); auto. apply valid_iff. auto.
Qed.

Lemma deriv_nonzero f p : domD f p -> exists l, l <> 0 /\ is_derive (realD f) p l.
Proof.
  assert (PP := PI_RGT_0). assert (SQ := sqrt_lt_R0 PI PP). assert (Q : forall a, 0 < a -> 1 / sqrt a <> 0).
  { intros a Ha. assert (X := sqrt_lt_R0 a Ha). apply Rgt_not_eq. apply Rdiv_lt_0_compat; lra. }
  assert (QE : 2 / sqrt PI * exp (- p * p) <> 0).
  { apply Rgt_not_eq. apply Rmult_lt_0_compat; [apply Rdiv_lt_0_compat; lra|apply exp_pos]. }
  destruct f; cbn [domD realD]; intros D.
  - exists (/ (1 - p * p)). split; [apply Rinv_neq_0_compat; nra|apply is_derive_atanh; auto].
  - exists (/ (1 + p ^ 2)). split; [apply Rinv_neq_0_compat; nra|apply is_derive_Reals, derivable_pt_lim_atan].
  - exists (1 / sqrt (1 - p * p)). split; [apply Q; nra|apply is_derive_asin; auto].
  - exists (1 / sqrt (1 + p * p)). split; [apply Q; nra|apply is_derive_asinh].
  - exists (- (1) / sqrt (1 - p * p)). split; [|apply is_derive_acos; auto]. assert (X := Q (1 - p * p) ltac:(nra)). unfold Rdiv in *. lra.
  - exists (1 / sqrt ((p - 1) * (p + 1))). split; [apply Q; nra|apply is_derive_acosh; auto].
  - exists (2 / sqrt PI * exp (- p * p)). split; auto. apply is_derive_erf.
  - exists (- (2 / sqrt PI * exp (- p * p))). split; [lra|].
    apply (is_derive_ext (fun x => 1 - erf_R x)); [reflexivity|]. assert (X := is_derive_erf p).
    replace (- (2 / sqrt PI * exp (- p * p))) with (0 - (2 / sqrt PI * exp (- p * p))) by ring.
    apply (is_derive_minus (fun _ => 1) erf_R p 0 _); auto. apply (@is_derive_const R_AbsRing).
Qed.
(** A function within O(t^2) of a constant has derivative 0. *)
Lemma flat_derive F p c l C e : 0 < e -> 0 <= C -> (forall t, Rabs t <= e -> Rabs (F (p + t) - c) <= C * Rabs t ^ 2) -> is_derive F p l -> l = 0.
Proof.
  intros He HC B D. apply is_derive_Reals in D.
  assert (Fp : F p = c).
  { specialize (B 0). rewrite Rplus_0_r, Rabs_R0 in B. assert (X := B ltac:(lra)). replace (C * 0 ^ 2) with 0 in X by ring. assert (Y := Rabs_pos (F p - c)).
    destruct (Req_dec (F p - c) 0) as [|N]; [lra|]. apply Rabs_no_R0 in N. lra. }
  assert (D0 : derivable_pt_lim F p 0).
  { intros eps Heps. set (m := Rmin e (eps / (C + 1))). assert (0 < eps / (C + 1)) by (apply Rdiv_lt_0_compat; lra).
    assert (Hm : 0 < m) by (apply Rmin_pos; auto). exists (mkposreal m Hm). intros t Nt Ht. cbn in Ht.
    assert (L1 : Rabs t <= e) by (eapply Rle_trans; [apply Rlt_le, Ht|apply Rmin_l]).
    assert (L2 : Rabs t < eps / (C + 1)) by (eapply Rlt_le_trans; [exact Ht|apply Rmin_r]).
    specialize (B t L1). rewrite Fp, Rminus_0_r. unfold Rdiv. rewrite Rabs_mult, Rabs_inv.
    assert (Pt : 0 < Rabs t) by (apply Rabs_pos_lt; auto).
    apply (Rmult_lt_reg_r (Rabs t)); auto. rewrite Rmult_assoc, Rinv_l, Rmult_1_r by lra.
    eapply Rle_lt_trans; [exact B|]. replace (C * Rabs t ^ 2) with ((C * Rabs t) * Rabs t) by ring. apply Rmult_lt_compat_r; auto.
    apply (Rmult_lt_compat_r (C + 1)) in L2; [|lra]. unfold Rdiv in L2. rewrite Rmult_assoc, Rinv_l, Rmult_1_r in L2 by lra. nra. }
  exact (uniqueness_limite F p l 0 D D0).
Qed.
Lemma quad_refuted f v s N (d r : gdual R) : gvar v s N = Ok d -> (2147483648 <= Z.of_nat N)%Z -> domD f v -> runD f d = Ok r ->
  (forall x, value r x = realD f v) /\ ~ taylor_of 1 r (fun x => realD f (v + x (dsym s))).
Proof.
  intros E L D Er. pose proof (gvar_spec v s N) as S. rewrite E in S. destruct S as (LN & _ & Og & _ & V).
  pose proof (expands_var N N v s d (le_n _) E) as H. assert (C0 := expands_at _ _ _ H). cbv beta in C0. rewrite Rplus_0_r in C0.
  assert (Q : forall x, value r x = realD f v).
  { intros x. rewrite C0. apply quad_value; auto. unfold large. change (gord d) with (get_order d). rewrite Og. lia. }
  split; auto. intros (C & e & He & HC & B). destruct (deriv_nonzero f v D) as (l & Nl & Dl). apply Nl.
  apply (flat_derive (realD f) v (realD f v) l C e); auto. intros t Ht.
  specialize (B (fun _ => t) (Rabs t) (fun _ => Rle_refl _) Ht). cbv beta in B. rewrite Q in B. exact B.
Qed.
(** The forms stated in Properties_LargeOrders.v. *)
Lemma var_exists (v : R) N : (Z.of_nat N < 4294967285)%Z -> exists d, gvar v "x" N = Ok d.
Proof.
  intros L. pose proof (gvar_spec v "x" N) as S. destruct (gvar v "x" N) as [d|[]]; eauto; try contradiction; try discriminate.
  destruct S as [H|[r H]]; [lia|discriminate].
Qed.
Lemma trig_large v N : (65537 <= Z.of_nat N < 4294967285)%Z -> exists d, gvar v "x" N = Ok d /\
  (cos v <> 0 -> ~ taylor_of (Z.to_nat 65537) (gsin d) (fun x => sin (v + x (dsym "x")))) /\
  (sin v <> 0 -> ~ taylor_of (Z.to_nat 65537) (gcos d) (fun x => cos (v + x (dsym "x")))).
Proof. intros [L H]. destruct (var_exists v N H) as [d E]. exists d. split; auto. apply (trig_refuted v "x" N d E L). Qed.
Lemma quad_large f v N : (2147483648 <= Z.of_nat N < 4294967285)%Z -> domD f v -> exists d r, gvar v "x" N = Ok d /\ runD f d = Ok r /\
  (forall x, value r x = realD f v) /\ ~ taylor_of 1 r (fun x => realD f (v + x (dsym "x"))).
Proof.
  intros [L H] D. destruct (var_exists v N H) as [d E]. pose proof (gvar_spec v "x" N) as S. rewrite E in S. destruct S as (_ & _ & _ & Sy & V).
  destruct (runD_ok f d V) as [r Er].
  - intros s Hs. assert (X := gvar_syms v "x" N d E). unfold gsyms in Hs. rewrite X in Hs. destruct Hs as [<-|[]]. exists "x"%char, EmptyString. split; [reflexivity|discriminate].
  - exists d, r. split; auto. split; auto. apply (quad_refuted f v "x" N d r); auto.
Qed.
Lemma atan_large N : (31 <= Z.of_nat N < 4294967285)%Z -> exists d, gvar (1 : R) "x" N = Ok d /\
  ~ taylor_of 31 (gatan d) (fun x => atan (1 + x (dsym "x"))).
Proof. intros [L H]. destruct (var_exists 1 N H) as [d E]. exists d. split; auto. apply (atan_large_refuted "x" N d E). lia. Qed.
Lemma asin_large N : (31 <= Z.of_nat N < 4294967285)%Z -> exists d, gvar (sin (PI / 4)) "x" N = Ok d /\
  ~ taylor_of 31 (gasin d) (fun x => asin (sin (PI / 4) + x (dsym "x"))) /\
  ~ taylor_of 31 (gacos d) (fun x => acos (sin (PI / 4) + x (dsym "x"))).
Proof.
  intros [L H]. destruct (var_exists (sin (PI / 4)) N H) as [d E]. exists d. split; auto.
  split; [apply (asin_large_refuted "x" N d E)|apply (acos_large_refuted "x" N d E)]; lia.
Qed.
