(** * Square roots of models at high orders (proof file) *)
From Coq Require Import String List Arith Bool ZArith Reals Permutation Lra Lia.
From Coquelicot Require Import Coquelicot.
From Verif Require Import Ops Syms SymsFacts Poly PolyFacts Gdual GdualFacts Functions FunStruct Bounding SpecBounding BoundSamples Spec SpecTaylor CoefFacts CoreProofs CalcProofs ValueProofs MiscProofs ElemR FunAlg TayProofs Uni UniFun Interval TaylorModel TMFunctions SpecTM TMMaps TMArith TMMul Lagrange TMTaylor TMBounds TMPow TMMisc TMSamples TMFlat TMRefute TMExact TMRefute2 TMInst TMGlue TMRefute5 TMProbe.
From Verif Require Import Sem Den.
Import ListNotations.
Local Open Scope string_scope.
Local Open Scope list_scope.
Local Open Scope R_scope.

(** ** The wrapped double factorial *)
Lemma int64_range z : (-9223372036854775808 <= int64 z <= 9223372036854775807)%Z.
Proof. unfold int64. assert (X := Z.mod_pos_bound (z + 9223372036854775808) 18446744073709551616 ltac:(lia)). lia. Qed.
Lemma loop_range n : (Z.abs (factorial2_loop n) <= 9223372036854775808)%Z.
Proof.
  unfold factorial2_loop. assert (X : forall l r, (Z.abs r <= 9223372036854775808)%Z ->
    (Z.abs (fold_left (fun result i => int64 (result * (n - 2 * Z.of_nat i)))%Z l r) <= 9223372036854775808)%Z).
  { induction l as [|a l IH]; intros r Hr; cbn [fold_left]; auto. apply IH. assert (Y := int64_range (r * (n - 2 * Z.of_nat a))). lia. }
  apply X. lia.
Qed.
Lemma factorial2_range n : (Z.abs (factorial2_u n) <= 9223372036854775808)%Z.
Proof. unfold factorial2_u. destruct (n =? 0)%Z; [lia|]. apply loop_range. Qed.
Lemma odf_mono a b : (a <= b)%nat -> (odf a <= odf b)%Z.
Proof.
  assert (P : forall k, (0 < odf k)%Z) by (induction k; cbn [odf]; [lia|]; nia).
  induction 1; [lia|]. cbn [odf]. specialize (P m). nia.
Qed.
Lemma odf_large n : (18 <= n)%nat -> (221643095476699771875 <= odf n)%Z.
Proof. intros H. assert (X := odf_mono 18 n H). exact X. Qed.

Lemma one_var iter s : permutes iter -> ordered_on iter [s].
Proof.
  intros Hp box Nb Ib. assert (L : (length box <= 1)%nat) by (rewrite <- (map_length fst); apply (NoDup_incl_length Nb Ib)).
  assert (X := Hp box). destruct box as [|b [|b' l]]; [|rewrite (Permutation_length_1_inv (Permutation_sym X)); auto|cbn in L; lia].
  apply Permutation_sym, Permutation_nil in X. rewrite X. auto.
Qed.
(** x on [1, 1 + h], exactly: all of the terms up to the order are kept. *)
Lemma var_probe iter h n : permutes iter -> 0 <= h -> (1 <= n)%nat -> (Z.of_nat n < 4294967296)%Z ->
  probe iter (var n 1 (0, 0) (1, 1 + h)) (on (1, 1 + h)) (fun x => x "x") (at_x (1 + h)) n 1 h h.
Proof.
  intros Hp Hh H1 Hn. set (A := var n 1 (0, 0) (1, 1 + h)). assert (W : well_formed A) by (apply wf_var; auto; try (unfold within; cbn; lra); lra).
  assert (V := wf_poly _ W). assert (SA : simple A) by apply var_simple. assert (L := proj1 SA).
  assert (C : constant_cf (m_tpol A) = 1).
  { rewrite <- (value_zero _ V). cbn. toR. ring. }
  assert (Oi : ordered_on iter (variables A)) by (apply (one_var iter "x"); auto).
  assert (R0 : represents (on (1, 1 + h)) A (fun x => x "x")) by (apply var_represents; auto; try (unfold within; cbn; lra); lra).
  assert (Bx : forall x, in_box (m_domain A) x -> 1 <= x "x" <= 1 + h) by (intros x Hx; exact (Hx "x" (1, 1 + h) (or_introl eq_refl))).
  assert (On : forall v, 1 <= v <= 1 + h -> in_box (m_domain A) (at_x v)) by (intros v Hv; apply on_box; unfold on, within, at_x; cbn; lra).
  constructor; auto.
  - unfold on, within, at_x; cbn; lra.
  - intros x Hx. exact (proj1 Hx).
  - destruct (f_bar_exact iter A W) as (lo & hi & x & y & E & B1 & B2 & Vx & Vy); auto. destruct (f_bar_ok iter A _ _ R0 Hn SA Hp Oi) as (F & EF & BF).
    unfold A in Vx, Vy. rewrite var_value in Vx, Vy. fold A in Vx, Vy. rewrite C in *. rewrite E in EF. injection EF as <-.
    assert (I1 := BF (at_x 1) ltac:(unfold on, within, at_x; cbn; lra)). assert (I2 := BF (at_x (1 + h)) ltac:(unfold on, within, at_x; cbn; lra)).
    unfold within, at_x in I1, I2. cbn in I1, I2. apply Bx in B1, B2. rewrite E. f_equal. unfold iadd. cbn [fst snd m_rem A var]. apply (f_equal2 pair); cbn; lra.
  - destruct (tm_bounds_exact iter A W) as (lo & hi & x & y & E & B1 & B2 & Vx & Vy); auto. destruct (bounds_ok iter A _ _ R0 Hn SA Hp Oi) as (b & Eb & BF).
    unfold A in Vx, Vy. rewrite var_value in Vx, Vy. fold A in Vx, Vy. rewrite E in Eb. injection Eb as <-.
    assert (I1 := BF (at_x 1) ltac:(unfold on, within, at_x; cbn; lra)). assert (I2 := BF (at_x (1 + h)) ltac:(unfold on, within, at_x; cbn; lra)).
    unfold within, at_x in I1, I2. cbn in I1, I2. apply Bx in B1, B2. exists (lo, hi). split; auto. unfold iadd. cbn [fst snd m_rem A var]. apply (f_equal2 pair); cbn; lra.
  - intros r a Sr E. rewrite (linear_value (m_tpol A) r a); auto; try apply Sr.
    assert (X := var_value n 1 (0, 0) (1, 1 + h) (at_x (1 + h))). fold A in X. rewrite X, C. unfold at_x. change (gord (m_tpol A)) with n. f_equal. ring.
Qed.
Lemma pow_small n : (n <= 170)%nat -> (1 + 1 / 1024) ^ n <= 3.
Proof.
  intros H. assert (E := exp_ineq1_le (1 / 1024)). apply (Rle_trans _ (exp (1 / 1024) ^ n)); [apply pow_incr; lra|].
  replace (exp (1 / 1024) ^ n) with (exp (INR n * (1 / 1024))).
  2:{ clear. induction n; [cbn; rewrite Rmult_0_l; apply exp_0|]. rewrite S_INR. cbn [pow]. rewrite <- IHn, <- exp_plus. f_equal. ring. }
  apply (Rle_trans _ (exp 1)); [|exact exp_le_3]. apply exp_le. apply le_INR in H. replace (INR 170) with 170 in H by (cbn; lra). lra.
Qed.
Lemma sqrt_high_orders {iv : IvFun R} iter n : permutes iter -> iv_moderate iv -> (18 <= n <= 169)%nat ->
  exists (D : SpecTM.point -> Prop) A f T, represents D A f /\ simple A /\ m_rem A = (0, 0) /\ get_order (m_tpol A) = n /\ (forall x, D x -> 1 <= f x) /\
    tm_sqrt iter A = Ok T /\ ~ encloses D T (fun x => sqrt (f x)).
Proof.
  intros Hp MV Hn. set (h := 1 / 1024). assert (Hh : 0 < h) by (unfold h; lra). assert (P := var_probe iter h n Hp ltac:(lra) ltac:(lia) ltac:(lia)).
  set (A := var n 1 (0, 0) (1, 1 + h)) in *. exists (on (1, 1 + h)), A, (fun x => x "x").
  assert (W : well_formed A) by exact (proj1 (pr_rep _ _ _ _ _ _ _ _ _ P)). assert (V := wf_poly _ W). assert (Wg := valid_gwf _ V).
  assert (Ng : gnz (m_tpol A)) by exact (proj2 (proj1 (valid_iff _) V)). assert (S0 := sto_self _ Wg Ng). assert (c1 := pr_cf _ _ _ _ _ _ _ _ _ P).
  cut (exists T, tm_sqrt iter A = Ok T /\ ~ encloses (on (1, 1 + h)) T (fun x => sqrt (x "x"))).
  { intros (T & E & X). exists T. split; [exact (pr_rep _ _ _ _ _ _ _ _ _ P)|]. split; [apply var_simple|]. split; auto. split; auto. split; [exact (pr_all _ _ _ _ _ _ _ _ _ P)|]. auto. }
  destruct (pr_B _ _ _ _ _ _ _ _ _ P) as (b & Eb & Hb). unfold tm_sqrt. rewrite (pr_F _ _ _ _ _ _ _ _ _ P), Eb. cbn [rbind]. rewrite (guard A h b Hb).
  rewrite c1. unfold root_denominator. rewrite idiv_up by lra. cbn [rbind]. change (@k1 R OpsR) with 1.
  replace (iadd (ipt 1) (imul (0, h) unit_interval)) with (1, 1 + h).
  2:{ unfold unit_interval. change (@k0 R OpsR) with 0. change (@k1 R OpsR) with 1. rewrite imul_pos by lra. unfold iadd, ipt. cbn [fst snd]. apply (f_equal2 pair); cbn; ring. }
  change (get_order (m_tpol A)) with n. rewrite factorial_fits_le by lia.
  set (s := (_ / _)%K).
  assert (Rq : exists q, idiv (imul (ipt s) (ipow (0, h) (n + 1))) (ipt (kpow (1 : R) (n + 1))) = Ok q /\ small q (Rabs s * h ^ (n + 1))).
  { rewrite kpow_pow, pow1. apply idiv_one. apply small_imul; [apply small_ipt|]. apply small_ipow. split; cbn [fst snd]; rewrite Rabs_right; lra. }
  destruct Rq as (q & Eq & Sq). rewrite Eq. cbn [rbind].
  destruct (ipow_ge1 (1, 1 + h) (2 * n + 1)) as [I1 I2]; [cbn; lra|cbn; lra|].
  destruct (mod_sqrt _ MV (ipow (1, 1 + h) (2 * n + 1)) I1 I2) as [J1 J2].
  assert (F0 := INR_fact_lt_0 (S n)). assert (T0 : 0 < 2 ^ S n) by (apply pow_lt; lra).
  assert (Es : Rabs s <= 9223372036854775808 * / (INR (fact (S n)) * 2 ^ S n)).
  { unfold s. set (z := factorial2_u _). assert (Hz : Rabs (IZR z) <= 9223372036854775808) by (rewrite <- abs_IZR; apply IZR_le, factorial2_range).
    toR. rewrite kfact_R. change (@e_pow R ElemR) with rpow. replace (1 / 2) with (1 / 2 - INR 0) by (cbn; lra).
    rewrite rpow_half by lra. cbn [pow]. unfold Rdiv at 2. rewrite sqrt_1, Rinv_1, !Rmult_1_r, Nat.add_1_r. unfold Rdiv. rewrite !Rabs_mult.
    replace (- (1)) with (-1) by lra. rewrite abs_sign, Rmult_1_l. rewrite (Rabs_right (/ _)); [|apply Rle_ge, Rlt_le, Rinv_0_lt_compat; apply Rmult_lt_0_compat; auto].
    apply Rmult_le_compat_r; auto. apply Rlt_le, Rinv_0_lt_compat; apply Rmult_lt_0_compat; auto. }
  destruct (idiv_small (imul q (ipt 1)) (i_sqrt (ipow (1, 1 + h) (2 * n + 1))) (Rabs s * h ^ (n + 1) * 1) (1 / 2)) as (t & Et & St);
    [apply small_imul; [exact Sq|apply small_ipt'; rewrite Rabs_R1; lra]|lra|auto|]. rewrite Et. cbn [rbind].
  apply (lost_trimmed iter A _ _ _ n 1 h h P _ _ (fun i => sqrt_d i 1 / INR (fact i)) sqrt (2 * Rabs s * h ^ (n + 1))).
  - apply sto_pow_real; auto.
  - change (1 / kofZ 2)%K with (@kdiv R OpsR k1 (kofZ 2)). rewrite pow_half_series, (gpow_series_psum idR (gord (m_tpol A)) (m_tpol A) _ Wg (le_n _)).
    rewrite (psum_ext _ (fun i => sqrt_d i 1 / INR (fact i))); [reflexivity|]. intros i _. unfold powc. rewrite c1. toR.
    change (@e_pow R ElemR) with rpow. rewrite rpow_half by lra. rewrite gbin_root. unfold sqrt_d, Rdiv. ring.
  - eapply small_le; [exact St|]. lra.
  - replace (sqrt (1 + h)) with (sqrt_d 0 (1 + h)) by (unfold sqrt_d; cbn [root_c pow]; field).
    eapply Rlt_le_trans; [|apply (rest n 1 h sqrt_d (fun x => 0 < x) (Rabs (root_c (S n)) * / (1 + h) ^ S n) ltac:(lra))].
    + rewrite root_c_odf, Nat.add_1_r. unfold Rdiv. rewrite !Rabs_mult, abs_sign, Rmult_1_l. rewrite (Rabs_right (/ 2 ^ S n)) by (apply Rle_ge, Rlt_le, Rinv_0_lt_compat; auto).
      assert (O := odf_large n ltac:(lia)). apply IZR_le in O. rewrite (Rabs_right (IZR (odf n))) by lra.
      assert (Hp' : 0 < h ^ S n) by (apply pow_lt; lra). assert (Q := pow_small (S n) ltac:(lia)). fold h in Q. assert (Q0 : 1 <= (1 + h) ^ S n) by (apply pow_R1_Rle; lra).
      apply (Rle_lt_trans _ (2 * (9223372036854775808 * / (INR (fact (S n)) * 2 ^ S n)) * h ^ S n)); [apply Rmult_le_compat_r; lra|].
      set (w := / (INR (fact (S n)) * 2 ^ S n) * h ^ S n). assert (Hw : 0 < w) by (apply Rmult_lt_0_compat; auto; apply Rinv_0_lt_compat, Rmult_lt_0_compat; auto).
      replace (2 * (9223372036854775808 * / (INR (fact (S n)) * 2 ^ S n)) * h ^ S n) with (18446744073709551616 * w) by (unfold w; ring).
      replace (IZR (odf n) * / 2 ^ S n * / (1 + h) ^ S n * (h ^ S n * / INR (fact (S n)))) with (IZR (odf n) * / (1 + h) ^ S n * w) by (unfold w; field; repeat split; lra).
      apply Rmult_lt_compat_r; auto. apply (Rmult_lt_reg_r ((1 + h) ^ S n)); [lra|]. rewrite Rmult_assoc, Rinv_l by lra. nra.
    + intros i x Hx. apply sqrt_ds. lra.
    + intros x Hx; lra.
    + intros x Hx. unfold sqrt_d, Rdiv. rewrite !Rabs_mult. rewrite Rmult_assoc. apply Rmult_le_compat_l; [apply Rabs_pos|].
      assert (Y : 1 <= sqrt x) by (rewrite <- sqrt_1; apply sqrt_le_1; lra). rewrite (Rabs_right (sqrt x)) by lra.
      assert (Z : / (1 + h) ^ S n <= / x ^ S n) by (apply Rinv_le_contravar; [apply pow_lt; lra|apply pow_incr; lra]).
      assert (Z0 : 0 < / (1 + h) ^ S n) by (apply Rinv_0_lt_compat, pow_lt; lra).
      rewrite (Rabs_right (/ x ^ S n)) by lra. nra.
Qed.
