(** * Taylor models: absolute value, pairs of functions, comparison; double factorials *)
From Coq Require Import String List Arith Bool ZArith Reals Permutation Lra Lia.
From Verif Require Import Ops Syms SymsFacts Poly PolyFacts Gdual GdualFacts Functions FunStruct Spec CoefFacts CoreProofs CalcProofs ValueProofs MiscProofs ElemR Interval TaylorModel TMFunctions SpecTM TMMaps TMArith TMMul TMTaylor TMPow.
Import ListNotations.
Local Open Scope R_scope.

(** ** Absolute value *)
Lemma tm_abs_ok A D f : represents D A f ->
  (0 <= constant_cf (m_tpol A) /\ 0 <= fst (m_rem A) /\ (forall x, D x -> 0 <= f x)) \/
  (constant_cf (m_tpol A) < 0 /\ snd (m_rem A) <= 0 /\ (forall x, D x -> f x <= 0)) ->
  exists T, tm_abs A = Ok T /\ represents D T (fun x => Rabs (f x)).
Proof.
  intros [W H] C. unfold tm_abs. assert (V := wf_poly _ W). destruct C as [(C & S & P)|(C & S & P)].
  - assert (E : gabs (m_tpol A) = m_tpol A).
    { unfold gabs. cbn. unfold Rltb, Reqb. destruct (Rlt_dec 0 _); auto. destruct (Req_EM_T _ 0); auto. exfalso. lra. }
    rewrite E. apply (represent_same A _ _ D f); auto. intros x Hx X. rewrite Rabs_pos_eq by auto.
    replace (iabs (m_rem A)) with (m_rem A); auto. unfold iabs. replace (fst (m_rem A) <? 0)%K with false; auto. symmetry. apply Rltb_false. auto.
  - assert (E : gabs (m_tpol A) = gneg (m_tpol A)).
    { unfold gabs. cbn. unfold Rltb, Reqb. destruct (Rlt_dec 0 _); [lra|]. destruct (Req_EM_T _ 0); auto. exfalso. lra. }
    rewrite E. apply (represent_same A _ _ D f); auto; [apply valid_neg; auto|]. intros x Hx X. rewrite Rabs_left1 by auto.
    rewrite value_neg by auto. replace (- f x - - _) with (- (f x - value (m_tpol A) (displacement (m_exp A) x))) by (cbn; ring).
    unfold iabs. destruct (fst (m_rem A) <? 0)%K eqn:N; cbn [negb].
    + replace (0 <? snd (m_rem A))%K with false by (symmetry; apply Rltb_false; auto). cbn [negb]. apply within_neg. auto.
    + apply Rltb_false in N. change (k0 : R) with 0 in N. unfold within in *. lra.
Qed.

(** ** The functions returning pairs *)
Section Pairs.
  Context {K : Type} {o : Ops K} {e : Elem K} {iv : IvFun K}.
  Variable iter : list (string * (K * K)) -> list (string * (K * K)).
  Lemma sin_and_cos_pair t : tm_sin_and_cos iter t = (s <- tm_sin iter t;; c <- tm_cos iter t;; Ok (s, c)).
  Proof.
    unfold tm_sin_and_cos, tm_sin, tm_cos. destruct (f_bar_remainder_bounds iter t); cbn [rbind]; auto. unfold factorial_fits. destruct (factorial_overflows _); reflexivity.
  Qed.
  Lemma sinh_and_cosh_pair t : tm_sinh_and_cosh iter t = (s <- tm_sinh iter t;; c <- tm_cosh iter t;; Ok (s, c)).
  Proof.
    unfold tm_sinh_and_cosh, tm_sinh, tm_cosh. destruct (f_bar_remainder_bounds iter t); cbn [rbind]; auto. unfold factorial_fits. destruct (factorial_overflows _); reflexivity.
  Qed.
End Pairs.

(** ** Comparison *)
Section MapEq.
  Context {V : Type}.
  Lemma agree_spec (veqb : V -> V -> bool) a b : distinct_keys a -> distinct_keys b ->
    Nat.eqb (length a) (length b) && forallb (fun kv => match dfind (fst kv) b with Some v => veqb (snd kv) v | None => false end) a = true <->
    agree (fun v w => veqb v w = true) a b.
  Proof.
    intros Da Db. rewrite andb_true_iff, Nat.eqb_eq, forallb_forall. unfold agree. split.
    - intros [L F]. assert (I : incl (map fst a) (map fst b)).
      { intros s Hs. apply key_In in Hs. destruct Hs as [v Hv]. specialize (F _ Hv). cbn [fst snd] in F. destruct (dfind s b) as [w|] eqn:E; [|discriminate].
        apply dfind_In in E. apply (in_map fst) in E. exact E. }
      split.
      + intros s. split; [apply I|]. apply (NoDup_length_incl Da); auto. rewrite !map_length. lia.
      + intros s v w Hv Hw. specialize (F _ Hv). cbn [fst snd] in F. rewrite (In_dfind s w b Db Hw) in F. auto.
    - intros [I F]. split.
      + rewrite <- (map_length fst a), <- (map_length fst b). apply Permutation_length. apply NoDup_Permutation; auto.
      + intros [s v] Hv. cbn [fst snd]. assert (Hs : In s (map fst b)) by (apply I; apply (in_map fst) in Hv; exact Hv).
        apply key_In in Hs. destruct Hs as [w Hw]. rewrite (In_dfind s w b Db Hw). eauto.
  Qed.
  Lemma agree_sym (veq : V -> V -> Prop) a b : (forall v w, veq v w -> veq w v) -> agree veq a b -> agree veq b a.
  Proof. intros S [I F]. split; [intros s; symmetry; apply I|]. intros s v w Hv Hw. apply S. eauto. Qed.
End MapEq.
Lemma close_sym u v : close u v -> close v u.
Proof. unfold close. intros H. rewrite Rabs_minus_sym. auto. Qed.
Lemma close_refl u : close u u.
Proof. unfold close. rewrite Rminus_diag_eq, Rabs_R0 by auto. lra. Qed.

Lemma tm_eqb_iff a b : well_formed a -> well_formed b -> tm_eqb a b = true <-> tm_equal a b.
Proof.
  intros Wa Wb. unfold tm_eqb, tm_equal. rewrite !andb_true_iff. unfold map_equal, map_interval_equal.
  rewrite (value_eq_iff (m_tpol a) (m_tpol b)) by (apply Wa || apply Wb). rewrite interval_equal_spec.
  rewrite (agree_spec (fun v w : R => (v =? w)%K)) by (apply Wa || apply Wb). rewrite (agree_spec interval_equal) by (apply Wa || apply Wb).
  assert (X : agree (fun v w : R => (v =? w)%K = true) (m_exp a) (m_exp b) <-> agree (fun v w => v = w) (m_exp a) (m_exp b)).
  { unfold agree. cbn. unfold Reqb. split; intros [I F]; split; auto; intros s v w Hv Hw; specialize (F s v w Hv Hw); destruct (Req_EM_T v w); auto; discriminate. }
  assert (Y : agree (fun I J => interval_equal I J = true) (m_domain a) (m_domain b) <->
              agree (fun I J => close (fst I) (fst J) /\ close (snd I) (snd J)) (m_domain a) (m_domain b)).
  { unfold agree. split; intros [I F]; split; auto; intros s v w Hv Hw; specialize (F s v w Hv Hw); apply interval_equal_spec; auto. }
  rewrite X, Y. tauto.
Qed.
Lemma tm_eqb_refl a : well_formed a -> tm_eqb a a = true.
Proof.
  intros W. apply tm_eqb_iff; auto. split; auto. split; [split; apply close_refl|]. split; (split; [tauto|]).
  - intros s v w. apply distinct_In. apply W.
  - intros s v w Hv Hw. rewrite (distinct_In s v w _ (wf_dom _ W) Hv Hw). split; apply close_refl.
Qed.
Lemma tm_eqb_sym a b : well_formed a -> well_formed b -> tm_eqb a b = tm_eqb b a.
Proof.
  intros Wa Wb. assert (X : forall a b, well_formed a -> well_formed b -> tm_eqb a b = true -> tm_eqb b a = true).
  { clear. intros a b Wa Wb. rewrite !tm_eqb_iff by auto. intros (P & (R1 & R2) & E & F). split; auto. split; [split; apply close_sym; auto|]. split.
    - apply agree_sym; auto.
    - apply agree_sym; auto. intros v w [Q Q']. split; apply close_sym; auto. }
  destruct (tm_eqb a b) eqn:E, (tm_eqb b a) eqn:F; auto.
  - rewrite (X a b) in F; auto.
  - rewrite (X b a) in E; auto.
Qed.
Lemma tm_neqb_neg {K} {o : Ops K} (a b : taylor_model K) : tm_neqb a b = negb (tm_eqb a b).
Proof. unfold tm_neqb, tm_eqb, gneqb. rewrite !negb_andb. auto. Qed.

(** ** Double factorials *)
Section DFact.
  Local Open Scope Z_scope.
  Lemma dfact_SS n : dfact (S (S n)) = Z.of_nat (S (S n)) * dfact n.
  Proof. reflexivity. Qed.
  Definition span := 18446744073709551616.
  Lemma int64_mod z : int64 z mod span = z mod span.
  Proof. unfold int64. fold span. rewrite Zminus_mod_idemp_l. f_equal. ring. Qed.
  Lemma int64_eq y z : y mod span = z mod span -> int64 y = int64 z.
  Proof. intros H. unfold int64. fold span. f_equal. rewrite <- (Zplus_mod_idemp_l y), <- (Zplus_mod_idemp_l z), H. auto. Qed.
  Lemma int64_range z : -9223372036854775808 <= int64 z < 9223372036854775808.
  Proof. unfold int64. assert (X := Z.mod_pos_bound (z + 9223372036854775808) 18446744073709551616). lia. Qed.
  Lemma int64_small z : -9223372036854775808 <= z < 9223372036854775808 -> int64 z = z.
  Proof. intros H. unfold int64. rewrite Z.mod_small; lia. Qed.
  Lemma dfact_loop n : forall m a s, (2 * m = n - 2 * s \/ 2 * m = n - 2 * s + 1)%nat -> (m <> 0 -> 2 * s <= n)%nat ->
    exists z, fold_left (fun r i => int64 (r * (Z.of_nat n - 2 * Z.of_nat i))) (seq s m) a = z /\ z mod span = (a * dfact (n - 2 * s)) mod span.
  Proof.
    induction m as [|m IH]; intros a s H L; cbn [seq fold_left].
    - exists a. split; auto. replace (n - 2 * s)%nat with 0%nat by lia. cbn. rewrite Z.mul_1_r. auto.
    - specialize (L ltac:(lia)). destruct (Nat.eq_dec m 0) as [->|Nm].
      + eexists. split; [reflexivity|]. cbn [seq fold_left]. rewrite int64_mod.
        destruct H as [H|H].
        * replace (n - 2 * s)%nat with 2%nat by lia. replace (Z.of_nat n - 2 * Z.of_nat s) with 2 by lia. reflexivity.
        * replace (n - 2 * s)%nat with 1%nat by lia. replace (Z.of_nat n - 2 * Z.of_nat s) with 1 by lia. reflexivity.
      + destruct (IH (int64 (a * (Z.of_nat n - 2 * Z.of_nat s))) (S s)) as (z & Ez & Mz); [lia|lia|].
        exists z. split; auto. rewrite Mz, <- Zmult_mod_idemp_l, int64_mod, Zmult_mod_idemp_l. f_equal.
        replace (n - 2 * s)%nat with (S (S (n - 2 * S s)))%nat by lia. rewrite dfact_SS. replace (Z.of_nat n - 2 * Z.of_nat s) with (Z.of_nat (S (S (n - 2 * S s)))) by lia. ring.
  Qed.
  Lemma loop_result n : (1 <= n)%nat -> factorial2_loop (Z.of_nat n) = int64 (dfact n).
  Proof.
    intros H. unfold factorial2_loop. destruct (dfact_loop n (Z.to_nat ((Z.of_nat n + 1) / 2)) 1 0) as (z & Ez & Mz).
    - assert (X := Z.div_mod (Z.of_nat n + 1) 2 ltac:(lia)). assert (Y := Z.mod_pos_bound (Z.of_nat n + 1) 2 ltac:(lia)). lia.
    - lia.
    - rewrite Ez. rewrite Z.mul_1_l, Nat.mul_0_r, Nat.sub_0_r in Mz. assert (R : z = int64 z).
      { symmetry. apply int64_small. revert Ez. assert (Q : exists m, Z.to_nat ((Z.of_nat n + 1) / 2) = S m).
        { assert (X := Z.div_mod (Z.of_nat n + 1) 2 ltac:(lia)). assert (Y := Z.mod_pos_bound (Z.of_nat n + 1) 2 ltac:(lia)).
          exists (Z.to_nat ((Z.of_nat n + 1) / 2) - 1)%nat. lia. }
        destruct Q as [m ->]. rewrite seq_S, fold_left_app. cbn [fold_left]. intros <-. apply int64_range. }
      rewrite R. apply int64_eq. auto.
  Qed.
  (** factorial2(int) for every argument from -1 on *)
  Lemma factorial2_wraps (n : nat) : factorial2 (Z.of_nat n) = Ok (int64 (dfact n)).
  Proof.
    unfold factorial2. destruct (Z.ltb_spec (Z.of_nat n) (-1)); [lia|]. destruct n as [|n]; [reflexivity|].
    destruct (Z.eqb_spec (Z.of_nat (S n)) 0); [lia|]. destruct (Z.eqb_spec (Z.of_nat (S n)) (-1)); [lia|]. cbn [orb]. rewrite loop_result by lia. auto.
  Qed.
  Lemma dfact_large n : (34 <= n)%nat -> 9223372036854775808 <= dfact n.
  Proof.
    enough (X : forall m, 9223372036854775808 <= dfact (34 + m) /\ 9223372036854775808 <= dfact (35 + m)).
    { intros H. replace n with (34 + (n - 34))%nat by lia. exact (proj1 (X (n - 34)%nat)). }
    induction m as [|m [I1 I2]]; [vm_compute; split; discriminate|]. split; [replace (34 + S m)%nat with (35 + m)%nat by lia; exact I2|].
    remember (34 + m)%nat as q. replace (35 + S m)%nat with (S (S q)) by lia. rewrite dfact_SS. assert (1 <= Z.of_nat (S (S q))) by lia. nia.
  Qed.
  Lemma dfact_small n : (n <= 33)%nat -> 0 < dfact n < 9223372036854775808.
  Proof.
    intros H. do 34 (destruct n as [|n]; [vm_compute; split; reflexivity|]). lia.
  Qed.
  Lemma factorial2_exact (n : nat) : factorial2 (Z.of_nat n) = Ok (dfact n) <-> (n <= 33)%nat.
  Proof.
    rewrite factorial2_wraps. split.
    - intros E. assert (Q : int64 (dfact n) = dfact n) by (injection E; auto). destruct (Nat.le_gt_cases n 33); auto. exfalso.
      assert (X := dfact_large n). assert (Y := int64_range (dfact n)). lia.
    - intros H. rewrite int64_small; auto. assert (X := dfact_small n H). lia.
  Qed.
  Lemma factorial2_throws n : n < -1 -> factorial2 n = Throw InvalidArgument.
  Proof. intros H. unfold factorial2. destruct (Z.ltb_spec n (-1)); auto; lia. Qed.
  Lemma factorial2_minus_one : factorial2 (-1) = Ok 1.
  Proof. reflexivity. Qed.
  Lemma factorial2_unsigned (n : nat) : Z.of_nat n < 2147483648 -> factorial2_u (Z.of_nat n) = int64 (dfact n).
  Proof.
    intros H. unfold factorial2_u, two31. destruct n as [|n]; [reflexivity|]. destruct (Z.eqb_spec (Z.of_nat (S n)) 0); [lia|].
    destruct (Z.ltb_spec (Z.of_nat (S n)) 2147483648); [|lia]. apply loop_result. lia.
  Qed.
  Lemma factorial2_unsigned_large n : 2147483648 <= n < 4294967296 -> factorial2_u n = 1.
  Proof.
    intros H. unfold factorial2_u, two31, two32. destruct (Z.eqb_spec n 0); [lia|]. destruct (Z.ltb_spec n 2147483648); [lia|].
    unfold factorial2_loop. replace (Z.to_nat ((n - 4294967296 + 1) / 2)) with 0%nat; auto.
    assert ((n - 4294967296 + 1) / 2 <= 0); [apply Z.div_le_upper_bound; lia|lia].
  Qed.
End DFact.

(** ** Dispatch of pow on the exponent *)
Section Pow.
  Context {iv : IvFun R}.
  Variable iter : list (string * (R * R)) -> list (string * (R * R)).
  Lemma rtoint_shift n q : 0 <= q < 1 -> (0 <= IZR n)%R -> rtoint (IZR n + q) = n.
  Proof.
    intros Hq Hn. unfold rtoint. destruct (Rle_dec 0 (IZR n + q)); [|lra]. unfold Int_part. rewrite <- (tech_up (IZR n + q) (n + 1)); [lia| |]; rewrite plus_IZR; lra.
  Qed.
  Lemma rtoint_IZR n : rtoint (IZR n) = n.
  Proof.
    destruct (Z.le_gt_cases 0 n) as [H|H].
    - rewrite <- (Rplus_0_r (IZR n)). apply rtoint_shift; [lra|]. apply (IZR_le 0). auto.
    - unfold rtoint. assert (IZR n < 0) by (apply (IZR_lt n 0); lia). destruct (Rle_dec 0 (IZR n)); [lra|]. rewrite <- opp_IZR. unfold Int_part.
      rewrite <- (tech_up (IZR (- n)) (- n + 1)); [lia| |]; rewrite plus_IZR; lra.
  Qed.
  Lemma kround_near n q : Rabs q < 1 / 2 -> kround (IZR n + q : R) = IZR n.
  Proof.
    intros Hq. apply Rabs_def2 in Hq. unfold kround. change (@e_toint R ElemR) with rtoint. change (kofZ ?z) with (IZR z). cbn [kltb OpsR kadd ksub kdiv k0 k1]. unfold Rltb.
    change (@kofZ R OpsR) with IZR. f_equal.
    assert (T : forall m r, -1 < r < 1 -> ((0 < m)%Z -> 0 <= r) -> ((m < 0)%Z -> r <= 0) -> rtoint (IZR m + r) = m).
    { intros m r Hr H1 H2. unfold rtoint. destruct (Rle_dec 0 (IZR m + r)) as [P|P].
      - assert (0 <= m)%Z. { destruct (Z.le_gt_cases 0 m); auto. assert (IZR m <= -1) by (apply (IZR_le m (-1)); lia). lra. }
        destruct (Z.eq_dec m 0) as [->|N].
        + assert (0 <= r) by (change (IZR 0) with 0 in P; lra). unfold Int_part. rewrite <- (tech_up (0 + r) 1); [lia| |]; lra.
        + assert (0 <= r) by (apply H1; lia). unfold Int_part. rewrite <- (tech_up (IZR m + r) (m + 1)); [lia| |]; rewrite plus_IZR; lra.
      - assert (m <= 0)%Z. { destruct (Z.le_gt_cases m 0); auto. assert (1 <= IZR m) by (apply (IZR_le 1 m); lia). lra. }
        destruct (Z.eq_dec m 0) as [->|N].
        + change (IZR 0) with 0 in P. unfold Int_part. rewrite <- (tech_up (- (0 + r)) 1); [lia| |]; lra.
        + assert (r <= 0) by (apply H2; lia). unfold Int_part. rewrite <- (tech_up (- (IZR m + r)) (- m + 1)); [lia| |]; rewrite plus_IZR, opp_IZR; lra. }
    destruct (Rlt_dec (IZR n + q) 0) as [P|P].
    - replace (IZR n + q - 1 / 2) with (IZR n + (q - 1 / 2)) by ring. apply T; [lra| |intros; lra].
      intros Hn. exfalso. assert (1 <= IZR n) by (apply (IZR_le 1 n); lia). lra.
    - replace (IZR n + q + 1 / 2) with (IZR n + (q + 1 / 2)) by ring. apply T; [lra|intros; lra|].
      intros Hn. exfalso. assert (IZR n <= -1) by (apply (IZR_le n (-1)); lia). lra.
  Qed.
  Lemma near_integer_IZR n q : Rabs q < 10 / 4503599627370496 -> near_integer (IZR n + q : R) = true.
  Proof.
    intros Hq. unfold near_integer. rewrite kround_near by (eapply Rlt_trans; [exact Hq|lra]). apply Rltb_true. unfold tol10. cbn.
    replace (IZR n + q - IZR n) with q by ring. exact Hq.
  Qed.
  Lemma not_half n q : Rabs q < 1 / 4 -> IZR n + q <> 1 / 2 /\ IZR n + q <> - (1 / 2).
  Proof.
    intros Hq. apply Rabs_def2 in Hq. assert (C : (n <= -1 \/ n = 0 \/ 1 <= n)%Z) by lia. destruct C as [C|[->|C]].
    - apply IZR_le in C. split; lra.
    - change (IZR 0) with 0. split; lra.
    - apply IZR_le in C. split; lra.
  Qed.
  Lemma tm_pow_near A F n q : f_bar_remainder_bounds iter A = Ok F -> Rabs q < 10 / 4503599627370496 ->
    tm_pow iter A (IZR n + q) = tm_pow_int iter A (rtoint (IZR n + q)).
  Proof.
    intros EF Hq. unfold tm_pow. rewrite EF. cbn [rbind]. rewrite near_integer_IZR by auto. destruct (not_half n q) as [N1 N2]; [eapply Rlt_trans; [exact Hq|lra]|].
    change (@e_toint R ElemR) with rtoint. cbn [keqb OpsR kopp kdiv k1 kofZ]. unfold Reqb. destruct (Req_EM_T _ _); [contradiction|]. destruct (Req_EM_T _ _); [contradiction|]. auto.
  Qed.
  Lemma tm_pow_integer A F n : f_bar_remainder_bounds iter A = Ok F -> tm_pow iter A (IZR n) = tm_pow_int iter A n.
  Proof.
    intros EF. assert (X := tm_pow_near A F n 0 EF). rewrite Rplus_0_r, rtoint_IZR in X. apply X. rewrite Rabs_R0. lra.
  Qed.
  Lemma tm_pow_half A F : f_bar_remainder_bounds iter A = Ok F -> tm_pow iter A (1 / 2) = tm_sqrt iter A.
  Proof. intros EF. unfold tm_pow. rewrite EF. cbn. unfold Reqb. destruct (Req_EM_T _ _); auto. congruence. Qed.
  Lemma tm_pow_mhalf A F : f_bar_remainder_bounds iter A = Ok F -> tm_pow iter A (- (1 / 2)) = tm_inv_sqrt iter A.
  Proof.
    intros EF. unfold tm_pow. rewrite EF. cbn. unfold Reqb. destruct (Req_EM_T _ _); [lra|]. destruct (Req_EM_T _ _); auto. congruence.
  Qed.
  Lemma tm_pow_half_integer A F n : f_bar_remainder_bounds iter A = Ok F -> (n <> 0)%Z -> (n <> -1)%Z ->
    tm_pow iter A (IZR n + 1 / 2) = (p <- tm_pow_int iter A (2 * n + 1);; tm_sqrt iter p).
  Proof.
    intros EF N1 N2. unfold tm_pow. rewrite EF. cbn [rbind].
    assert (C : IZR n <= -2 \/ 1 <= IZR n).
    { assert (Y : (n <= -2 \/ 1 <= n)%Z) by lia. destruct Y as [Y|Y]; apply IZR_le in Y; auto. }
    replace (((IZR n + 1 / 2)%R =? 1 / kofZ 2)%K) with false by (symmetry; cbn; unfold Reqb; destruct (Req_EM_T _ _); auto; lra).
    replace (((IZR n + 1 / 2)%R =? - (1 / kofZ 2))%K) with false by (symmetry; cbn; unfold Reqb; destruct (Req_EM_T _ _); auto; lra).
    assert (E2 : ((IZR n + 1 / 2)%R * kofZ 2 : R)%K = IZR (2 * n + 1) + 0) by (rewrite plus_IZR, mult_IZR; cbn; lra).
    assert (X : near_integer (IZR n + 1 / 2 : R) = false).
    { unfold near_integer. apply Rltb_false. unfold tol10. cbn [kabs kdiv kofZ OpsR ksub]. unfold kround. cbn [kltb OpsR k0 kadd ksub kdiv k1 kofZ].
      change (@e_toint R ElemR) with rtoint. unfold Rltb. destruct (Rlt_dec _ 0).
      - replace (IZR n + 1 / 2 - 1 / 2) with (IZR n) by lra. rewrite rtoint_IZR. replace (IZR n + 1 / 2 - IZR n) with (1 / 2) by lra. rewrite Rabs_pos_eq; lra.
      - replace (IZR n + 1 / 2 + 1 / 2) with (IZR (n + 1)) by (rewrite plus_IZR; lra). rewrite rtoint_IZR, plus_IZR. replace (IZR n + 1 / 2 - (IZR n + 1)) with (- (1 / 2)) by lra.
        rewrite Rabs_Ropp, Rabs_pos_eq; lra. }
    rewrite X, E2, near_integer_IZR by (rewrite Rabs_R0; lra). rewrite Rplus_0_r. change (@e_toint R ElemR) with rtoint. rewrite rtoint_IZR. auto.
  Qed.
End Pow.
