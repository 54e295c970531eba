(** * The matrices of the Bernstein transformation (proof file). *)
From Coq Require Import String List Arith Bool Lia ZArith Field.
From Verif Require Import Ops Syms Poly Gdual Functions Spec Bounding SpecBounding BinomProofs TensorProofs.
Import ListNotations.

Lemma choose_choose l : forall n i, l <= i -> i <= n ->
  (choose n i * choose i l = choose n l * choose (n - l) (i - l))%Z.
Proof.
  induction l as [|l IH]; intros n i Hl Hi.
  - rewrite !choose_0, !Nat.sub_0_r. lia.
  - destruct i as [|i]; [lia|]. destruct n as [|n]; [lia|].
    specialize (IH n i ltac:(lia) ltac:(lia)). replace (S n - S l) with (n - l) by lia. replace (S i - S l) with (i - l) by lia.
    apply (Z.mul_reg_l _ _ (Z.of_nat (S l))); [lia|].
    transitivity (Z.of_nat (S n) * (choose n i * choose i l))%Z.
    + transitivity (choose (S n) (S i) * (Z.of_nat (S l) * choose (S i) (S l)))%Z; [ring|]. rewrite choose_absorb.
      transitivity (Z.of_nat (S i) * choose (S n) (S i) * choose i l)%Z; [ring|]. rewrite choose_absorb. ring.
    + rewrite IH. transitivity (Z.of_nat (S n) * choose n l * choose (n - l) (i - l))%Z; [ring|]. rewrite <- choose_absorb. ring.
Qed.

Section Bern.
  Context {K : Type} {o : Ops K} {fl : FieldLaws o}.
  Local Open Scope K_scope.
  Add Field KfieldBP : (fl_field (K:=K)).
  Notation C n k := (kofZ (choose n k) : K).

  Lemma C_S n k : C (S n) (S k) = C n k + C n (S k).
  Proof. rewrite choose_S. apply fl_ofZadd. Qed.
  Lemma C_0 n : C n 0 = 1.
  Proof. rewrite choose_0. apply fl_ofZ1. Qed.
  Lemma C_gt n k : (n < k)%nat -> C n k = 0.
  Proof. intros H. rewrite choose_gt by auto. apply fl_ofZ0. Qed.
  Lemma C_diag n : C n n = 1.
  Proof. rewrite choose_diag. apply fl_ofZ1. Qed.
  Lemma C_neq0 n k : (k <= n)%nat -> C n k <> 0.
  Proof. intros H. apply kofZ_neq0. assert (X := choose_pos n k H). lia. Qed.

  Lemma sum_to_first n (f : nat -> K) : sum_to (S n) f = f 0%nat + sum_to n (fun i => f (S i)).
  Proof. replace (S n) with (1 + n)%nat by lia. rewrite sum_to_app. rewrite (sum_to_S 0), sum_to_0. cbn [Nat.add]. ring. Qed.

  Lemma binomial_theorem (x y : K) n : sum_to (S n) (fun i => C n i * kpow x i * kpow y (n - i)) = kpow (x + y) n.
  Proof.
    induction n as [|n IH].
    - rewrite sum_to_S, sum_to_0. cbn. rewrite fl_ofZ1. ring.
    - cbn [kpow]. rewrite <- IH. rewrite sum_to_first. rewrite C_0. cbn [kpow]. rewrite Nat.sub_0_r.
      transitivity (1 * 1 * kpow y (S n) + (sum_to (S n) (fun i => x * (C n i * kpow x i * kpow y (n - i)))
                    + sum_to (S n) (fun i => C n (S i) * kpow x (S i) * kpow y (n - i)))).
      { rewrite <- sum_to_plus. f_equal. apply sum_to_ext. intros i Hi. rewrite C_S. cbn [kpow Nat.sub]. ring. }
      rewrite sum_to_scal. rewrite (sum_to_S n (fun i => C n (S i) * _ * _)). rewrite (C_gt n (S n)) by lia.
      transitivity (x * sum_to (S n) (fun i => C n i * kpow x i * kpow y (n - i)) +
        y * (kpow y n + sum_to n (fun i => C n (S i) * kpow x (S i) * kpow y (n - S i)))).
      { rewrite (sum_to_ext n _ (fun i => y * (C n (S i) * kpow x (S i) * kpow y (n - S i)))).
        - rewrite sum_to_scal. cbn [kpow]. ring.
        - intros i Hi. replace (n - i)%nat with (S (n - S i)) by lia. cbn [kpow]. ring. }
      rewrite (sum_to_first n (fun i => C n i * kpow x i * kpow y (n - i))). rewrite C_0. cbn [kpow]. rewrite Nat.sub_0_r. ring.
  Qed.

  Definition bern (n : nat) (t : K) (i : nat) : K := C n i * kpow t i * kpow (1 - t) (n - i).
  Lemma bern_moments (t : K) n l : (l <= n)%nat -> sum_to (S n) (fun i => bern n t i * C i l) = C n l * kpow t l.
  Proof.
    intros Hl. replace (S n) with (l + S (n - l))%nat by lia. rewrite sum_to_app.
    rewrite sum_to_zero by (intros i Hi; rewrite C_gt by auto; ring).
    transitivity (sum_to (S (n - l)) (fun j => C n l * kpow t l * (C (n - l) j * kpow t j * kpow (1 - t) (n - l - j)))).
    - transitivity (sum_to (S (n - l)) (fun i => bern n t (l + i) * C (l + i) l)); [ring|].
      apply sum_to_ext. intros j Hj. unfold bern.
      transitivity (C n (l + j) * C (l + j) l * kpow t (l + j) * kpow (1 - t) (n - (l + j))); [ring|].
      rewrite <- fl_ofZmul, choose_choose by lia. rewrite fl_ofZmul. replace (l + j - l)%nat with j by lia.
      replace (n - (l + j))%nat with (n - l - j)%nat by lia. rewrite kpow_add. ring.
    - rewrite sum_to_scal, binomial_theorem. replace (t + (1 - t)) with (1 : K) by ring. rewrite kpow_1. ring.
  Qed.
  Lemma bern_unit (t : K) n : sum_to (S n) (bern n t) = 1.
  Proof.
    assert (H := bern_moments t n 0 ltac:(lia)). rewrite C_0 in H. cbn [kpow] in H.
    transitivity (sum_to (S n) (fun i => bern n t i * C i 0)).
    - apply sum_to_ext. intros i _. rewrite C_0. ring.
    - rewrite H. ring.
  Qed.
  Lemma bern_at_0 n i : (i <= n)%nat -> bern n 0 i = if Nat.eqb i 0 then 1 else 0.
  Proof.
    intros H. unfold bern. destruct (Nat.eqb_spec i 0) as [->|N].
    - rewrite C_0. cbn [kpow]. replace (1 - 0) with (1 : K) by ring. rewrite kpow_1. ring.
    - rewrite kpow_0 by auto. ring.
  Qed.
  Lemma bern_at_1 n i : (i <= n)%nat -> bern n 1 i = if Nat.eqb i n then 1 else 0.
  Proof.
    intros H. unfold bern. destruct (Nat.eqb_spec i n) as [->|N].
    - rewrite C_diag, Nat.sub_diag. cbn [kpow]. rewrite kpow_1. ring.
    - replace (1 - 1) with (0 : K) by ring. rewrite kpow_0 by lia. ring.
  Qed.

  (** ** The matrices *)
  Lemma diag_writes (f : nat -> K) n l (A : list (list K)) : is_matrix (n + 1) (n + 1) A ->
    (forall k, In k l -> (k <= n)%nat) ->
    is_matrix (n + 1) (n + 1) (fold_left (fun d k => Bounding.mset d k k (f k)) l A) /\
    forall i j,
      (In i l /\ i = j -> cell (fold_left (fun d k => Bounding.mset d k k (f k)) l A) i j = f i) /\
      (~ (In i l /\ i = j) -> cell (fold_left (fun d k => Bounding.mset d k k (f k)) l A) i j = cell A i j).
  Proof.
    intros HA Hl. split; [apply (writes_matrix (n + 1) (n + 1) (fun k => k) (fun k => k) f); auto|].
    intros i j. split.
    - intros [Hi <-]. apply (writes_cell (n + 1) (n + 1) (fun k => k) (fun k => k) f).
      + exact HA.
      + intros x Hx. specialize (Hl x Hx). cbv beta. lia.
      + intros x Hx E1 E2. subst. reflexivity.
      + left. exists i. auto.
    - intros N. apply (writes_cell (n + 1) (n + 1) (fun k => k) (fun k => k) f).
      + exact HA.
      + intros x Hx. specialize (Hl x Hx). cbv beta. lia.
      + intros x Hx E1 E2. exfalso. apply N. subst. auto.
      + right. reflexivity.
  Qed.
  Lemma d_acc_gen md dim n : (dim < length md)%nat -> n = nth dim md 0%nat ->
    exists D, get_d_acc_matrix md dim = Ok D /\ is_matrix (n + 1) (n + 1) D /\
      forall i j, (i <= n)%nat -> (j <= n)%nat -> cell D i j = if Nat.eqb i j then 1 / kofZ (binomial64 (Z.of_nat n) (Z.of_nat i)) else 0.
  Proof.
    intros Hd ->. set (n := nth dim md 0%nat) in *. unfold get_d_acc_matrix. fold n.
    destruct (Nat.leb_spec (length md) dim); [lia|].
    destruct (diag_writes (fun k => 1 / kofZ (binomial64 (Z.of_nat n) (Z.of_nat k))) n (seq 0 (S n)) (zeros (n + 1) (n + 1))) as [M Ce].
    - apply zeros_matrix.
    - intros k Hk. apply in_seq in Hk. lia.
    - eexists. split; [reflexivity|]. split; [exact M|]. intros i j Hi Hj. destruct (Ce i j) as [H1 H2].
      destruct (Nat.eqb_spec i j) as [E|N].
      + rewrite H1 by (split; auto; apply in_seq; lia). reflexivity.
      + rewrite H2 by (intros [_ ?]; auto). apply cell_zeros.
  Qed.
  Lemma d_acc_spec md dim n : (dim < length md)%nat -> n = nth dim md 0%nat -> (n <= 62)%nat ->
    exists D, get_d_acc_matrix md dim = Ok D /\ is_matrix (n + 1) (n + 1) D /\
      forall i j, (i <= n)%nat -> (j <= n)%nat -> cell D i j = if Nat.eqb i j then 1 / C n i else 0.
  Proof.
    intros Hd Hn H62. destruct (d_acc_gen md dim n Hd Hn) as (D & E & M & Ce). exists D. split; auto. split; auto. intros i j Hi Hj. rewrite Ce by auto.
    rewrite binomial_62 by auto. reflexivity.
  Qed.
  Lemma d_matrix_spec md dim n (t : K) : n = nth dim md 0%nat ->
    is_matrix (n + 1) (n + 1) (get_d_matrix md dim t) /\
    forall i j, (i <= n)%nat -> (j <= n)%nat -> cell (get_d_matrix md dim t) i j = if Nat.eqb i j then kpow t i else 0.
  Proof.
    intros ->. set (n := nth dim md 0%nat). unfold get_d_matrix. fold n.
    destruct (diag_writes (kpow t) n (seq 1 n) (Bounding.mset (zeros (n + 1) (n + 1)) 0 0 1)) as [M Ce].
    - apply mset_matrix, zeros_matrix.
    - intros k Hk. apply in_seq in Hk. lia.
    - split; [exact M|]. intros i j Hi Hj. destruct (Ce i j) as [H1 H2].
      destruct (Nat.eqb_spec i j) as [E|N].
      + destruct i as [|i].
        * rewrite H2 by (intros [H _]; apply in_seq in H; lia). subst j.
          rewrite (cell_mset (n + 1) (n + 1)) by (try apply zeros_matrix; lia). reflexivity.
        * apply H1. split; auto. apply in_seq. lia.
      + rewrite H2 by (intros [_ ?]; auto). rewrite (cell_mset (n + 1) (n + 1)) by (try apply zeros_matrix; lia).
        destruct (Nat.eqb_spec 0 i), (Nat.eqb_spec 0 j); cbn [andb]; try apply cell_zeros. congruence.
  Qed.
  Lemma pascal_gen md dim n : n = nth dim md 0%nat ->
    is_matrix (n + 1) (n + 1) (get_lower_pascal_matrix md dim) /\
    forall i j, (i <= n)%nat -> (j <= n)%nat -> cell (get_lower_pascal_matrix md dim) i j = kofZ (binomial64 (Z.of_nat i) (Z.of_nat j)).
  Proof.
    intros ->. set (n := nth dim md 0%nat) in *. unfold get_lower_pascal_matrix. fold n.
    rewrite (fold_left_nested (fun P i j => Bounding.mset P i j (kofZ (binomial64 (Z.of_nat i) (Z.of_nat j)))) (fun i => seq 0 (S i)) (seq 0 (S n))).
    set (L := flat_map _ _).
    assert (HL : forall i j, In (i, j) L <-> (i <= n /\ j <= i)%nat).
    { intros i j. unfold L. rewrite in_flat_map. split.
      - intros [x [Hx H]]. apply in_map_iff in H. destruct H as [y [E Hy]]. injection E as -> ->. apply in_seq in Hx. apply in_seq in Hy. lia.
      - intros [H1 H2]. exists i. split; [apply in_seq; lia|]. apply in_map_iff. exists j. split; auto. apply in_seq. lia. }
    split.
    - apply (writes_matrix (n + 1) (n + 1) fst snd (fun ij => kofZ (binomial64 (Z.of_nat (fst ij)) (Z.of_nat (snd ij))))). apply zeros_matrix.
    - intros i j Hi Hj.
      apply (writes_cell (n + 1) (n + 1) fst snd (fun ij => kofZ (binomial64 (Z.of_nat (fst ij)) (Z.of_nat (snd ij))))).
      + apply zeros_matrix.
      + intros [x y] Hx. apply HL in Hx. cbn [fst snd]. lia.
      + intros [x y] Hx E1 E2. cbn [fst snd] in *. subst. reflexivity.
      + destruct (le_lt_dec j i) as [L1|L1].
        * left. exists (i, j). split; [apply HL; lia|auto].
        * right. rewrite cell_zeros. rewrite (proj1 (binomial_exact (Z.of_nat i) (Z.of_nat j))) by lia. symmetry. apply fl_ofZ0.
  Qed.
  Lemma pascal_spec md dim n : n = nth dim md 0%nat -> (n <= 62)%nat ->
    is_matrix (n + 1) (n + 1) (get_lower_pascal_matrix md dim) /\
    forall i j, (i <= n)%nat -> (j <= n)%nat -> cell (get_lower_pascal_matrix md dim) i j = C i j.
  Proof.
    intros Hn H62. destruct (pascal_gen md dim n Hn) as [M Ce]. split; auto. intros i j Hi Hj. rewrite Ce by auto. rewrite binomial_62 by lia. reflexivity.
  Qed.

  (** Q: the coefficients of (a + (b - a) t)^k *)
  Lemma q_spec md (dom : list (string * (K * K))) dim n s a b : (dim < length md)%nat -> n = nth dim md 0%nat -> (n <= 62)%nat ->
    nth_error dom dim = Some (s, (a, b)) ->
    exists Q, get_q_matrix md dom dim = Ok Q /\ is_matrix (n + 1) (n + 1) Q /\
      forall i k, (i <= n)%nat -> (k <= n)%nat -> cell Q i k = C k i * kpow (b - a) i * (if Nat.leb i k then kpow a (k - i) else 0).
  Proof.
    intros Hd Hn H62 Hdom. unfold get_q_matrix, build_dim_to_var_map. rewrite Hdom.
    destruct (Nat.leb_spec (length md) dim); [lia|].
    destruct (keqb_spec a 0) as [->|Na].
    - destruct (d_matrix_spec md dim n b Hn) as [M Ce]. eexists. split; [reflexivity|]. split; [exact M|].
      intros i k Hi Hk. rewrite Ce by auto. destruct (Nat.eqb_spec i k) as [->|N].
      + rewrite C_diag, Nat.leb_refl, Nat.sub_diag. cbn [kpow]. replace (b - 0) with b by ring. ring.
      + destruct (Nat.leb_spec i k); [|ring]. rewrite kpow_0 by lia. ring.
    - destruct (d_matrix_spec md dim n ((b - a) / a) Hn) as [M2 C2]. destruct (d_matrix_spec md dim n a Hn) as [M1 C1].
      destruct (pascal_spec md dim n Hn H62) as [MP CP]. destruct (transpose_spec _ _ _ MP ltac:(lia)) as [MT CT].
      destruct (matmul_spec _ _ _ _ _ M2 MT ltac:(lia) ltac:(lia)) as [MM CM].
      destruct (matmul_spec _ _ _ _ _ MM M1 ltac:(lia) ltac:(lia)) as [MQ CQ].
      eexists. split; [reflexivity|]. split; [exact MQ|]. intros i k Hi Hk. rewrite CQ by lia.
      rewrite (sum_to_pick (n + 1) k); [|lia|intros j Hj N; rewrite C1 by lia; destruct (Nat.eqb_spec j k); [lia|ring]].
      rewrite C1, Nat.eqb_refl by lia. rewrite CM by lia.
      rewrite (sum_to_pick (n + 1) i); [|lia|intros j Hj N; rewrite C2 by lia; destruct (Nat.eqb_spec i j); [lia|ring]].
      rewrite C2, Nat.eqb_refl, CT, CP by lia.
      destruct (Nat.leb_spec i k) as [L|L].
      + replace k with (i + (k - i))%nat at 2 by lia. rewrite kpow_add.
        transitivity (C k i * (kpow ((b - a) / a) i * kpow a i) * kpow a (k - i)); [ring|]. rewrite <- kpow_mul.
        replace ((b - a) / a * a) with (b - a) by (field; auto). ring.
      + rewrite C_gt by auto. ring.
  Qed.
  Lemma q_columns (n k : nat) (a b t : K) : (k <= n)%nat ->
    sum_to (n + 1) (fun i => kpow t i * (C k i * kpow (b - a) i * (if Nat.leb i k then kpow a (k - i) else 0))) = kpow (a + (b - a) * t) k.
  Proof.
    intros Hk. replace (n + 1)%nat with (S k + (n - k))%nat by lia. rewrite sum_to_app.
    rewrite (sum_to_zero (n - k)).
    - transitivity (sum_to (S k) (fun i => C k i * kpow ((b - a) * t) i * kpow a (k - i))).
      + rewrite (sum_to_ext (S k) _ (fun i => C k i * kpow ((b - a) * t) i * kpow a (k - i))); [ring|].
        intros i Hi. destruct (Nat.leb_spec i k); [|lia]. rewrite kpow_mul. ring.
      + rewrite binomial_theorem. f_equal. ring.
    - intros i Hi. rewrite C_gt by lia. ring.
  Qed.
End Bern.
