(** * The 64-bit binomials and the enumeration of exponents (proof file). *)
From Coq Require Import String List Arith Bool Lia ZArith.
From Verif Require Import Ops Syms Poly Gdual Functions Spec Bounding SpecBounding.
Import ListNotations.

Lemma choose_0 n : choose n 0 = 1%Z.
Proof. destruct n; reflexivity. Qed.
Lemma choose_S n k : choose (S n) (S k) = (choose n k + choose n (S k))%Z.
Proof. reflexivity. Qed.
Lemma choose_gt n : forall k, n < k -> choose n k = 0%Z.
Proof.
  induction n as [|n IH]; intros [|k] H; try lia; auto. rewrite choose_S, !IH by lia. reflexivity.
Qed.
Lemma choose_diag n : choose n n = 1%Z.
Proof. induction n as [|n IH]; auto. rewrite choose_S, IH, choose_gt by lia. reflexivity. Qed.
Lemma choose_pos n : forall k, k <= n -> (1 <= choose n k)%Z.
Proof.
  induction n as [|n IH]; intros [|k] H; try lia; try (rewrite choose_0; lia). rewrite choose_S.
  assert (A := IH k ltac:(lia)). destruct (Nat.eq_dec k n) as [->|N]; [rewrite (choose_gt n (S n)) by lia; lia|].
  specialize (IH (S k) ltac:(lia)). lia.
Qed.
Lemma choose_nonneg n k : (0 <= choose n k)%Z.
Proof. destruct (le_lt_dec k n); [assert (X := choose_pos n k ltac:(lia)); lia|rewrite choose_gt by lia; lia]. Qed.
Lemma choose_sym n : forall k, k <= n -> choose n k = choose n (n - k).
Proof.
  induction n as [|n IH]; intros [|k] H; try reflexivity.
  - lia.
  - rewrite Nat.sub_0_r, choose_0, choose_diag. reflexivity.
  - rewrite choose_S. destruct (Nat.eq_dec k n) as [->|N].
    + rewrite Nat.sub_diag, choose_0, choose_diag, choose_gt by lia. reflexivity.
    + replace (S n - S k) with (S (n - S k)) by lia. rewrite choose_S, (IH k), (IH (S k)) by lia.
      replace (n - k) with (S (n - S k)) by lia. lia.
Qed.
Lemma choose_absorb n : forall k, (Z.of_nat (S k) * choose (S n) (S k) = Z.of_nat (S n) * choose n k)%Z.
Proof.
  induction n as [|n IH]; intros k.
  - destruct k; [reflexivity|]. rewrite choose_S, !choose_gt by lia. cbn. lia.
  - rewrite choose_S. rewrite Z.mul_add_distr_l, IH. destruct k as [|k].
    + rewrite !choose_0. lia.
    + rewrite (choose_S n k). assert (E := IH k). rewrite choose_S in E. rewrite !Nat2Z.inj_succ in *. nia.
Qed.

Lemma binom_loop n k : (1 <= k)%Z -> (k <= n)%Z -> products_fit (Z.to_nat n) (Z.to_nat k) ->
  fold_left (fun res i => (wrap64 (res * (n - (k - i))) / i)%Z) (map Z.of_nat (seq 1 (Z.to_nat k))) 1%Z = choose (Z.to_nat n) (Z.to_nat k).
Proof.
  intros Hk Hn Hf.
  assert (G : forall j, j <= Z.to_nat k ->
    fold_left (fun res i => (wrap64 (res * (n - (k - i))) / i)%Z) (map Z.of_nat (seq 1 j)) 1%Z = choose (Z.to_nat n - Z.to_nat k + j) j).
  { induction j as [|j IH]; intros Hj.
    - simpl. rewrite choose_0. reflexivity.
    - rewrite seq_S, map_app, fold_left_app, IH by lia. cbn [map fold_left]. replace (1 + j) with (S j) by lia.
      assert (F := Hf j ltac:(lia)). set (m := Z.to_nat n - Z.to_nat k) in *.
      replace (n - (k - Z.of_nat (S j)))%Z with (Z.of_nat (m + j + 1)) by lia.
      unfold wrap64. rewrite Z.mod_small.
      2:{ split; [|exact F]. assert (X := choose_nonneg (m + j) j). nia. }
      replace (m + j + 1) with (S (m + j)) by lia. rewrite Z.mul_comm, <- choose_absorb.
      replace (m + S j) with (S (m + j)) by lia. rewrite Z.mul_comm, Z.div_mul by lia. reflexivity. }
  rewrite G by lia. f_equal. lia.
Qed.

Lemma binomial_exact (n k : Z) :
  ((k < 0)%Z \/ (n < k)%Z -> binomial64 n k = 0%Z) /\
  ((0 <= k <= n)%Z -> products_fit (Z.to_nat n) (Nat.min (Z.to_nat k) (Z.to_nat n - Z.to_nat k)) ->
     binomial64 n k = choose (Z.to_nat n) (Z.to_nat k)).
Proof.
  unfold binomial64. split.
  - intros H. destruct (Z.ltb_spec k 0); auto. destruct (Z.ltb_spec n k); auto. lia.
  - intros H Hf. destruct (Z.ltb_spec k 0); [lia|]. destruct (Z.ltb_spec n k); [lia|]. cbn [orb].
    destruct (Z.eqb_spec k 0) as [->|N0]; [cbn [orb]; rewrite choose_0; reflexivity|].
    destruct (Z.eqb_spec k n) as [->|N1]; [cbn [orb]; rewrite choose_diag; reflexivity|]. cbn [orb].
    destruct (Z.ltb_spec (n - k) k) as [L|L].
    + rewrite binom_loop; [|lia|lia|].
      * rewrite (choose_sym (Z.to_nat n) (Z.to_nat k)) by lia. f_equal. lia.
      * rewrite Nat.min_r in Hf by lia. replace (Z.to_nat (n - k)) with (Z.to_nat n - Z.to_nat k) by lia. exact Hf.
    + rewrite Nat.min_l in Hf by lia. apply binom_loop; auto; lia.
Qed.

(** Rows of Pascal's triangle, to compute. *)
Fixpoint addrows (a b : list Z) : list Z :=
  match a, b with
  | [], _ => b
  | _, [] => a
  | x :: a', y :: b' => (x + y)%Z :: addrows a' b'
  end.
Fixpoint prow (n : nat) : list Z := match n with O => [1%Z] | S n' => let r := prow n' in addrows (0%Z :: r) r end.
Lemma addrows_nth a : forall b k, nth k (addrows a b) 0%Z = (nth k a 0 + nth k b 0)%Z.
Proof.
  induction a as [|x a IH]; intros [|y b] [|k]; cbn [addrows nth]; try lia; auto.
Qed.
Lemma prow_nth n : forall k, nth k (prow n) 0%Z = choose n k.
Proof.
  induction n as [|n IH]; intros k.
  - destruct k as [|[|k]]; reflexivity.
  - cbn [prow]. cbv zeta. rewrite addrows_nth. destruct k as [|k]; cbn [nth]; rewrite !IH.
    + rewrite choose_0. reflexivity.
    + reflexivity.
Qed.
Lemma fits_62 n k : n <= 62 -> products_fit n (Nat.min k (n - k)).
Proof.
  intros Hn i Hi. set (k' := Nat.min k (n - k)) in *. set (m := n - k' + i).
  assert (Hm : m <= 61) by lia.
  assert (T : forallb (fun m => forallb (fun x => Z.ltb (x * Z.of_nat (m + 1)) two64) (prow m)) (seq 0 62) = true) by (vm_compute; reflexivity).
  rewrite forallb_forall in T. specialize (T m ltac:(apply in_seq; lia)). rewrite forallb_forall in T.
  rewrite <- prow_nth. destruct (nth_in_or_default i (prow m) 0%Z) as [H|H].
  - apply Z.ltb_lt. apply T. exact H.
  - rewrite H. reflexivity.
Qed.
Lemma fl_map {A B C} (f : C -> B -> C) (g : A -> B) l : forall c, fold_left f (map g l) c = fold_left (fun c x => f c (g x)) l c.
Proof. induction l; intros; cbn [map fold_left]; auto. Qed.
Lemma binomial_62 n k : n <= 62 -> binomial64 (Z.of_nat n) (Z.of_nat k) = choose n k.
Proof.
  intros H. destruct (le_lt_dec k n) as [L|L].
  - destruct (binomial_exact (Z.of_nat n) (Z.of_nat k)) as [_ E]. rewrite !Nat2Z.id in E. apply E; [lia|]. apply fits_62. auto.
  - rewrite (proj1 (binomial_exact (Z.of_nat n) (Z.of_nat k))) by lia. rewrite choose_gt by auto. reflexivity.
Qed.
Lemma binomial_63 : binomial64 63 31 <> choose 63 31 /\ (choose 63 31 < two64)%Z.
Proof. rewrite <- prow_nth. split; [vm_compute; discriminate|vm_compute; reflexivity]. Qed.

Lemma binom_product_spec (n k : list Z) :
  (length n <> length k -> binom_product n k = Throw RuntimeError) /\
  (length n = length k -> (fold_right (fun nk p => binomial64 (fst nk) (snd nk) * p) 1 (combine n k) < two64)%Z ->
     (forall a b, In (a, b) (combine n k) -> (0 < binomial64 a b)%Z) ->
     binom_product n k = Ok (fold_right (fun nk p => binomial64 (fst nk) (snd nk) * p)%Z 1%Z (combine n k))).
Proof.
  unfold binom_product. split.
  - intros H. destruct (Nat.eqb_spec (length n) (length k)); [contradiction|reflexivity].
  - intros L F P. rewrite L, Nat.eqb_refl. cbn [negb]. f_equal. rewrite <- L.
    assert (G : forall n k s, length n = length k -> (0 <= s)%Z ->
       (s * fold_right (fun nk p => binomial64 (fst nk) (snd nk) * p) 1 (combine n k) < two64)%Z ->
       (forall a b, In (a, b) (combine n k) -> (0 < binomial64 a b)%Z) ->
       fold_left (fun result i => wrap64 (result * binomial64 (nth i n 0%Z) (nth i k 0%Z))) (seq 0 (length n)) s
       = (s * fold_right (fun nk p => binomial64 (fst nk) (snd nk) * p) 1 (combine n k))%Z).
    { clear. induction n as [|x n IH]; intros [|y k] s L Hs F P; try discriminate; cbn [combine fold_right length seq fold_left]; [lia|].
      cbn [combine fold_right fst snd] in F.
      assert (P0 := P x y (or_introl eq_refl)).
      assert (P1 : (1 <= fold_right (fun nk p => binomial64 (fst nk) (snd nk) * p) 1 (combine n k))%Z).
      { assert (PP : forall a b, In (a, b) (combine n k) -> (0 < binomial64 a b)%Z) by (intros a b Hab; apply P; right; auto).
        clear - PP. induction (combine n k) as [|[a b] l IH]; cbn [fold_right fst snd]; [lia|].
        assert (X := PP a b (or_introl eq_refl)). specialize (IH (fun a b H => PP a b (or_intror H))). nia. }
      cbn [nth]. unfold wrap64 at 2. rewrite Z.mod_small by (change 18446744073709551616%Z with two64; nia).
      rewrite <- seq_shift, fl_map. 
      cbn [fst snd]. rewrite Z.mul_assoc. rewrite <- (IH k (s * binomial64 x y)%Z) by (auto; try nia; intros a b Hab; apply P; right; auto). reflexivity. }
    rewrite G by (auto; lia). lia.
Qed.
