(** * Expansions of atan, tan and tanh (proof file). *)

From Coq Require Import Reals Lra Lia Psatz List ZArith.
From Coquelicot Require Import Coquelicot.
From Verif Require Import Ops Functions FunAlg GdualFacts ElemR Uni UniFun.
Import ListNotations.
Open Scope R_scope.

(** ** atan *)
(** (p + i)^k = zA k + i zB k;  (1 + i p)^k = re k + i im k. *)
Fixpoint zA (p : R) (k : nat) : R := match k with O => 1 | S m => p * zA p m - zB p m end
with zB (p : R) (k : nat) : R := match k with O => 0 | S m => zA p m + p * zB p m end.
Fixpoint re (p : R) (k : nat) : R := match k with O => 1 | S m => re p m - p * im p m end
with im (p : R) (k : nat) : R := match k with O => 0 | S m => im p m + p * re p m end.

Lemma zB_rec p k : zB p (S (S k)) = 2 * p * zB p (S k) - (1 + p * p) * zB p k.
Proof. cbn [zA zB]. ring. Qed.

Lemma rot2 p m :
  zA p (2 * m) = (-1) ^ m * re p (2 * m) /\ zB p (2 * m) = - (-1) ^ m * im p (2 * m) /\
  zA p (S (2 * m)) = (-1) ^ m * im p (S (2 * m)) /\ zB p (S (2 * m)) = (-1) ^ m * re p (S (2 * m)).
Proof.
  assert (Stp : forall q, zA p (2 * q) = (-1) ^ q * re p (2 * q) -> zB p (2 * q) = - (-1) ^ q * im p (2 * q) ->
     zA p (S (2 * q)) = (-1) ^ q * im p (S (2 * q)) /\ zB p (S (2 * q)) = (-1) ^ q * re p (S (2 * q))).
  { intros q E1 E2. cbn [zA zB re im]. rewrite E1, E2. split; ring. }
  induction m as [|m (H1 & H2 & H3 & H4)].
  - assert (E1 : zA p (2 * 0) = (-1) ^ 0 * re p (2 * 0)) by (simpl; ring).
    assert (E2 : zB p (2 * 0) = - (-1) ^ 0 * im p (2 * 0)) by (simpl; ring).
    destruct (Stp _ E1 E2). auto.
  - assert (E1 : zA p (2 * S m) = (-1) ^ S m * re p (2 * S m)).
    { replace (2 * S m)%nat with (S (S (2 * m))) by lia.
      change (zA p (S (S (2 * m)))) with (p * zA p (S (2 * m)) - zB p (S (2 * m))).
      rewrite H3, H4. change (re p (S (S (2 * m)))) with (re p (S (2 * m)) - p * im p (S (2 * m))).
      change ((-1) ^ S m) with (-1 * (-1) ^ m). ring. }
    assert (E2 : zB p (2 * S m) = - (-1) ^ S m * im p (2 * S m)).
    { replace (2 * S m)%nat with (S (S (2 * m))) by lia.
      change (zB p (S (S (2 * m)))) with (zA p (S (2 * m)) + p * zB p (S (2 * m))).
      rewrite H3, H4. change (im p (S (S (2 * m)))) with (im p (S (2 * m)) + p * re p (S (2 * m))).
      change ((-1) ^ S m) with (-1 * (-1) ^ m). ring. }
    destruct (Stp _ E1 E2). auto.
Qed.

(** Binomial coefficients: Pascal's triangle. *)
Fixpoint binom (k y : nat) : nat :=
  match k, y with
  | _, O => 1
  | O, S _ => 0
  | S k', S y' => binom k' y' + binom k' (S y')
  end.
Lemma binom_0 k : binom k 0 = 1%nat. Proof. destruct k; reflexivity. Qed.
Lemma binom_SS k y : binom (S k) (S y) = (binom k y + binom k (S y))%nat. Proof. reflexivity. Qed.
Lemma binom_big k y : (k < y)%nat -> binom k y = O.
Proof.
  revert y. induction k; intros y H; destruct y; try lia; [reflexivity|].
  rewrite binom_SS, !IHk by lia. reflexivity.
Qed.

Definition rsum (p : R) (k N : nat) := sum_f_R0 (fun j => INR (binom k (2 * j)) * (-1) ^ j * p ^ (2 * j)) N.
Definition isum (p : R) (k N : nat) := sum_f_R0 (fun j => INR (binom k (S (2 * j))) * (-1) ^ j * p ^ S (2 * j)) N.

Lemma rsum_S p k N : rsum p (S k) (S N) = rsum p k (S N) - p * isum p k N.
Proof.
  unfold rsum, isum. rewrite !(decomp_sum _ (S N)) by lia. simpl pred.
  rewrite scal_sum. change (2 * 0)%nat with O. rewrite !binom_0.
  unfold Rminus. rewrite Rplus_assoc. f_equal.
  rewrite <- (Rmult_1_l (sum_f_R0 (fun i => INR (binom k (S (2 * i))) * (-1) ^ i * p ^ S (2 * i) * p) N)).
  rewrite Ropp_mult_distr_l, scal_sum, <- sum_plus. apply sum_eq. intros i _.
  replace (2 * S i)%nat with (S (S (2 * i))) by lia. rewrite binom_SS, plus_INR.
  change (p ^ S (S (2 * i))) with (p * (p * p ^ (2 * i))). change (p ^ S (2 * i)) with (p * p ^ (2 * i)).
  change ((-1) ^ S i) with (-1 * (-1) ^ i). ring.
Qed.
Lemma isum_S p k N : isum p (S k) N = isum p k N + p * rsum p k N.
Proof.
  unfold rsum, isum. rewrite scal_sum, <- sum_plus. apply sum_eq. intros i _.
  rewrite binom_SS, plus_INR. change (p ^ S (2 * i)) with (p * p ^ (2 * i)). ring.
Qed.
Lemma isum_ext p k N : (k <= 2 * N + 2)%nat -> isum p k (S N) = isum p k N.
Proof.
  intros H. unfold isum. cbn [sum_f_R0]. rewrite binom_big by lia. simpl INR. ring.
Qed.
Lemma reim_sum p k : forall N, (k <= 2 * N)%nat -> rsum p k N = re p k /\ isum p k N = im p k.
Proof.
  induction k; intros N H.
  - cbn [re im]. split.
    + unfold rsum. destruct N; [simpl; ring|]. rewrite decomp_sum by lia.
      rewrite (sum_eq _ (fun _ => 0)).
      * rewrite sum_cte. simpl. ring.
      * intros i _. rewrite binom_big by lia. simpl INR. ring.
    + unfold isum. rewrite (sum_eq _ (fun _ => 0)).
      * rewrite sum_cte. ring.
      * intros i _. rewrite binom_big by lia. simpl INR. ring.
  - destruct N as [|N]; [lia|]. destruct (IHk (S N) ltac:(lia)) as [E1 E2]. cbn [re im]. split.
    + rewrite rsum_S, E1. rewrite <- (isum_ext p k N) by lia. rewrite E2. reflexivity.
    + rewrite isum_S, E1, E2. reflexivity.
Qed.

(** The unsigned binomials are exact while no product exceeds 32 bits. *)
Definition ubin_ok (k : nat) : bool :=
  forallb (fun y => Z.eqb (ubinomial k y) (Z.of_nat (binom k y))) (seq 1 k).
Fixpoint binomZ_row (k : nat) : list Z :=
  match k with
  | O => [1%Z]
  | S k' => let r := binomZ_row k' in map (fun '(a, b) => (a + b)%Z) (combine (0%Z :: r) (r ++ [0%Z]))
  end.
Lemma binomZ_row_spec k : length (binomZ_row k) = S k /\ forall y, (y <= k)%nat -> nth y (binomZ_row k) 0%Z = Z.of_nat (binom k y).
Proof.
  induction k as [|k [L IH]].
  - split; [reflexivity|]. intros y Hy. replace y with O by lia. reflexivity.
  - cbn [binomZ_row].
    assert (L2 : length (combine (0%Z :: binomZ_row k) (binomZ_row k ++ [0%Z])) = S (S k)).
    { rewrite combine_length, app_length. cbn [length]. lia. }
    split; [rewrite map_length; auto|]. intros y Hy.
    change 0%Z with ((fun '(a, b) => (a + b)%Z) (0%Z, 0%Z)) at 3.
    rewrite map_nth, combine_nth by (rewrite app_length; cbn [length]; lia).
    destruct y as [|y].
    + cbn [nth]. rewrite app_nth1 by lia. rewrite IH by lia. rewrite !binom_0. reflexivity.
    + cbn [nth]. rewrite IH by lia. rewrite binom_SS, Nat2Z.inj_add. f_equal.
      destruct (Nat.eq_dec y k) as [->|Ne].
      * rewrite app_nth2 by lia. rewrite L, Nat.sub_diag. rewrite binom_big by lia. reflexivity.
      * rewrite app_nth1 by lia. apply IH. lia.
Qed.

Lemma ubinomial_exact k y : (k <= 30)%nat -> (1 <= y <= k)%nat -> ubinomial k y = Z.of_nat (binom k y).
Proof.
  intros Hk Hy. destruct (binomZ_row_spec k) as [_ E]. rewrite <- E by lia. clear E.
  assert (A : forallb (fun k => forallb (fun y => Z.eqb (ubinomial k y) (nth y (binomZ_row k) 0%Z)) (seq 1 k)) (seq 0 31) = true)
    by (vm_compute; reflexivity).
  rewrite forallb_forall in A. specialize (A k ltac:(apply in_seq; lia)).
  rewrite forallb_forall in A. specialize (A y ltac:(apply in_seq; lia)). apply Z.eqb_eq. auto.
Qed.

Definition atan_ok (p : R) (N : nat) : Prop := (N <= 30)%nat \/ p = 0.

Lemma term_ok p k y : atan_ok p k -> (1 <= y <= k)%nat ->
  IZR (ubinomial k y) * p ^ y = INR (binom k y) * p ^ y.
Proof.
  intros [H| ->] Hy.
  - rewrite ubinomial_exact by lia. rewrite INR_IZR_INZ. reflexivity.
  - rewrite pow_i by lia. ring.
Qed.

Lemma atan_odd_sum (p : R) k : atan_ok p k -> atan_odd p k = rsum p k (k / 2).
Proof.
  intros H. unfold atan_odd. set (F := fun '(binom, f0, cf_i) j => _).
  assert (G : forall J, (J <= k / 2)%nat -> let '(b, f, c) := fold_left F (seq 1 J) (k1, kmul p p, kopp k1) in
     b = rsum p k J /\ f = p ^ (2 * S J) /\ c = (-1) ^ S J).
  { induction J; intros HJ.
    - cbn [seq fold_left]. unfold rsum. change (2 * 0)%nat with O. cbn [sum_f_R0]. rewrite Nat.mul_0_r, binom_0.
      cbn [k1 kopp kmul OpsR]. simpl. split; [ring|]. split; ring.
    - specialize (IHJ ltac:(lia)). rewrite seq_S, fold_left_app. cbn [fold_left].
      destruct (fold_left F (seq 1 J) _) as [[b f] c]. destruct IHJ as (-> & -> & ->). unfold F.
      cbn [k1 kopp kmul kadd kofZ OpsR]. replace (1 + J)%nat with (S J) by lia.
      assert (B : (2 * S J <= k)%nat) by (assert (X := Nat.mul_div_le k 2 ltac:(lia)); lia).
      split; [|split].
      + unfold rsum. cbn [sum_f_R0]. f_equal.
        replace (IZR (ubinomial k (2 * S J)) * (-1) ^ S J * p ^ (2 * S J)) with
          (IZR (ubinomial k (2 * S J)) * p ^ (2 * S J) * (-1) ^ S J) by ring.
        rewrite term_ok by (auto; lia). ring.
      + replace (2 * S (S J))%nat with (S (S (2 * S J))) by lia. cbn [pow]. ring.
      + change ((-1) ^ S (S J)) with (-1 * (-1) ^ S J). ring. }
  specialize (G (k / 2)%nat ltac:(lia)). destruct (fold_left F _ _) as [[b f] c]. apply G.
Qed.

Lemma atan_even_sum (p : R) m : atan_ok p (2 * m) -> atan_even p (2 * m) = isum p (2 * m) m.
Proof.
  intros H. unfold atan_even. set (F := fun '(binom, f0, cf_i) j => _).
  assert (G : forall J, (J <= m)%nat -> let '(b, f, c) := fold_left F (seq 1 J) (k0, p, k1) in
     b = match J with O => 0 | S J' => isum p (2 * m) J' end /\ f = p ^ S (2 * J) /\ c = (-1) ^ J).
  { induction J; intros HJ.
    - cbn [seq fold_left]. cbn [k1 kopp kmul OpsR]. simpl. split; [reflexivity|]. split; ring.
    - specialize (IHJ ltac:(lia)). rewrite seq_S, fold_left_app. cbn [fold_left].
      destruct (fold_left F (seq 1 J) _) as [[b f] c]. destruct IHJ as (-> & -> & ->). unfold F.
      cbn [k1 kopp kmul kadd kofZ OpsR]. replace (1 + J)%nat with (S J) by lia.
      replace (2 * S J - 1)%nat with (S (2 * J)) by lia.
      assert (T : IZR (ubinomial (2 * m) (S (2 * J))) * (-1) ^ J * p ^ S (2 * J) =
                  INR (binom (2 * m) (S (2 * J))) * (-1) ^ J * p ^ S (2 * J)).
      { replace (IZR (ubinomial (2 * m) (S (2 * J))) * (-1) ^ J * p ^ S (2 * J)) with
          (IZR (ubinomial (2 * m) (S (2 * J))) * p ^ S (2 * J) * (-1) ^ J) by ring.
        rewrite term_ok by (auto; lia). ring. }
      split; [|split].
      + rewrite T. destruct J; unfold isum; cbn [sum_f_R0]; [|reflexivity]. rewrite Rplus_0_l. reflexivity.
      + replace (S (2 * S J))%nat with (S (S (S (2 * J)))) by lia. cbn [pow]. ring.
      + change ((-1) ^ S J) with (-1 * (-1) ^ J). ring. }
  replace ((2 * m + 1) / 2)%nat with m.
  2:{ replace (2 * m + 1)%nat with (S (2 * m)) by lia. rewrite half_2_1. reflexivity. }
  specialize (G m ltac:(lia)). destruct (fold_left F _ _) as [[b f] c].
  destruct G as (-> & _). destruct m as [|m].
  - unfold isum. cbn [sum_f_R0]. rewrite Nat.mul_0_r, binom_big by lia. simpl INR. ring.
  - symmetry. apply isum_ext. lia.
Qed.

Lemma atan_key p k : atan_ok p (S k) ->
  (-1) ^ (S k / 2) * (if Nat.odd (S k) then atan_odd p (S k) else atan_even p (S k)) = (-1) ^ k * zB p (S k).
Proof.
  intros H. destruct (even_cases k) as [[j ->]|[j ->]].
  - rewrite Nat.odd_succ, even_2, half_2_1. rewrite atan_odd_sum by auto.
    destruct (rot2 p j) as (_ & _ & _ & ->). rewrite half_2_1.
    replace ((-1) ^ (2 * j)) with 1 by (rewrite pow_1_even; reflexivity).
    destruct (reim_sum p (S (2 * j)) (S j) ltac:(lia)) as [E _]. rewrite <- E.
    unfold rsum at 2. cbn [sum_f_R0]. fold (rsum p (S (2 * j)) j). rewrite binom_big by lia. simpl INR. ring.
  - replace (S (S (2 * j))) with (2 * S j)%nat in * by lia.
    replace (Nat.odd (2 * S j)) with false by (rewrite <- Nat.negb_even, even_2; reflexivity).
    rewrite half_2, atan_even_sum by auto. destruct (rot2 p (S j)) as (_ & -> & _).
    rewrite pow_1_odd. destruct (reim_sum p (2 * S j) (S j) ltac:(lia)) as [_ ->]. ring.
Qed.

Lemma uexp_1px2 p n : uexp (fun x => 1 + x * x) p n
   (fun i => match i with O => 1 + p * p | 1%nat => 2 * p | 2%nat => 1 | _ => 0 end).
Proof.
  set (c := fun i => match i with O => 1 + p * p | 1%nat => 2 * p | 2%nat => 1 | _ => 0 end).
  assert (E : forall m x, usum c (S (S m)) x = 1 + (p + x) * (p + x)).
  { induction m; intros x; [rewrite !usum_S, usum_0; simpl; ring|]. rewrite usum_S, IHm. simpl. ring. }
  apply (uexp_le _ _ n (S (S n))); [lia|]. exists 0, 1. split; [lra|]. split; [lra|]. intros x _.
  rewrite E. rewrite Rminus_eq_0, Rabs_R0. lra.
Qed.

Lemma uexp_atan_deriv p n : uexp (fun x => / (1 + x * x)) p n (fun i => (-1) ^ i * zB p (S i) / (1 + p * p) ^ S i).
Proof.
  assert (Q : 1 + p * p <> 0) by nra.
  eapply uexp_inv; [apply uexp_1px2|auto|]. intros m _.
  assert (Pq : forall k, (1 + p * p) ^ k <> 0) by (intros; apply pow_nonzero; auto).
  destruct m as [|[|m]].
  - unfold conv. simpl. field. auto.
  - rewrite conv_S. unfold conv. simpl. field. auto.
  - rewrite !conv_S. destruct m as [|m].
    + unfold conv. cbn [sum_f_R0 Nat.sub constc]. rewrite zB_rec. simpl. field. auto.
    + rewrite conv_S. unfold conv. rewrite (sum_eq _ (fun _ => 0)) by (intros; ring). rewrite sum_cte.
      cbn [constc]. rewrite (zB_rec p (S (S m))).
      set (b1 := zB p (S (S (S m)))). set (b0 := zB p (S (S m))).
      assert (X := Pq (S m)).
      change ((1 + p * p) ^ S (S (S (S m)))) with ((1 + p * p) * ((1 + p * p) * ((1 + p * p) * (1 + p * p) ^ S m))).
      change ((1 + p * p) ^ S (S (S m))) with ((1 + p * p) * ((1 + p * p) * (1 + p * p) ^ S m)).
      change ((1 + p * p) ^ S (S m)) with ((1 + p * p) * (1 + p * p) ^ S m).
      change ((-1) ^ S (S (S m))) with (-1 * (-1 * (-1) ^ S m)).
      change ((-1) ^ S (S m)) with (-1 * (-1) ^ S m). field. split; auto.
Qed.

Lemma uexp_atan p n : atan_ok p n -> uexp atan p n (atanc p).
Proof.
  intros H. destruct n.
  - apply (uexp_O _ _ (/ (1 + p ^ 2))); [apply is_derive_Reals, derivable_pt_lim_atan|reflexivity].
  - apply (uexp_int atan (fun x => / (1 + x * x))).
    + exists 1. split; [lra|]. intros x _. replace ((p + x) * (p + x)) with ((p + x) ^ 2) by ring.
      apply is_derive_Reals, derivable_pt_lim_atan.
    + apply (uexp_ext _ _ _ (fun i => (-1) ^ i * zB p (S i) / (1 + p * p) ^ S i)); [|apply uexp_atan_deriv].
      intros i Hi. cbn [atanc]. toR.
      rewrite atan_key by (destruct H; [left; lia|right; auto]).
      field. split; [|apply not_0_INR; lia]. apply pow_nonzero. nra.
    + reflexivity.
Qed.

(** ** tanh and tan *)
(** Division by x. *)
Lemma uexp_divx F n c : uexp F 0 (S n) c -> c O = 0 ->
  uexp (fun x => if Req_EM_T x 0 then c 1%nat else F x / x) 0 n (fun i => c (S i)).
Proof.
  intros (C & d & Hd & HC & H) H0. exists C, d. split; [auto|]. split; [auto|]. intros x Hx.
  rewrite Rplus_0_l. destruct (Req_EM_T x 0) as [->|Ne].
  - rewrite usum_at0, Rminus_eq_0, Rabs_R0. simpl. lra.
  - specialize (H x Hx). rewrite Rplus_0_l, usum_shift, H0, Rplus_0_l in H.
    assert (P : 0 < Rabs x) by (apply Rabs_pos_lt; auto).
    apply (Rmult_le_reg_l (Rabs x)); auto. rewrite <- Rabs_mult.
    replace (x * (F x / x - usum (fun i => c (S i)) n x)) with (F x - x * usum (fun i => c (S i)) n x) by (field; auto).
    change (Rabs x ^ S (S n)) with (Rabs x * Rabs x ^ S n) in H. lra.
Qed.

Lemma bern_list_length n : length (bern_list n) = S n.
Proof. induction n; [reflexivity|]. cbn [bern_list]. rewrite app_length, IHn. simpl. lia. Qed.
Lemma bern_list_nth n j : (j <= n)%nat -> nth j (bern_list n) 0 = bernoulli j.
Proof.
  induction n; intros H.
  - replace j with O by lia. reflexivity.
  - destruct (Nat.eq_dec j (S n)) as [->|Ne]; [reflexivity|].
    cbn [bern_list]. rewrite app_nth1 by (rewrite bern_list_length; lia). apply IHn. lia.
Qed.
Lemma bernoulli_S m : bernoulli (S m) = - / INR (S (S m)) * sum_f_R0 (fun j => Binomial.C (S (S m)) j * bernoulli j) m.
Proof.
  unfold bernoulli at 1. cbn [bern_list]. rewrite app_nth2 by (rewrite bern_list_length; lia).
  rewrite bern_list_length, Nat.sub_diag. cbn [nth]. unfold bern_next. replace (S m - 1)%nat with m by lia.
  f_equal. apply sum_eq. intros j Hj. rewrite bern_list_nth by auto. reflexivity.
Qed.

Lemma sum_rev_R (f : nat -> R) n : sum_f_R0 f n = sum_f_R0 (fun i => f (n - i)%nat) n.
Proof.
  induction n; [reflexivity|]. rewrite (decomp_sum (fun i => f (S n - i)%nat)) by lia. simpl pred.
  rewrite (sum_eq (fun i => f (S n - S i)%nat) (fun i => f (n - i)%nat)) by (intros; reflexivity).
  rewrite <- IHn. cbn [sum_f_R0]. rewrite Nat.sub_0_r. ring.
Qed.

(** The defining recurrence, in the normalised form sum_j b_j / (m+1-j)! = [m = 0]. *)
Lemma bern_conv m : conv (fun i => 1 / INR (fact (S i))) (fun i => bernoulli i / INR (fact i)) m = constc 1 m.
Proof.
  destruct m as [|m].
  - unfold conv. simpl. unfold bernoulli. simpl. field.
  - unfold conv.
    rewrite sum_rev_R.
    rewrite (sum_eq _ (fun j => / INR (fact (S (S m))) * (Binomial.C (S (S m)) j * bernoulli j))).
    2:{ intros j Hj. replace (S m - (S m - j))%nat with j by lia. unfold Binomial.C.
        replace (S (S m) - j)%nat with (S (S m - j)) by lia. field.
        repeat split; apply INR_fact_neq_0. }
    cbn [sum_f_R0 constc].
    rewrite <- (sum_eq (fun j => (Binomial.C (S (S m)) j * bernoulli j) * / INR (fact (S (S m))))) by (intros; ring).
    rewrite <- scal_sum, bernoulli_S.
    set (S0 := sum_f_R0 _ m).
    replace (Binomial.C (S (S m)) (S m)) with (INR (S (S m))).
    + field. split; [apply not_0_INR; lia|apply INR_fact_neq_0].
    + unfold Binomial.C. replace (S (S m) - S m)%nat with 1%nat by lia. rewrite (fact_S_R (S m)).
      change (INR (fact 1)) with 1. field. apply INR_fact_neq_0.
Qed.

Definition bfun (x : R) : R := / (if Req_EM_T x 0 then 1 else (exp x - 1) / x).
Lemma uexp_bfun n : uexp bfun 0 n (fun i => bernoulli i / INR (fact i)).
Proof.
  unfold bfun. apply (uexp_inv (fun x => if Req_EM_T x 0 then 1 else (exp x - 1) / x) 0 n (fun i => 1 / INR (fact (S i)))).
  - assert (H : uexp (fun x => exp x - 1) 0 (S n) (fun i => match i with O => 0 | _ => 1 / INR (fact i) end)).
    { apply (uexp_ext _ _ _ (fun i => exp 0 / INR (fact i) - constc 1 i)).
      - intros i _. rewrite exp_0. destruct i; cbn [constc]; [simpl; field|ring].
      - apply uexp_minus; [apply uexp_exp|apply uexp_const]. }
    apply uexp_divx in H; [|reflexivity].
    apply (uexp_fun_all (fun x => if Req_EM_T x 0 then 1 / INR (fact 1) else (exp x - 1) / x)); [|exact H].
    intros x. destruct (Req_EM_T x 0); [simpl; field|reflexivity].
  - simpl. lra.
  - intros m _. apply bern_conv.
Qed.

Lemma exp_neq1 x : x <> 0 -> exp x <> 1.
Proof.
  intros H E. apply H. rewrite <- exp_0 in E. apply exp_inv in E. auto.
Qed.

Lemma tanh_exp x : tanh x = (exp (2 * x) - 1) / (exp (2 * x) + 1).
Proof.
  unfold tanh, sinh, cosh. replace (2 * x) with (x + x) by ring. rewrite exp_plus, exp_Ropp.
  assert (P := exp_pos x). field. repeat split; try nra. 
Qed.

Lemma xtanh x : x * tanh x = bfun (4 * x) - bfun (2 * x) + x.
Proof.
  rewrite tanh_exp. unfold bfun. destruct (Req_EM_T (4 * x) 0) as [E|N4].
  - assert (x = 0) by lra. subst. destruct (Req_EM_T (2 * 0) 0); [|lra]. rewrite Rmult_0_r, exp_0. field.
  - assert (Nx : x <> 0) by lra. destruct (Req_EM_T (2 * x) 0); [lra|].
    replace (4 * x) with (2 * x + 2 * x) at 1 by ring. rewrite exp_plus.
    assert (P := exp_pos (2 * x)). assert (Q := exp_neq1 (2 * x) ltac:(lra)).
    set (z := exp (2 * x)) in *. replace (4 * x) with (4 * x) by ring.
    field. repeat split; try lra; try nra.
Qed.

Definition tc (i : nat) : R := bernoulli (S i) / INR (fact (S i)) * (4 ^ S i - 2 ^ S i) + constc 1 i.
Lemma tanh_0' : tanh 0 = 0.
Proof. rewrite tanh_exp, Rmult_0_r, exp_0. field. Qed.

Lemma bernoulli_0 : bernoulli 0 = 1. Proof. reflexivity. Qed.

Lemma uexp_tanh0_tc n : uexp tanh 0 n tc.
Proof.
  assert (H : uexp (fun x => x * tanh x) 0 (S n)
    (fun i => bernoulli i / INR (fact i) * 4 ^ i - bernoulli i / INR (fact i) * 2 ^ i +
              match i with O => 0 | S O => 1 | _ => 0 end)).
  { apply (uexp_fun_all (fun x => bfun (0 + 4 * (x - 0)) - bfun (0 + 2 * (x - 0)) + x)).
    - intros x. rewrite xtanh.
      replace (0 + 4 * (x - 0)) with (4 * x) by ring. replace (0 + 2 * (x - 0)) with (2 * x) by ring. reflexivity.
    - apply uexp_plus; [apply uexp_minus; apply (uexp_affine bfun); apply uexp_bfun|apply uexp_id]. }
  apply uexp_divx in H; [|rewrite bernoulli_0; simpl; field].
  apply (uexp_ext _ _ _ _ tc) in H.
  2:{ intros i _. unfold tc, constc. destruct i; ring. }
  revert H. apply uexp_fun. exists 1. split; [lra|]. intros x _. rewrite !Rplus_0_l.
  destruct (Req_EM_T x 0) as [->|Ne]; [|field; auto]. rewrite tanh_0', bernoulli_S.
  unfold Binomial.C. cbn [sum_f_R0]. rewrite bernoulli_0. simpl. field.
Qed.

Lemma is_derive_tanh x : is_derive tanh x (1 - tanh x * tanh x).
Proof.
  apply (is_derive_ext (fun x => (exp (2 * x) - 1) / (exp (2 * x) + 1))).
  - intros t. symmetry. apply tanh_exp.
  - rewrite !tanh_exp. assert (P := exp_pos (2 * x)). auto_derive; [lra|]. field. lra.
Qed.

Lemma tc_rec i : INR (S i) * tc (S i) = constc 1 i - conv tc tc i.
Proof.
  assert (H : uexp tanh 0 (S i) (fun j => match j with O => tanh 0 | S m => (constc 1 m - conv tc tc m) / INR (S m) end)).
  { apply (uexp_int tanh (fun x => 1 - tanh x * tanh x)).
    - exists 1. split; [lra|]. intros. apply is_derive_tanh.
    - apply (uexp_ext _ _ _ (fun j => constc 1 j - conv tc tc j)).
      + intros j _. field. apply not_0_INR; lia.
      + apply uexp_minus; [apply uexp_const|]. apply uexp_mult; apply uexp_tanh0_tc.
    - reflexivity. }
  rewrite (uexp_unique _ _ _ _ _ (uexp_tanh0_tc (S i)) H (S i)) by lia. field. apply not_0_INR; lia.
Qed.

Lemma tanh_opp x : tanh (- x) = - tanh x.
Proof.
  unfold tanh, sinh, cosh. rewrite Ropp_involutive.
  assert (P := exp_pos x). assert (P' := exp_pos (- x)). field. lra.
Qed.

Lemma tc_even j : tc (2 * j) = 0.
Proof.
  assert (H : uexp tanh 0 (2 * j) (fun i => - (tc i * (-1) ^ i))).
  { apply (uexp_fun_all (fun x => - tanh (0 + -1 * (x - 0)))).
    - intros x. replace (0 + -1 * (x - 0)) with (- x) by ring. rewrite tanh_opp. ring.
    - apply uexp_opp. apply (uexp_affine tanh). apply uexp_tanh0_tc. }
  assert (E := uexp_unique _ _ _ _ _ (uexp_tanh0_tc (2 * j)) H (2 * j)%nat ltac:(lia)).
  cbv beta in E. rewrite pow_1_even in E. lra.
Qed.

Lemma pow4_2 k : (4 : R) ^ k = 2 ^ (2 * k).
Proof. rewrite pow_mult. f_equal. ring. Qed.

Lemma tanhj_tc j : tanhj j = tc (S (2 * j)).
Proof.
  destruct j as [|j].
  - assert (E := tc_rec 0). unfold conv in E. cbn [sum_f_R0 Nat.sub constc] in E.
    assert (Z := tc_even 0). simpl in Z. rewrite Z in E. simpl in E. cbn [tanhj]. cbn [k1 OpsR].
    change (S (2 * 0)) with 1%nat. lra.
  - unfold tanhj, tc. cbn [constc]. toR. cbn [e_bern ElemR].
    replace (S (S (2 * S j))) with (2 * S (S j))%nat by lia.
    replace (IZR (4 ^ Z.of_nat (S (S j)))) with (4 ^ S (S j)) by apply pow_IZR.
    replace ((4 : R) ^ (2 * S (S j))) with ((4 : R) ^ S (S j) * 4 ^ S (S j)).
    + rewrite <- (pow4_2 (S (S j))). field. apply INR_fact_neq_0.
    + rewrite <- pow_add. f_equal. lia.
Qed.

Lemma tanhc_tc i : tanhc i = tc i.
Proof.
  unfold tanhc. destruct (even_cases i) as [[j ->]|[j ->]].
  - rewrite oddc_2, tc_even. reflexivity.
  - rewrite oddc_2_1. apply tanhj_tc.
Qed.
Lemma uexp_tanh0 n : uexp tanh 0 n tanhc.
Proof. apply (uexp_ext _ _ _ tc); [intros; symmetry; apply tanhc_tc|apply uexp_tanh0_tc]. Qed.

Lemma tanj_tanhj j : tanj j = (-1) ^ j * tanhj j.
Proof.
  destruct j as [|j]; [cbn [tanj tanhj pow k1 OpsR]; ring|]. unfold tanj, tanhj. toR.
  replace (IZR ((-4) ^ Z.of_nat (S (S j)))) with ((-4) ^ S (S j)) by apply pow_IZR.
  replace (IZR (4 ^ Z.of_nat (S (S j)))) with (4 ^ S (S j)) by apply pow_IZR.
  replace ((-4) ^ S (S j)) with ((-1) ^ S (S j) * 4 ^ S (S j)).
  - change ((-1) ^ S (S j)) with (-1 * (-1) ^ S j). field. apply INR_fact_neq_0.
  - rewrite <- Rpow_mult_distr. f_equal. lra.
Qed.

Lemma tanc_even j : (tanc (2 * j) : R) = 0.
Proof. unfold tanc. apply oddc_2. Qed.
Lemma tanc_odd j : tanc (S (2 * j)) = (-1) ^ j * tc (S (2 * j)).
Proof. unfold tanc. rewrite oddc_2_1, tanj_tanhj, tanhj_tc. reflexivity. Qed.

Lemma tanc_rec i : INR (S i) * tanc (S i) = constc 1 i + conv tanc tanc i.
Proof.
  destruct (even_cases i) as [[m ->]|[m ->]].
  - rewrite tanc_odd. replace (INR (S (2 * m)) * ((-1) ^ m * tc (S (2 * m)))) with ((-1) ^ m * (INR (S (2 * m)) * tc (S (2 * m)))) by ring.
    rewrite tc_rec.
    assert (E : conv tanc tanc (2 * m) = - (-1) ^ m * conv tc tc (2 * m)).
    { unfold conv. rewrite scal_sum. apply sum_eq. intros a Ha.
      destruct (even_cases a) as [[r ->]|[r ->]].
      - rewrite tanc_even, tc_even. ring.
      - replace (2 * m - S (2 * r))%nat with (S (2 * (m - r - 1))) by lia. rewrite !tanc_odd.
        replace m with (S r + (m - r - 1))%nat at 4 by lia. rewrite pow_add. cbn [pow].
        ring. }
    rewrite E. destruct m; cbn [constc]; [simpl; ring|].
    replace (2 * S m)%nat with (S (S (2 * m))) by lia. cbn [constc]. ring.
  - replace (S (S (2 * m))) with (2 * S m)%nat by lia. rewrite tanc_even.
    assert (E : conv tanc tanc (S (2 * m)) = 0).
    { unfold conv. rewrite (sum_eq _ (fun _ => 0)); [rewrite sum_cte; ring|]. intros a Ha.
      destruct (even_cases a) as [[r ->]|[r ->]].
      - rewrite tanc_even. ring.
      - replace (S (2 * m) - S (2 * r))%nat with (2 * (m - r))%nat by lia. rewrite (tanc_even (m - r)). ring. }
    rewrite E. cbn [constc]. ring.
Qed.

Lemma is_derive_tan x : cos x <> 0 -> is_derive tan x (1 + tan x * tan x).
Proof.
  intros H. unfold tan. auto_derive; auto. field_simplify; auto.
Qed.

Lemma uexp_tan0 n : uexp tan 0 n tanc.
Proof.
  assert (T0 : tan 0 = 0) by apply tan_0.
  induction n.
  - apply (uexp_O _ _ (1 + tan 0 * tan 0)); [apply is_derive_tan; rewrite cos_0; lra|]. rewrite T0. apply (tanc_even 0).
  - apply (uexp_int tan (fun x => 1 + tan x * tan x)).
    + exists 1. split; [lra|]. intros x Hx. rewrite Rplus_0_l. apply is_derive_tan.
      apply Rgt_not_eq. apply cos_gt_0; apply Rabs_le_between in Hx; assert (P := PI2_1); lra.
    + apply (uexp_ext _ _ _ (fun i => constc 1 i + conv tanc tanc i)).
      * intros i _. symmetry. apply tanc_rec.
      * apply uexp_plus; [apply uexp_const|apply uexp_mult; auto].
    + rewrite T0. apply (tanc_even 0).
Qed.
