(** * Taylor's formula with the remainder of Lagrange *)
From Coq Require Import Reals Lra Lia Arith.
From Coquelicot Require Import Coquelicot.
From Verif Require Import Uni.
Local Open Scope R_scope.

(** [F (S i)] is the derivative of [F i] at every point satisfying [P]. *)
Definition derivatives (F : nat -> R -> R) (P : R -> Prop) : Prop := forall i x, P x -> is_derive (F i) x (F (S i) x).

Lemma head_derive (F : nat -> R -> R) (P : R -> Prop) n x : derivatives F P -> P x ->
  is_derive (fun t => sum_f_R0 (fun i => F i t / INR (fact i) * (1 - t) ^ i) n) x (F (S n) x / INR (fact n) * (1 - x) ^ n).
Proof.
  intros HF HP. induction n.
  - cbn [sum_f_R0]. apply (is_derive_ext (fun t => F O t)).
    + intros t. change (F O t = F O t / INR (fact 0) * (1 - t) ^ 0). cbn [fact pow]. change (INR 1) with 1. field.
    + replace (F 1%nat x / INR (fact 0) * (1 - x) ^ 0) with (F 1%nat x) by (cbn [fact pow]; change (INR 1) with 1; field). apply HF; auto.
  - cbn [sum_f_R0].
    assert (D2 : is_derive (fun t => F (S n) t / INR (fact (S n)) * (1 - t) ^ S n) x
                   (F (S (S n)) x / INR (fact (S n)) * (1 - x) ^ S n + F (S n) x / INR (fact (S n)) * (INR (S n) * -1 * (1 - x) ^ n))).
    { apply (is_derive_mult (fun t => F (S n) t / INR (fact (S n))) (fun t => (1 - t) ^ S n)).
      - unfold Rdiv. apply (is_derive_ext (fun t => / INR (fact (S n)) * F (S n) t)); [intros; apply Rmult_comm|].
        rewrite (Rmult_comm (F (S (S n)) x)). apply is_derive_scal. apply HF; auto.
      - apply (is_derive_pow (fun t => 1 - t) (S n) x (-1)). auto_derive; auto.
      - intros; apply Rmult_comm. }
    pose proof (is_derive_plus _ _ _ _ _ IHn D2) as D. cbn in D.
    match type of D with is_derive _ _ ?v => replace (F (S (S n)) x / INR (fact (S n)) * (1 - x) ^ S n) with v; [exact D|] end.
    unfold plus. cbn. change (fact n + n * fact n)%nat with (fact (S n)). rewrite fact_simpl, mult_INR.
    assert (INR (fact n) <> 0) by apply INR_fact_neq_0. assert (INR (S n) <> 0) by (apply not_0_INR; lia).
    fold (INR (S n)). change (match n with O => 1 | S _ => INR n + 1 end) with (INR (S n)). field. auto.
Qed.

Lemma lagrange01 (F : nat -> R -> R) n : derivatives F (fun t => 0 <= t <= 1) ->
  exists th, 0 <= th <= 1 /\ F O 1 = sum_f_R0 (fun i => F i 0 / INR (fact i)) n + F (S n) th / INR (fact (S n)).
Proof.
  intros HF. set (T := sum_f_R0 (fun i => F i 0 / INR (fact i)) n). set (M := F O 1 - T).
  set (h := fun t => sum_f_R0 (fun i => F i t / INR (fact i) * (1 - t) ^ i) n + M * (1 - t) ^ S n).
  set (h' := fun t => F (S n) t / INR (fact n) * (1 - t) ^ n + M * (INR (S n) * -1 * (1 - t) ^ n)).
  assert (D : forall t, 0 <= t <= 1 -> is_derive h t (h' t)).
  { intros t Ht. unfold h, h'. apply (is_derive_plus (fun t => sum_f_R0 (fun i => F i t / INR (fact i) * (1 - t) ^ i) n) (fun t => M * (1 - t) ^ S n)).
    - apply (head_derive F _ n t HF Ht).
    - apply is_derive_scal. apply (is_derive_pow (fun t => 1 - t) (S n) t (-1)). auto_derive; auto. }
  assert (H0 : h 0 = F O 1).
  { unfold h. rewrite Rminus_0_r, pow1, Rmult_1_r. unfold M.
    replace (sum_f_R0 _ n) with T; [ring|]. apply sum_eq. intros i _. rewrite pow1. ring. }
  assert (H1 : h 1 = F O 1).
  { unfold h. replace (1 - 1) with 0 by ring. rewrite (pow_i (S n)) by lia. rewrite Rmult_0_r, Rplus_0_r.
    assert (X : forall m, sum_f_R0 (fun i => F i 1 / INR (fact i) * 0 ^ i) m = F O 1).
    { induction m; cbn [sum_f_R0]; [cbn [fact pow]; change (INR 1) with 1; field|]. rewrite IHm, pow_i by lia. ring. }
    apply X. }
  destruct (MVT_cor2 h h' 0 1) as (th & E & Ht); [lra| |].
  { intros c Hc. apply is_derive_Reals. apply D; auto. }
  exists th. split; [lra|]. rewrite H0, H1 in E. rewrite Rminus_eq_0 in E. unfold h' in E.
  assert (P : (1 - th) ^ n <> 0) by (apply pow_nonzero; lra).
  assert (N1 : INR (fact n) <> 0) by apply INR_fact_neq_0. assert (N2 : INR (S n) <> 0) by (apply not_0_INR; lia).
  assert (EM : M = F (S n) th / INR (fact (S n))).
  { rewrite fact_simpl, mult_INR. apply (Rmult_eq_reg_r (INR (S n) * (1 - th) ^ n)); [|apply Rmult_integral_contrapositive; auto].
    transitivity (F (S n) th / INR (fact n) * (1 - th) ^ n); [|field; auto]. lra. }
  rewrite <- EM. unfold M. ring.
Qed.

Lemma derivatives_line (F : nat -> R -> R) c w :
  (forall i t, 0 <= t <= 1 -> is_derive (F i) (c + t * w) (F (S i) (c + t * w))) ->
  derivatives (fun i t => w ^ i * F i (c + t * w)) (fun t => 0 <= t <= 1).
Proof.
  intros HF i t Ht. cbn [pow]. replace (w * w ^ i * F (S i) (c + t * w)) with (w ^ i * (w * F (S i) (c + t * w))) by ring.
  apply is_derive_scal. apply (is_derive_comp (F i) (fun t => c + t * w)); [apply HF; auto|].
  auto_derive; auto. ring.
Qed.

Lemma lagrange (F : nat -> R -> R) c w n :
  (forall i t, 0 <= t <= 1 -> is_derive (F i) (c + t * w) (F (S i) (c + t * w))) ->
  exists th, 0 <= th <= 1 /\
    F O (c + w) = usum (fun i => F i c / INR (fact i)) n w + F (S n) (c + th * w) / INR (fact (S n)) * w ^ S n.
Proof.
  intros HF. destruct (lagrange01 _ n (derivatives_line F c w HF)) as (th & Ht & E). exists th. split; auto.
  cbn [pow] in E. rewrite Rmult_1_l, Rmult_1_l in E. rewrite E. unfold usum. f_equal.
  - apply sum_eq. intros i _. rewrite Rmult_0_l, Rplus_0_r. unfold Rdiv. ring.
  - cbn [pow]. unfold Rdiv. ring.
Qed.

(** ** Derivatives of the elementary functions *)
Definition exp_d (_ : nat) (x : R) : R := exp x.
Lemma exp_ds i x : is_derive (exp_d i) x (exp_d (S i) x).
Proof. unfold exp_d. auto_derive; auto. ring. Qed.

Fixpoint trig_d (i : nat) (x : R) : R * R := match i with O => (sin x, cos x) | S j => (snd (trig_d j x), - fst (trig_d j x)) end.
Lemma trig_ds i x : is_derive (fun t => fst (trig_d i t)) x (snd (trig_d i x)) /\ is_derive (fun t => snd (trig_d i t)) x (- fst (trig_d i x)).
Proof.
  induction i as [|i [H1 H2]]; cbn [trig_d fst snd].
  - split; auto_derive; auto; ring.
  - split; [exact H2|]. apply (is_derive_opp _ _ _ H1).
Qed.
Definition sin_d i x := fst (trig_d i x).
Definition cos_d i x := snd (trig_d i x).
Lemma sin_ds i x : is_derive (sin_d i) x (sin_d (S i) x).
Proof. exact (proj1 (trig_ds i x)). Qed.
Lemma cos_ds i x : is_derive (cos_d i) x (cos_d (S i) x).
Proof. exact (proj2 (trig_ds i x)). Qed.

Fixpoint hyp_d (i : nat) (x : R) : R * R := match i with O => (sinh x, cosh x) | S j => (snd (hyp_d j x), fst (hyp_d j x)) end.
Lemma hyp_ds i x : is_derive (fun t => fst (hyp_d i t)) x (snd (hyp_d i x)) /\ is_derive (fun t => snd (hyp_d i t)) x (fst (hyp_d i x)).
Proof.
  induction i as [|i [H1 H2]]; cbn [hyp_d fst snd]; [|split; auto].
  unfold sinh, cosh. split; auto_derive; auto; field.
Qed.
Definition sinh_d i x := fst (hyp_d i x).
Definition cosh_d i x := snd (hyp_d i x).
Lemma sinh_ds i x : is_derive (sinh_d i) x (sinh_d (S i) x).
Proof. exact (proj1 (hyp_ds i x)). Qed.
Lemma cosh_ds i x : is_derive (cosh_d i) x (cosh_d (S i) x).
Proof. exact (proj2 (hyp_ds i x)). Qed.

Definition inv_d (i : nat) (x : R) : R := (-1) ^ i * INR (fact i) / x ^ S i.
Lemma inv_ds i x : x <> 0 -> is_derive (inv_d i) x (inv_d (S i) x).
Proof.
  intros Hx. unfold inv_d. 
  assert (D : is_derive (fun t => / t ^ S i) x (- (INR (S i) * 1 * x ^ i) / (x ^ S i) ^ 2)).
  { apply (is_derive_inv (fun t => t ^ S i)); [|apply pow_nonzero; auto].
    apply (is_derive_pow (fun t => t) (S i) x 1). auto_derive; auto. }
  apply (is_derive_scal _ _ ((-1) ^ i * INR (fact i))) in D.
  match type of D with is_derive _ _ ?v => replace ((-1) ^ S i * INR (fact (S i)) / x ^ S (S i)) with v; [exact D|] end.
  rewrite fact_simpl, mult_INR. cbn [pow]. assert (x ^ i <> 0) by (apply pow_nonzero; auto). field. auto.
Qed.
Definition ln_d (i : nat) (x : R) : R := match i with O => ln x | S j => inv_d j x end.
Lemma ln_ds i x : 0 < x -> is_derive (ln_d i) x (ln_d (S i) x).
Proof.
  intros Hx. destruct i; cbn [ln_d]; [|apply inv_ds; lra]. unfold inv_d. auto_derive; auto. cbn [pow fact]. change (INR 1) with 1. field. lra.
Qed.
Fixpoint root_c (i : nat) : R := match i with O => 1 | S j => root_c j * (1 / 2 - INR j) end.
Definition sqrt_d (i : nat) (x : R) : R := root_c i * sqrt x / x ^ i.
Lemma sqrt_ds i x : 0 < x -> is_derive (sqrt_d i) x (sqrt_d (S i) x).
Proof.
  intros Hx. unfold sqrt_d. assert (S1 : sqrt x <> 0) by (apply Rgt_not_eq, sqrt_lt_R0; auto). assert (S2 : sqrt x * sqrt x = x) by (apply sqrt_sqrt; lra).
  assert (P : x ^ i <> 0) by (apply pow_nonzero; lra).
  assert (D : is_derive (fun t => sqrt t * / t ^ i) x (1 / (2 * sqrt x) * / x ^ i + sqrt x * (- (INR i * 1 * x ^ pred i) / (x ^ i) ^ 2))).
  { apply (is_derive_mult sqrt (fun t => / t ^ i)).
    - auto_derive; auto.
    - apply (is_derive_inv (fun t => t ^ i)); auto. apply (is_derive_pow (fun t => t) i x 1). auto_derive; auto.
    - intros; apply Rmult_comm. }
  apply (is_derive_scal _ _ (root_c i)) in D.
  apply (is_derive_ext (fun t => root_c i * (sqrt t * / t ^ i))); [intros t; unfold Rdiv; symmetry; apply Rmult_assoc|].
  match type of D with is_derive _ _ ?v => replace (root_c (S i) * sqrt x / x ^ S i) with v; [exact D|] end.
  clear D. cbn [root_c pow]. generalize dependent (sqrt x). intros r S1 S2. subst x. destruct i; cbn [pred pow] in *.
  - change (INR 0) with 0. field. auto.
  - assert (Y : (r * r) ^ i <> 0) by (apply pow_nonzero; lra). set (y := (r * r) ^ i) in *. set (k := INR (S i)). field. auto.
Qed.
