(** * Univariate expansions of real functions (proof file).

    [uexp F p n c]: near [p] the function [F] equals the polynomial with
    coefficients [c 0 .. c n] up to a multiple of [x^(n+1)]. *)

From Coq Require Import Reals Lra Lia Psatz.
From Coquelicot Require Import Coquelicot.
Open Scope R_scope.

Definition usum (c : nat -> R) (n : nat) (x : R) : R := sum_f_R0 (fun i => c i * x ^ i) n.

Definition uexp (F : R -> R) (p : R) (n : nat) (c : nat -> R) : Prop :=
  exists C d, 0 < d /\ 0 <= C /\
    forall x, Rabs x <= d -> Rabs (F (p + x) - usum c n x) <= C * Rabs x ^ S n.

Lemma usum_0 c x : usum c 0 x = c O.
Proof. unfold usum. simpl. ring. Qed.
Lemma usum_S c n x : usum c (S n) x = usum c n x + c (S n) * x ^ S n.
Proof. reflexivity. Qed.
Lemma usum_ext c c' n x : (forall i, (i <= n)%nat -> c i = c' i) -> usum c n x = usum c' n x.
Proof. intros H. unfold usum. apply sum_eq. intros i Hi. rewrite H; auto. Qed.
Lemma usum_at0 c n : usum c n 0 = c O.
Proof. induction n; [apply usum_0|]. rewrite usum_S, IHn. simpl. ring. Qed.
Lemma usum_plus c c' n x : usum (fun i => c i + c' i) n x = usum c n x + usum c' n x.
Proof. unfold usum. rewrite <- sum_plus. apply sum_eq. intros. ring. Qed.
Lemma usum_minus c c' n x : usum (fun i => c i - c' i) n x = usum c n x - usum c' n x.
Proof. unfold usum. rewrite <- minus_sum. apply sum_eq. intros. ring. Qed.
Lemma usum_scale k c n x : usum (fun i => k * c i) n x = k * usum c n x.
Proof. unfold usum. rewrite scal_sum. apply sum_eq. intros. ring. Qed.
Lemma usum_shift c n x : usum c (S n) x = c O + x * usum (fun i => c (S i)) n x.
Proof.
  induction n.
  - rewrite usum_S, !usum_0. simpl. ring.
  - rewrite usum_S, IHn, (usum_S _ n). simpl. ring.
Qed.

Lemma Rabs_pow_le x d n : Rabs x <= d -> Rabs x ^ n <= d ^ n.
Proof. intros. apply pow_incr. split; [apply Rabs_pos|auto]. Qed.

Lemma uexp_ext F p n c c' : (forall i, (i <= n)%nat -> c i = c' i) -> uexp F p n c -> uexp F p n c'.
Proof.
  intros E (C & d & Hd & HC & H). exists C, d. split; [auto|]. split; [auto|].
  intros x Hx. rewrite <- (usum_ext c c'); auto.
Qed.
Lemma uexp_fun F G p n c : (exists d, 0 < d /\ forall x, Rabs x <= d -> F (p + x) = G (p + x)) ->
  uexp F p n c -> uexp G p n c.
Proof.
  intros (d' & Hd' & E) (C & d & Hd & HC & H). exists C, (Rmin d d').
  split; [apply Rmin_pos; auto|]. split; [auto|]. intros x Hx. rewrite <- E.
  - apply H. eapply Rle_trans; [exact Hx|apply Rmin_l].
  - eapply Rle_trans; [exact Hx|apply Rmin_r].
Qed.
Lemma uexp_fun_all F G p n c : (forall x, F x = G x) -> uexp F p n c -> uexp G p n c.
Proof. intros E. apply uexp_fun. exists 1. split; [lra|]. auto. Qed.
Lemma uexp_at0 F p n c : uexp F p n c -> F p = c O.
Proof.
  intros (C & d & Hd & HC & H). specialize (H 0). rewrite Rabs_R0 in H. rewrite Rplus_0_r, usum_at0 in H.
  specialize (H ltac:(lra)). simpl in H. rewrite Rmult_0_l, Rmult_0_r in H.
  assert (X := Rabs_pos (F p - c O)). assert (Y : Rabs (F p - c 0%nat) = 0) by lra.
  apply Rabs_eq_0 in Y. lra.
Qed.

(** Change of the base point to 0. *)
Lemma uexp_shift F p n c : uexp (fun x => F (p + x)) 0 n c <-> uexp F p n c.
Proof.
  split; intros (C & d & Hd & HC & H); exists C, d; (split; [auto|]; split; [auto|]); intros x Hx;
    specialize (H x Hx); rewrite ?Rplus_0_l in *; auto.
Qed.

Lemma usum_bound c n : exists M, 0 <= M /\ forall x, Rabs x <= 1 -> Rabs (usum c n x) <= M.
Proof.
  induction n.
  - exists (Rabs (c O)). split; [apply Rabs_pos|]. intros. rewrite usum_0. lra.
  - destruct IHn as (M & HM & H). exists (M + Rabs (c (S n))). split; [pose proof (Rabs_pos (c (S n))); lra|].
    intros x Hx. rewrite usum_S. eapply Rle_trans; [apply Rabs_triang|]. apply Rplus_le_compat; auto.
    rewrite Rabs_mult, <- RPow_abs. assert (X : Rabs x ^ S n <= 1 ^ S n) by (apply Rabs_pow_le; auto).
    rewrite pow1 in X. assert (Y := Rabs_pos (c (S n))). rewrite <- (Rmult_1_r (Rabs (c (S n)))) at 2.
    apply Rmult_le_compat_l; auto.
Qed.

Lemma uexp_bounded F p n c : uexp F p n c -> exists M d, 0 < d /\ 0 <= M /\ forall x, Rabs x <= d -> Rabs (F (p + x)) <= M.
Proof.
  intros (C & d & Hd & HC & H). destruct (usum_bound c n) as (M & HM & HB).
  exists (C + M), (Rmin d 1). split; [apply Rmin_pos; lra|]. split; [lra|]. intros x Hx.
  assert (X1 : Rabs x <= d) by (eapply Rle_trans; [exact Hx|apply Rmin_l]).
  assert (X2 : Rabs x <= 1) by (eapply Rle_trans; [exact Hx|apply Rmin_r]).
  replace (F (p + x)) with ((F (p + x) - usum c n x) + usum c n x) by ring.
  eapply Rle_trans; [apply Rabs_triang|]. apply Rplus_le_compat; auto.
  eapply Rle_trans; [apply H; auto|]. assert (X : Rabs x ^ S n <= 1 ^ S n) by (apply Rabs_pow_le; auto).
  rewrite pow1 in X. rewrite <- (Rmult_1_r C) at 2. apply Rmult_le_compat_l; auto.
Qed.

(** Truncation. *)
Lemma uexp_le F p n m c : (n <= m)%nat -> uexp F p m c -> uexp F p n c.
Proof.
  intros L. induction m.
  - replace n with O by lia. auto.
  - destruct (Nat.eq_dec n (S m)) as [->|Ne]; auto. intros (C & d & Hd & HC & H). apply IHm; [lia|].
    exists (C + Rabs (c (S m))), (Rmin d 1). split; [apply Rmin_pos; lra|].
    split; [pose proof (Rabs_pos (c (S m))); lra|]. intros x Hx.
    assert (X1 : Rabs x <= d) by (eapply Rle_trans; [exact Hx|apply Rmin_l]).
    assert (X2 : Rabs x <= 1) by (eapply Rle_trans; [exact Hx|apply Rmin_r]).
    specialize (H x X1). rewrite usum_S in H.
    replace (F (p + x) - usum c m x) with ((F (p + x) - (usum c m x + c (S m) * x ^ S m)) + c (S m) * x ^ S m) by ring.
    eapply Rle_trans; [apply Rabs_triang|]. rewrite Rmult_plus_distr_r. apply Rplus_le_compat.
    + eapply Rle_trans; [apply H|]. apply Rmult_le_compat_l; auto. simpl.
      rewrite <- (Rmult_1_l (Rabs x * Rabs x ^ m)) at 2. apply Rmult_le_compat_r; auto.
      apply Rmult_le_pos; [apply Rabs_pos|apply pow_le, Rabs_pos].
    + rewrite Rabs_mult, <- RPow_abs. lra.
Qed.

(** Linear operations. *)
Lemma uexp_plus F G p n c c' : uexp F p n c -> uexp G p n c' -> uexp (fun x => F x + G x) p n (fun i => c i + c' i).
Proof.
  intros (C & d & Hd & HC & H) (C' & d' & Hd' & HC' & H').
  exists (C + C'), (Rmin d d'). split; [apply Rmin_pos; lra|]. split; [lra|]. intros x Hx.
  assert (X1 : Rabs x <= d) by (eapply Rle_trans; [exact Hx|apply Rmin_l]).
  assert (X2 : Rabs x <= d') by (eapply Rle_trans; [exact Hx|apply Rmin_r]).
  rewrite usum_plus. replace (F (p + x) + G (p + x) - (usum c n x + usum c' n x)) with
    ((F (p + x) - usum c n x) + (G (p + x) - usum c' n x)) by ring.
  eapply Rle_trans; [apply Rabs_triang|]. rewrite Rmult_plus_distr_r. apply Rplus_le_compat; auto.
Qed.
Lemma uexp_scale k F p n c : uexp F p n c -> uexp (fun x => k * F x) p n (fun i => k * c i).
Proof.
  intros (C & d & Hd & HC & H). exists (Rabs k * C), d. split; [auto|].
  split; [apply Rmult_le_pos; auto; apply Rabs_pos|]. intros x Hx. rewrite usum_scale.
  replace (k * F (p + x) - k * usum c n x) with (k * (F (p + x) - usum c n x)) by ring.
  rewrite Rabs_mult, Rmult_assoc. apply Rmult_le_compat_l; [apply Rabs_pos|]. auto.
Qed.
Lemma uexp_opp F p n c : uexp F p n c -> uexp (fun x => - F x) p n (fun i => - c i).
Proof.
  intros H. apply (uexp_fun_all (fun x => (-1) * F x)); [intros; ring|].
  apply (uexp_ext _ _ _ (fun i => (-1) * c i)); [intros; ring|]. apply uexp_scale; auto.
Qed.
Lemma uexp_minus F G p n c c' : uexp F p n c -> uexp G p n c' -> uexp (fun x => F x - G x) p n (fun i => c i - c' i).
Proof.
  intros H H'. apply (uexp_fun_all (fun x => F x + - G x)); [intros; ring|].
  apply (uexp_ext _ _ _ (fun i => c i + - c' i)); [intros; ring|]. apply uexp_plus; auto. apply uexp_opp; auto.
Qed.
Definition constc (k : R) (i : nat) : R := match i with O => k | S _ => 0 end.
Lemma usum_const k n x : usum (constc k) n x = k.
Proof. induction n; [apply usum_0|]. rewrite usum_S, IHn. simpl. ring. Qed.
Lemma uexp_const k p n : uexp (fun _ => k) p n (constc k).
Proof.
  exists 0, 1. split; [lra|]. split; [lra|]. intros x _. rewrite usum_const.
  replace (k - k) with 0 by ring. rewrite Rabs_R0. lra.
Qed.

(** Argument scaled and moved: [F (a (x - p) + q)]. *)
Lemma uexp_affine F a q p n c : uexp F q n c -> uexp (fun x => F (q + a * (x - p))) p n (fun i => c i * a ^ i).
Proof.
  intros (C & d & Hd & HC & H). assert (Pa : 0 < Rabs a + 1) by (pose proof (Rabs_pos a); lra).
  exists (C * Rabs a ^ S n), (d / (Rabs a + 1)). split; [apply Rdiv_lt_0_compat; auto|].
  split; [apply Rmult_le_pos; auto; apply pow_le, Rabs_pos|]. intros x Hx.
  assert (Y : Rabs (a * x) <= d).
  { rewrite Rabs_mult. apply (Rle_trans _ ((Rabs a + 1) * (d / (Rabs a + 1)))).
    - apply Rmult_le_compat; try apply Rabs_pos; auto. lra.
    - right. field. lra. }
  specialize (H _ Y). replace (p + x - p) with x by ring.
  replace (usum (fun i => c i * a ^ i) n x) with (usum c n (a * x)).
  - eapply Rle_trans; [apply H|]. rewrite Rabs_mult, Rpow_mult_distr. right. ring.
  - unfold usum. apply sum_eq. intros i _. rewrite Rpow_mult_distr. ring.
Qed.

(** Uniqueness of the coefficients. *)
Lemma lin_small a B d : 0 < d -> 0 <= B -> (forall x, 0 < x <= d -> Rabs a <= B * x) -> a = 0.
Proof.
  intros Hd HB H. destruct (Req_dec a 0) as [|Ne]; auto. exfalso.
  assert (P : 0 < Rabs a) by (apply Rabs_pos_lt; auto).
  set (x := Rmin d (Rabs a / (2 * (B + 1)))).
  assert (Px : 0 < x) by (apply Rmin_pos; [auto|apply Rdiv_lt_0_compat; lra]).
  assert (X1 : x <= d) by apply Rmin_l.
  assert (X3 : x <= Rabs a / (2 * (B + 1))) by apply Rmin_r.
  specialize (H x (conj Px X1)).
  assert (E : (B + 1) * (Rabs a / (2 * (B + 1))) = Rabs a / 2) by (field; lra).
  assert (L : B * x <= (B + 1) * (Rabs a / (2 * (B + 1)))) by (apply Rmult_le_compat; lra).
  lra.
Qed.

Lemma pow_le_self x n : 0 <= x <= 1 -> x ^ S n <= x.
Proof.
  intros H. simpl. rewrite <- (Rmult_1_r x) at 3. apply Rmult_le_compat_l; [lra|].
  rewrite <- (pow1 n). apply pow_incr. lra.
Qed.

Lemma usum_head c n : exists M, 0 <= M /\ forall x, 0 < x <= 1 -> Rabs (usum c n x - c O) <= M * x.
Proof.
  destruct n as [|n].
  - exists 0. split; [lra|]. intros x _. rewrite usum_0. replace (c O - c O) with 0 by ring. rewrite Rabs_R0. lra.
  - destruct (usum_bound (fun i => c (S i)) n) as (M & HM & HB). exists M. split; [auto|]. intros x Hx.
    rewrite usum_shift. replace (c O + x * usum (fun i => c (S i)) n x - c O) with (x * usum (fun i => c (S i)) n x) by ring.
    rewrite Rabs_mult, (Rabs_right x) by lra. rewrite Rmult_comm. apply Rmult_le_compat_r; [lra|].
    apply HB. rewrite Rabs_right; lra.
Qed.

Lemma usum_small c n C d : 0 < d -> 0 <= C -> (forall x, 0 < x <= d -> Rabs (usum c n x) <= C * x ^ S n) ->
  forall i, (i <= n)%nat -> c i = 0.
Proof.
  revert c C d. induction n; intros c C d Hd HC H i Hi.
  - replace i with O by lia. apply (lin_small (c O) C d); auto. intros x Hx. specialize (H x Hx).
    rewrite usum_0 in H. simpl in H. lra.
  - assert (H0 : c O = 0).
    { destruct (usum_head c (S n)) as (M & HM & HB). apply (lin_small (c O) (C + M) (Rmin d 1)).
      - apply Rmin_pos; lra.
      - lra.
      - intros x [Px Hx]. assert (X1 : x <= d) by (eapply Rle_trans; [exact Hx|apply Rmin_l]).
        assert (X2 : x <= 1) by (eapply Rle_trans; [exact Hx|apply Rmin_r]).
        specialize (H x ltac:(lra)). specialize (HB x ltac:(lra)).
        replace (c O) with (usum c (S n) x - (usum c (S n) x - c O)) by ring.
        eapply Rle_trans; [apply Rabs_triang|]. rewrite Rabs_Ropp.
        assert (L := pow_le_self x (S n) ltac:(lra)).
        assert (C * x ^ S (S n) <= C * x) by (apply Rmult_le_compat_l; auto). lra. }
    assert (Hs : forall j, (j <= n)%nat -> c (S j) = 0).
    { apply (IHn (fun i => c (S i)) C d); auto. intros x Hx. specialize (H x Hx).
      rewrite usum_shift, H0, Rplus_0_l, Rabs_mult, (Rabs_right x) in H by lra.
      apply (Rmult_le_reg_l x); [lra|]. change (x ^ S (S n)) with (x * x ^ S n) in H. lra. }
    destruct i; auto. apply Hs. lia.
Qed.

Lemma uexp_unique F p n c c' : uexp F p n c -> uexp F p n c' -> forall i, (i <= n)%nat -> c i = c' i.
Proof.
  intros (C & d & Hd & HC & H) (C' & d' & Hd' & HC' & H') i Hi.
  assert (Z : c i - c' i = 0).
  { apply (usum_small (fun i => c i - c' i) n (C + C') (Rmin d d')); auto.
    - apply Rmin_pos; auto.
    - lra.
    - intros x [Px Hx]. assert (X1 : x <= d) by (eapply Rle_trans; [exact Hx|apply Rmin_l]).
      assert (X2 : x <= d') by (eapply Rle_trans; [exact Hx|apply Rmin_r]).
      specialize (H x ltac:(rewrite Rabs_right; lra)). specialize (H' x ltac:(rewrite Rabs_right; lra)).
      rewrite (Rabs_right x) in H, H' by lra. rewrite usum_minus.
      replace (usum c n x - usum c' n x) with (- (F (p + x) - usum c n x) + (F (p + x) - usum c' n x)) by ring.
      eapply Rle_trans; [apply Rabs_triang|]. rewrite Rabs_Ropp. lra. }
  lra.
Qed.

(** Products. *)
Definition conv (a b : nat -> R) (m : nat) : R := sum_f_R0 (fun j => a j * b (m - j)%nat) m.

Lemma conv_S a b m : conv a b (S m) = a O * b (S m) + conv (fun i => a (S i)) b m.
Proof.
  unfold conv. rewrite decomp_sum by lia. simpl pred. f_equal.
Qed.

Lemma usum_mul a b n : exists M, 0 <= M /\ forall x, Rabs x <= 1 ->
  Rabs (usum a n x * usum b n x - usum (conv a b) n x) <= M * Rabs x ^ S n.
Proof.
  revert a. induction n; intros a.
  - exists 0. split; [lra|]. intros x _. rewrite !usum_0. unfold conv. simpl.
    replace (a O * b O - a O * b O) with 0 by ring. rewrite Rabs_R0. lra.
  - set (a' := fun i => a (S i)). destruct (IHn a') as (M & HM & H).
    destruct (usum_bound a' n) as (Ma & HMa & Ba).
    exists (M + Ma * Rabs (b (S n))).
    split; [apply Rplus_le_le_0_compat; auto; apply Rmult_le_pos; auto; apply Rabs_pos|].
    intros x Hx. rewrite (usum_shift a). fold a'.
    rewrite (usum_shift (conv a b)). 
    replace (usum (fun i => conv a b (S i)) n x) with (a O * usum (fun i => b (S i)) n x + usum (conv a' b) n x).
    2:{ rewrite <- usum_scale, <- usum_plus. apply usum_ext. intros i _. rewrite conv_S. reflexivity. }
    rewrite (usum_S b). replace (conv a b 0) with (a O * b O) by (unfold conv; simpl; reflexivity).
    replace ((a 0%nat + x * usum a' n x) * (usum b n x + b (S n) * x ^ S n) -
      (a 0%nat * b 0%nat + x * (a 0%nat * usum (fun i => b (S i)) n x + usum (conv a' b) n x)))
      with (x * (usum a' n x * usum b n x - usum (conv a' b) n x) + x * usum a' n x * b (S n) * x ^ S n
            + a O * (usum b (S n) x - (b O + x * usum (fun i => b (S i)) n x))) by (rewrite (usum_S b); ring).
    rewrite <- (usum_shift b). replace (usum b (S n) x - usum b (S n) x) with 0 by ring. rewrite Rmult_0_r, Rplus_0_r.
    eapply Rle_trans; [apply Rabs_triang|]. rewrite Rmult_plus_distr_r. apply Rplus_le_compat.
    + rewrite Rabs_mult. change (Rabs x ^ S (S n)) with (Rabs x * Rabs x ^ S n).
      replace (M * (Rabs x * Rabs x ^ S n)) with (Rabs x * (M * Rabs x ^ S n)) by ring.
      apply Rmult_le_compat_l; [apply Rabs_pos|]. auto.
    + rewrite !Rabs_mult, <- RPow_abs. change (Rabs x ^ S (S n)) with (Rabs x * Rabs x ^ S n).
      replace (Ma * Rabs (b (S n)) * (Rabs x * Rabs x ^ S n)) with (Rabs x * Ma * Rabs (b (S n)) * Rabs x ^ S n) by ring.
      apply Rmult_le_compat_r; [apply pow_le, Rabs_pos|]. apply Rmult_le_compat_r; [apply Rabs_pos|].
      apply Rmult_le_compat_l; [apply Rabs_pos|]. auto.
Qed.

Lemma uexp_mult F G p n c c' : uexp F p n c -> uexp G p n c' -> uexp (fun x => F x * G x) p n (conv c c').
Proof.
  intros HF HG. destruct (uexp_bounded _ _ _ _ HG) as (MG & dG & HdG & HMG & BG).
  destruct HF as (C & d & Hd & HC & H). destruct HG as (C' & d' & Hd' & HC' & H').
  destruct (usum_bound c n) as (Mc & HMc & Bc). destruct (usum_mul c c' n) as (M & HM & BM).
  exists (C * MG + Mc * C' + M), (Rmin (Rmin d d') (Rmin dG 1)).
  split; [repeat apply Rmin_pos; lra|]. split; [assert (0 <= C * MG) by (apply Rmult_le_pos; auto); assert (0 <= Mc * C') by (apply Rmult_le_pos; auto); lra|].
  intros x Hx.
  assert (X1 : Rabs x <= d) by (eapply Rle_trans; [exact Hx|eapply Rle_trans; [apply Rmin_l|apply Rmin_l]]).
  assert (X2 : Rabs x <= d') by (eapply Rle_trans; [exact Hx|eapply Rle_trans; [apply Rmin_l|apply Rmin_r]]).
  assert (X3 : Rabs x <= dG) by (eapply Rle_trans; [exact Hx|eapply Rle_trans; [apply Rmin_r|apply Rmin_l]]).
  assert (X4 : Rabs x <= 1) by (eapply Rle_trans; [exact Hx|eapply Rle_trans; [apply Rmin_r|apply Rmin_r]]).
  replace (F (p + x) * G (p + x) - usum (conv c c') n x) with
    ((F (p + x) - usum c n x) * G (p + x) + usum c n x * (G (p + x) - usum c' n x)
     + (usum c n x * usum c' n x - usum (conv c c') n x)) by ring.
  assert (P : 0 <= Rabs x ^ S n) by apply pow_le, Rabs_pos.
  eapply Rle_trans; [apply Rabs_triang|]. rewrite !Rmult_plus_distr_r. apply Rplus_le_compat; [|apply BM; auto].
  eapply Rle_trans; [apply Rabs_triang|]. apply Rplus_le_compat; rewrite Rabs_mult.
  - replace (C * MG * Rabs x ^ S n) with (C * Rabs x ^ S n * MG) by ring.
    apply Rmult_le_compat; try apply Rabs_pos; auto.
  - rewrite Rmult_assoc. apply Rmult_le_compat; try apply Rabs_pos; auto.
Qed.

(** Reciprocal. *)
Lemma uexp_inv F p n a b : uexp F p n a -> a O <> 0 ->
  (forall m, (m <= n)%nat -> conv a b m = constc 1 m) -> uexp (fun x => / F x) p n b.
Proof.
  intros HF Ha Hb.
  assert (HP : uexp (fun x => F x * usum b n (x - p)) p n (constc 1)).
  { apply (uexp_ext _ _ _ (conv a b)); [auto|]. apply uexp_mult; auto.
    exists 0, 1. split; [lra|]. split; [lra|]. intros x _. replace (p + x - p) with x by ring.
    replace (usum b n x - usum b n x) with 0 by ring. rewrite Rabs_R0. lra. }
  (* F is bounded away from 0 near p *)
  assert (L : exists d, 0 < d /\ forall x, Rabs x <= d -> Rabs (a O) / 2 <= Rabs (F (p + x))).
  { apply (uexp_le _ _ 0) in HF; [|lia]. destruct HF as (C & d & Hd & HC & H).
    assert (P : 0 < Rabs (a O)) by (apply Rabs_pos_lt; auto).
    exists (Rmin d (Rabs (a O) / (2 * (C + 1)))). split; [apply Rmin_pos; [auto|apply Rdiv_lt_0_compat; lra]|].
    intros x Hx. assert (X1 : Rabs x <= d) by (eapply Rle_trans; [exact Hx|apply Rmin_l]).
    assert (X2 : Rabs x <= Rabs (a O) / (2 * (C + 1))) by (eapply Rle_trans; [exact Hx|apply Rmin_r]).
    specialize (H x X1). rewrite usum_0 in H. simpl in H. rewrite Rmult_1_r in H.
    assert (E : (C + 1) * (Rabs (a O) / (2 * (C + 1))) = Rabs (a O) / 2) by (field; lra).
    assert (Q : C * Rabs x <= (C + 1) * (Rabs (a O) / (2 * (C + 1)))) by (apply Rmult_le_compat; try apply Rabs_pos; lra).
    assert (T := Rabs_triang (F (p + x)) (a O - F (p + x))). replace (F (p + x) + (a O - F (p + x))) with (a O) in T by ring.
    rewrite (Rabs_minus_sym (a O)) in T. lra. }
  destruct L as (dl & Hdl & L). destruct HP as (C & d & Hd & HC & H).
  assert (P : 0 < Rabs (a O)) by (apply Rabs_pos_lt; auto).
  exists (C * (2 / Rabs (a O))), (Rmin d dl). split; [apply Rmin_pos; auto|].
  split; [apply Rmult_le_pos; auto; apply Rlt_le, Rdiv_lt_0_compat; lra|]. intros x Hx.
  assert (X1 : Rabs x <= d) by (eapply Rle_trans; [exact Hx|apply Rmin_l]).
  assert (X2 : Rabs x <= dl) by (eapply Rle_trans; [exact Hx|apply Rmin_r]).
  specialize (H x X1). specialize (L x X2). replace (p + x - p) with x in H by ring. rewrite usum_const in H.
  assert (Fn : F (p + x) <> 0). { intros E. rewrite E, Rabs_R0 in L. lra. }
  replace (/ F (p + x) - usum b n x) with (- (F (p + x) * usum b n x - 1) * / F (p + x)) by (field; auto).
  rewrite Rabs_mult, Rabs_Ropp. replace (C * (2 / Rabs (a 0%nat)) * Rabs x ^ S n) with (C * Rabs x ^ S n * (2 / Rabs (a O))) by ring.
  apply Rmult_le_compat; try apply Rabs_pos; auto.
  rewrite Rabs_inv. replace (2 / Rabs (a O)) with (/ (Rabs (a O) / 2)) by (field; lra).
  apply Rinv_le_contravar; lra.
Qed.

(** Integration: an expansion of the derivative gives one of the function. *)
Lemma is_derive_usum c n x : is_derive (usum c (S n)) x (usum (fun i => INR (S i) * c (S i)) n x).
Proof.
  induction n.
  - apply (is_derive_ext (fun x => c O + c 1%nat * x)).
    + intros t. rewrite usum_S, usum_0. simpl. ring.
    + rewrite usum_0. auto_derive; auto. simpl. ring.
  - apply (is_derive_ext (fun x => plus (usum c (S n) x) (c (S (S n)) * x ^ S (S n)))).
    + intros t. rewrite (usum_S _ (S n)). reflexivity.
    + rewrite usum_S. apply (@is_derive_plus R_AbsRing); auto.
      auto_derive; auto. rewrite !S_INR. simpl pred.
      replace (match n with O => 1 | S _ => INR n + 1 end) with (INR n + 1) by (destruct n; simpl; ring). simpl. ring.
Qed.

Lemma uexp_int (F F' : R -> R) (p : R) n (c : nat -> R) : (exists d, 0 < d /\ forall x, Rabs x <= d -> is_derive F (p + x) (F' (p + x))) ->
  uexp F' p n (fun i => INR (S i) * c (S i)) -> c O = F p -> uexp F p (S n) c.
Proof.
  intros (d & Hd & D) (C & d' & Hd' & HC & H) H0.
  exists C, (Rmin d d'). split; [apply Rmin_pos; auto|]. split; [auto|]. intros x Hx.
  assert (X1 : Rabs x <= d) by (eapply Rle_trans; [exact Hx|apply Rmin_l]).
  assert (X2 : Rabs x <= d') by (eapply Rle_trans; [exact Hx|apply Rmin_r]).
  set (G := fun t => F (p + t) - usum c (S n) t).
  assert (DG : forall t, Rabs t <= Rabs x -> is_derive G t (F' (p + t) - usum (fun i => INR (S i) * c (S i)) n t)).
  { intros t Ht. unfold G. apply (@is_derive_minus R_AbsRing).
    - replace (F' (p + t)) with (scal 1 (F' (p + t))) by apply (@scal_one R_Ring).
      apply (is_derive_comp F (fun t => p + t)).
      + apply D. lra.
      + auto_derive; auto.
    - apply is_derive_usum. }
  assert (E : G x = F (p + x) - usum c (S n) x) by reflexivity. rewrite <- E.
  assert (G0 : G 0 = 0). { unfold G. rewrite usum_at0, Rplus_0_r. lra. }
  destruct (MVT_gen G 0 x (fun t => F' (p + t) - usum (fun i => INR (S i) * c (S i)) n t)) as (t & Ht & Et).
  - intros t Ht. apply DG. unfold Rmin, Rmax in Ht. destruct (Rle_dec 0 x).
    + rewrite !Rabs_right; lra.
    + rewrite !Rabs_left; lra.
  - intros t Ht. apply continuity_pt_filterlim. apply @ex_derive_continuous.
    eexists. apply DG. unfold Rmin, Rmax in Ht. destruct (Rle_dec 0 x).
    + rewrite !Rabs_right; lra.
    + rewrite !Rabs_left1; lra.
  - rewrite G0, !Rminus_0_r in Et. rewrite Et, Rabs_mult.
    assert (Lt : Rabs t <= Rabs x).
    { unfold Rmin, Rmax in Ht. destruct (Rle_dec 0 x); [rewrite !Rabs_right|rewrite !Rabs_left1]; lra. }
    change (Rabs x ^ S (S n)) with (Rabs x * Rabs x ^ S n).
    rewrite <- (Rmult_assoc C), (Rmult_comm C), Rmult_assoc, (Rmult_comm (Rabs x)).
    apply Rmult_le_compat_r; [apply Rabs_pos|]. eapply Rle_trans; [apply H; lra|].
    apply Rmult_le_compat_l; auto. apply pow_incr. split; [apply Rabs_pos|auto].
Qed.

Lemma uexp_O (F : R -> R) (p l : R) (c : nat -> R) : is_derive F p l -> c O = F p -> uexp F p 0 c.
Proof.
  intros D H0. assert (D' := D). apply is_derive_Reals in D'. destruct (D' 1 ltac:(lra)) as (d & Hd).
  exists (Rabs l + 1), (d / 2). split; [pose proof (cond_pos d); lra|].
  split; [pose proof (Rabs_pos l); lra|]. intros x Hx. rewrite usum_0, H0.
  destruct (Req_dec x 0) as [->|Ne].
  - rewrite Rplus_0_r, Rabs_R0. replace (F p - F p) with 0 by ring. rewrite Rabs_R0. simpl. lra.
  - specialize (Hd x Ne ltac:(pose proof (cond_pos d); lra)).
    assert (P : 0 < Rabs x) by (apply Rabs_pos_lt; auto).
    replace (F (p + x) - F p) with (x * ((F (p + x) - F p) / x - l) + x * l) by (field; auto).
    eapply Rle_trans; [apply Rabs_triang|]. rewrite !Rabs_mult. simpl. nra.
Qed.
