(** * Interval functions that satisfy the hypotheses of the theorems (proof file)

    Exact images where the function is monotone, and the trivial range for
    sine and cosine. *)
From Coq Require Import Reals Lra.
From Coquelicot Require Import Coquelicot.
From Verif Require Import Ops Interval SpecTM.
Local Open Scope R_scope.

Definition iv_std : IvFun R := mkIvFun R
  (fun I => (exp (fst I), exp (snd I)))
  (fun I => (sqrt (fst I), sqrt (snd I)))
  (fun _ => (-1, 1)) (fun _ => (-1, 1))
  (fun I => (sinh (fst I), sinh (snd I)))
  (fun I => (1, exp (Rmax (snd I) (- fst I))))
  (fun I => (asin (fst I), asin (snd I)))
  (fun I => (atan (fst I), atan (snd I))).
Lemma exp_le x y : x <= y -> exp x <= exp y.
Proof. intros [H|H]; [left; apply exp_increasing; auto|right; f_equal; auto]. Qed.
Lemma iv_std_sound : iv_sound iv_std.
Proof.
  constructor; unfold within; intros [a b] v; cbn [fst snd iv_std i_exp i_sqrt i_sin i_cos i_sinh i_cosh].
  - intros [H1 H2]. split; apply exp_le; auto.
  - intros H [H1 H2]. split; apply sqrt_le_1_alt; auto.
  - intros _. apply SIN_bound.
  - intros _. apply COS_bound.
  - intros [H1 H2]. unfold sinh. assert (A := exp_le a v H1). assert (B := exp_le v b H2). assert (C := exp_le (- v) (- a) ltac:(lra)). assert (D := exp_le (- b) (- v) ltac:(lra)). lra.
  - intros [H1 H2]. unfold cosh. assert (P := exp_pos v). assert (N : exp v * exp (- v) = 1) by (rewrite <- exp_plus, Rplus_opp_r; apply exp_0). assert (Q := exp_pos (- v)). split.
    + assert (S := Rle_0_sqr (exp v - 1)). unfold Rsqr in S. nra.
    + assert (A := exp_le v (Rmax b (- a)) ltac:(apply Rle_trans with b; auto; apply Rmax_l)).
      assert (B := exp_le (- v) (Rmax b (- a)) ltac:(apply Rle_trans with (- a); [lra|apply Rmax_r])). lra.
Qed.
Lemma iv_std_sqrt : forall I, 0 < fst I -> fst I <= snd I -> 0 < fst (@i_sqrt R iv_std I).
Proof. intros I H _. apply sqrt_lt_R0. auto. Qed.
Lemma iv_std_exp : snd (@i_exp R iv_std (-1, 1)) <= 20.
Proof. cbn. assert (H := exp_le_3). lra. Qed.
Lemma iv_std_sqrt2 : snd (@i_sqrt R iv_std (1, 125 / 64)) <= 2.
Proof. cbn. replace 2 with (sqrt (2 * 2)) by (apply sqrt_square; lra). apply sqrt_le_1_alt. lra. Qed.
