(** * Roots and inverse functions of complex numbers (proof file for C50) *)
From Coq Require Import Reals Lra Lia.
From Coquelicot Require Import Coquelicot.
From Verif Require Import Ops Gdual Functions Spec ElemR Cplx CUni CFun CFun2 SpecCpx CTayIdent CQuadId.
Open Scope R_scope.

Lemma sqrt_square z : (Csqrt z * Csqrt z)%C = z.
Proof.
  destruct (Ceq_dec z (RtoC 0)) as [->|N].
  - unfold Csqrt. rewrite Cmod_0, sqrt_0. apply Ceq_iff; cbn [fst snd Cmult RtoC]; ring.
  - rewrite Csqrt_exp by auto. rewrite (Chalf_sq _ (Clog z)); [apply Cexp_log; auto|].
    unfold Cdiv. replace (RtoC (1 / 2)) with (/ RtoC 2)%C; [ring|]. rewrite <- RtoC_inv by lra. f_equal. lra.
Qed.
Lemma sqrt_right z : 0 <= fst (Csqrt z).
Proof.
  unfold Csqrt. cbn [fst]. apply Rmult_le_pos; [apply sqrt_pos|]. pose proof (Carg_range z). apply cos_ge_0; lra.
Qed.
Lemma C2 : RtoC 2 = (RtoC 1 + RtoC 1)%C.
Proof. rewrite <- RtoC_plus. f_equal; lra. Qed.
Lemma halve2 a b : (a * RtoC 2)%C = (b * RtoC 2)%C -> a = b.
Proof.
  intros H. transitivity (a * RtoC 2 * / RtoC 2)%C; [|rewrite H]; rewrite <- Cmult_assoc, Cinv_r by apply C2_neq0; ring.
Qed.
Lemma log_sum w v : (w * v)%C = RtoC 1 -> (Csinh (Clog w) * RtoC 2)%C = (w - v)%C /\ (Ccosh (Clog w) * RtoC 2)%C = (w + v)%C.
Proof.
  intros P. assert (N : w <> RtoC 0). { intros ->. apply (RtoC_neq0 1); [lra|]. rewrite <- P. ring. }
  assert (E := Cexp_log w N). assert (V : Cexp (- Clog w)%C = v).
  { pose proof (Cexp_neg (Clog w)) as Q. rewrite E in Q. transitivity (w * v * Cexp (- Clog w))%C; [rewrite P; ring|].
    transitivity (v * (w * Cexp (- Clog w)))%C; [ring|rewrite Q; ring]. }
  rewrite Cexp_mm in V. rewrite Cexp_pm in E. rewrite C2. rewrite <- V. set (a := Ccosh (Clog w)) in *. set (b := Csinh (Clog w)) in *.
  rewrite <- E. split; ring.
Qed.
Lemma sinh_asinh z : Csinh (Casinh z) = z.
Proof.
  unfold Casinh. pose proof (sqrt_square (z * z + RtoC 1)%C) as Q. set (s := Csqrt (z * z + RtoC 1)%C) in *.
  apply halve2. destruct (log_sum (z + s)%C (s - z)%C) as [-> _]; [transitivity (s * s - z * z)%C; [ring|rewrite Q; ring]|]. rewrite C2. ring.
Qed.
Lemma cosh_acosh z : Ccosh (Cacosh z) = z.
Proof.
  unfold Cacosh. pose proof (sqrt_square (z + RtoC 1)%C) as Q. pose proof (sqrt_square (z - RtoC 1)%C) as Q'.
  set (s := Csqrt (z + RtoC 1)%C) in *. set (s' := Csqrt (z - RtoC 1)%C) in *.
  apply halve2. destruct (log_sum (z + s * s')%C (z - s * s')%C) as [_ ->].
  - transitivity (z * z - (s * s) * (s' * s'))%C; [ring|rewrite Q, Q'; ring].
  - rewrite C2. ring.
Qed.
Lemma sin_asin z : Csin (Casin z) = z.
Proof.
  unfold Casin. pose proof (sqrt_square (RtoC 1 - z * z)%C) as Q. set (s := Csqrt (RtoC 1 - z * z)%C) in *.
  destruct (log_sum (Ci * z + s)%C (s - Ci * z)%C) as [E _].
  { transitivity (s * s - Ci * Ci * (z * z))%C; [ring|rewrite Q, Ci_sq; ring]. }
  set (l := Clog (Ci * z + s)%C) in *. pose proof (Csinh_i (- Ci * l)%C) as H.
  replace (Ci * (- Ci * l))%C with l in H by (transitivity (- (Ci * Ci) * l)%C; [rewrite Ci_sq; ring|ring]).
  apply halve2. transitivity (- (Ci * Ci) * (Csin (- Ci * l) * RtoC 2))%C; [rewrite Ci_sq; ring|].
  transitivity (- Ci * ((Ci * Csin (- Ci * l)) * RtoC 2))%C; [ring|]. rewrite <- H, E, C2.
  transitivity (- (Ci * Ci) * (z * (RtoC 1 + RtoC 1)))%C; [ring|rewrite Ci_sq; ring].
Qed.
Lemma cos_acos z : Ccos (Cacos z) = z.
Proof.
  rewrite <- (sin_asin z) at 2. unfold Cacos. set (w := Casin z).
  unfold Ccos, Csin, Cminus, Cplus, Copp, RtoC. cbn [fst snd].
  replace (PI / 2 + - fst w) with (PI / 2 - fst w) by ring. rewrite cos_shift, sin_shift.
  replace (0 + - snd w) with (- snd w) by ring. unfold cosh, sinh. rewrite Ropp_involutive. apply Ceq_iff; cbn [fst snd]; field.
Qed.
Lemma cbrt_cube z : (Ccbrt z * Ccbrt z * Ccbrt z)%C = z.
Proof.
  unfold Ccbrt. destruct (Ceq_dec z (RtoC 0)) as [->|N].
  - unfold Cpower. rewrite (proj2 (Ceqb_eq (RtoC 0) (RtoC 0)) eq_refl). destruct (Ceqb (RtoC (1 / 3)) (RtoC 0)) eqn:E; [|ring].
    apply Ceqb_eq in E. apply RtoC_inj in E. lra.
  - rewrite Cpower_exp by auto. rewrite <- !Cexp_add. rewrite <- (Cexp_log z N) at 4. f_equal.
    transitivity ((RtoC (1 / 3) + RtoC (1 / 3) + RtoC (1 / 3)) * Clog z)%C; [ring|]. rewrite <- !RtoC_plus.
    replace (1 / 3 + 1 / 3 + 1 / 3) with 1 by field. ring.
Qed.
