(** * Expansions of the complex sin, cos, sinh, cosh, tan, tanh, atanh (proof file). *)

From Coq Require Import Reals Lra Lia Psatz List ZArith Arith.
From Coquelicot Require Import Coquelicot.
From Verif Require Import Ops Functions FunAlg GdualFacts ElemR Uni UniFun UniFun2 Cplx CUni CFun.
Import ListNotations.
Open Scope R_scope.

(** ** Real coefficients seen as complex ones *)
Lemma evenc_C (a : nat -> R) (b : nat -> C) i : (forall j, b j = RtoC (a j)) -> evenc b i = RtoC (evenc a i).
Proof. intros H. unfold evenc. destruct (Nat.even i); [apply H|reflexivity]. Qed.
Lemma oddc_C (a : nat -> R) (b : nat -> C) i : (forall j, b j = RtoC (a j)) -> oddc b i = RtoC (oddc a i).
Proof. intros H. unfold oddc. destruct (Nat.even i); [reflexivity|apply H]. Qed.
Lemma cosc_C i : (cosc i : C) = RtoC (cosc i).
Proof.
  unfold cosc. apply evenc_C. intros j. toC. toR. rewrite RtoC_div; [reflexivity|]. apply INR_fact_neq_0.
Qed.
Lemma sinc_C i : (sinc i : C) = RtoC (sinc i).
Proof.
  unfold sinc. apply oddc_C. intros j. toC. toR. rewrite RtoC_div; [reflexivity|]. apply INR_fact_neq_0.
Qed.
Lemma coshc_C i : (coshc i : C) = RtoC (coshc i).
Proof.
  unfold coshc. apply evenc_C. intros j. toC. toR. rewrite RtoC_div; [reflexivity|]. apply INR_fact_neq_0.
Qed.
Lemma sinhc_C i : (sinhc i : C) = RtoC (sinhc i).
Proof.
  unfold sinhc. apply oddc_C. intros j. toC. toR. rewrite RtoC_div; [reflexivity|]. apply INR_fact_neq_0.
Qed.

Lemma Ci_pow k : (Cpw Ci k / RtoC (INR (fact k)))%C = (cosc k + Ci * sinc k)%C.
Proof.
  rewrite cosc_C, sinc_C. induction k.
  - rewrite cosc_0, sinc_0, Cpw_0. cbn [fact]. change (INR 1) with 1. field. apply RtoC_neq0. lra.
  - assert (X := Cnat_neq0 k). assert (Y := Cfact_neq0 k). rewrite Cpw_S, RtoC_fact_S.
    replace (Ci * Cpw Ci k / (RtoC (INR (S k)) * RtoC (INR (fact k))))%C with (Ci / RtoC (INR (S k)) * (Cpw Ci k / RtoC (INR (fact k))))%C
      by (field; auto).
    rewrite IHk. rewrite <- (sinc_S k). replace (sinc k) with (- (INR (S k) * cosc (S k))) by (rewrite cosc_S; ring).
    rewrite RtoC_opp, !RtoC_mult.
    replace (Ci / RtoC (INR (S k)) * (RtoC (INR (S k)) * RtoC (sinc (S k)) + Ci * - (RtoC (INR (S k)) * RtoC (cosc (S k)))))%C
      with (Ci * RtoC (sinc (S k)) - (Ci * Ci) * RtoC (cosc (S k)))%C by (field; auto).
    rewrite Ci_sq. ring.
Qed.
Lemma Cmi_pow k : (Cpw (- Ci) k / RtoC (INR (fact k)))%C = (cosc k - Ci * sinc k)%C.
Proof.
  rewrite cosc_C, sinc_C. induction k.
  - rewrite cosc_0, sinc_0, Cpw_0. cbn [fact]. change (INR 1) with 1. field. apply RtoC_neq0. lra.
  - assert (X := Cnat_neq0 k). assert (Y := Cfact_neq0 k). rewrite Cpw_S, RtoC_fact_S.
    replace (- Ci * Cpw (- Ci) k / (RtoC (INR (S k)) * RtoC (INR (fact k))))%C with (- Ci / RtoC (INR (S k)) * (Cpw (- Ci) k / RtoC (INR (fact k))))%C
      by (field; auto).
    rewrite IHk. rewrite <- (sinc_S k). replace (sinc k) with (- (INR (S k) * cosc (S k))) by (rewrite cosc_S; ring).
    rewrite RtoC_opp, !RtoC_mult.
    replace (- Ci / RtoC (INR (S k)) * (RtoC (INR (S k)) * RtoC (sinc (S k)) - Ci * - (RtoC (INR (S k)) * RtoC (cosc (S k)))))%C
      with (- Ci * RtoC (sinc (S k)) - (Ci * Ci) * RtoC (cosc (S k)))%C by (field; auto).
    rewrite Ci_sq. ring.
Qed.
Lemma C1_pow k : (RtoC 1 / RtoC (INR (fact k)))%C = (coshc k + sinhc k)%C.
Proof.
  rewrite coshc_C, sinhc_C. rewrite <- RtoC_plus, <- RtoC_div by apply INR_fact_neq_0. f_equal. induction k.
  - rewrite coshc_0, sinhc_0. simpl. field.
  - assert (X : INR (S k) <> 0) by (apply not_0_INR; lia). assert (Y := INR_fact_neq_0 k). rewrite fact_S_R.
    replace (1 / (INR (S k) * INR (fact k))) with (/ INR (S k) * (1 / INR (fact k))) by (field; auto).
    rewrite IHk, <- (sinhc_S k), <- (coshc_S k). field. auto.
Qed.
Lemma Cm1_pow k : (Cpw (- RtoC 1) k / RtoC (INR (fact k)))%C = (coshc k - sinhc k)%C.
Proof.
  rewrite coshc_C, sinhc_C. rewrite <- RtoC_opp, kpow_RtoC, <- RtoC_minus, <- RtoC_div by apply INR_fact_neq_0. f_equal. induction k.
  - rewrite coshc_0, sinhc_0. simpl. field.
  - assert (X : INR (S k) <> 0) by (apply not_0_INR; lia). assert (Y := INR_fact_neq_0 k). rewrite fact_S_R.
    replace ((- (1)) ^ S k / (INR (S k) * INR (fact k))) with (- / INR (S k) * ((- (1)) ^ k / INR (fact k))) by (cbn [pow]; field; auto).
    rewrite IHk, <- (sinhc_S k), <- (coshc_S k). field. auto.
Qed.

(** ** Linear combinations of exponentials *)
Lemma cuexp_expk k p n : cuexp (fun z => Cexp (k * z)%C) p n (fun i => Cexp (k * p)%C * (Cpw k i / RtoC (INR (fact i))))%C.
Proof.
  apply (cuexp_fun_all (fun z => Cexp (k * p + k * (z - p))%C)); [intros; f_equal; ring|].
  apply (cuexp_ext _ _ _ (fun i => Cexp (k * p)%C / RtoC (INR (fact i)) * Cpw k i)%C).
  - intros i _. field. apply Cfact_neq0.
  - apply (cuexp_affine Cexp k (k * p)%C p). apply cuexp_exp.
Qed.

Lemma C2_neq0 : RtoC 2 <> RtoC 0. Proof. apply RtoC_neq0. lra. Qed.
Lemma Ci_neq0 : Ci <> RtoC 0. Proof. intros E. inversion E. lra. Qed.
Lemma C2_eq : RtoC 2 = (RtoC 1 + RtoC 1)%C.
Proof. rewrite <- RtoC_plus. reflexivity. Qed.
Lemma C11_neq0 : (RtoC 1 + RtoC 1)%C <> RtoC 0.
Proof. rewrite <- C2_eq. apply C2_neq0. Qed.
Lemma Csin_exp z : Csin z = (- Ci / RtoC 2 * (Cexp (Ci * z) - Cexp (- Ci * z)))%C.
Proof.
  rewrite Cexp_i, Cexp_im, C2_eq.
  transitivity (- (Ci * Ci) * Csin z)%C; [rewrite Ci_sq; ring|]. field. apply C11_neq0.
Qed.
Lemma Ccos_exp z : Ccos z = (/ RtoC 2 * (Cexp (Ci * z) + Cexp (- Ci * z)))%C.
Proof. rewrite Cexp_i, Cexp_im, C2_eq. field. apply C11_neq0. Qed.
Lemma Csinh_exp z : Csinh z = (/ RtoC 2 * (Cexp (RtoC 1 * z) - Cexp (- RtoC 1 * z)))%C.
Proof.
  replace (RtoC 1 * z)%C with z by ring. replace (- RtoC 1 * z)%C with (- z)%C by ring.
  rewrite Cexp_mm, Cexp_pm, C2_eq. field. apply C11_neq0.
Qed.
Lemma Ccosh_exp z : Ccosh z = (/ RtoC 2 * (Cexp (RtoC 1 * z) + Cexp (- RtoC 1 * z)))%C.
Proof.
  replace (RtoC 1 * z)%C with z by ring. replace (- RtoC 1 * z)%C with (- z)%C by ring.
  rewrite Cexp_mm, Cexp_pm, C2_eq. field. apply C11_neq0.
Qed.

Lemma cuexp_sin p n : cuexp Csin p n (fun i => Csin p * cosc i + Ccos p * sinc i)%C.
Proof.
  apply (cuexp_fun_all (fun z => - Ci / RtoC 2 * (Cexp (Ci * z) - Cexp (- Ci * z)))%C); [intros; symmetry; apply Csin_exp|].
  eapply cuexp_ext; [|apply cuexp_scale, cuexp_minus; apply cuexp_expk]. intros i _. cbn beta.
  rewrite Ci_pow, Cmi_pow, Cexp_i, Cexp_im, C2_eq.
  transitivity (- (Ci * Ci) * (Csin p * cosc i + Ccos p * sinc i))%C; [field; apply C11_neq0|]. rewrite Ci_sq. ring.
Qed.
Lemma cuexp_cos p n : cuexp Ccos p n (fun i => Ccos p * cosc i - Csin p * sinc i)%C.
Proof.
  apply (cuexp_fun_all (fun z => / RtoC 2 * (Cexp (Ci * z) + Cexp (- Ci * z)))%C); [intros; symmetry; apply Ccos_exp|].
  eapply cuexp_ext; [|apply cuexp_scale, cuexp_plus; apply cuexp_expk]. intros i _. cbn beta.
  rewrite Ci_pow, Cmi_pow, Cexp_i, Cexp_im, C2_eq.
  transitivity (Ccos p * cosc i + (Ci * Ci) * (Csin p * sinc i))%C; [field; apply C11_neq0|]. rewrite Ci_sq. ring.
Qed.
Lemma Cpw_1 k : Cpw (RtoC 1) k = RtoC 1.
Proof. rewrite kpow_RtoC, pow1. reflexivity. Qed.
Lemma cuexp_sinh p n : cuexp Csinh p n (fun i => Csinh p * coshc i + Ccosh p * sinhc i)%C.
Proof.
  apply (cuexp_fun_all (fun z => / RtoC 2 * (Cexp (RtoC 1 * z) - Cexp (- RtoC 1 * z)))%C); [intros; symmetry; apply Csinh_exp|].
  eapply cuexp_ext; [|apply cuexp_scale, cuexp_minus; apply cuexp_expk]. intros i _. cbn beta.
  rewrite Cpw_1, C1_pow, Cm1_pow. replace (RtoC 1 * p)%C with p by ring. replace (- RtoC 1 * p)%C with (- p)%C by ring.
  rewrite Cexp_mm, Cexp_pm, C2_eq. field. apply C11_neq0.
Qed.
Lemma cuexp_cosh p n : cuexp Ccosh p n (fun i => Ccosh p * coshc i + Csinh p * sinhc i)%C.
Proof.
  apply (cuexp_fun_all (fun z => / RtoC 2 * (Cexp (RtoC 1 * z) + Cexp (- RtoC 1 * z)))%C); [intros; symmetry; apply Ccosh_exp|].
  eapply cuexp_ext; [|apply cuexp_scale, cuexp_plus; apply cuexp_expk]. intros i _. cbn beta.
  rewrite Cpw_1, C1_pow, Cm1_pow. replace (RtoC 1 * p)%C with p by ring. replace (- RtoC 1 * p)%C with (- p)%C by ring.
  rewrite Cexp_mm, Cexp_pm, C2_eq. field. apply C11_neq0.
Qed.

(** ** tan and tanh at the origin *)
Lemma csum_RtoC (f : nat -> R) n : csum (fun i => RtoC (f i)) n = RtoC (sum_f_R0 f n).
Proof. induction n; [reflexivity|]. cbn [csum sum_f_R0]. rewrite IHn, RtoC_plus. reflexivity. Qed.
Lemma cconv_RtoC (a b : nat -> R) m : cconv (fun i => RtoC (a i)) (fun i => RtoC (b i)) m = RtoC (conv a b m).
Proof.
  unfold cconv, conv. rewrite <- csum_RtoC. apply csum_ext. intros. symmetry. apply RtoC_mult.
Qed.
Lemma conv_tan m : conv tanc cosc m = sinc m.
Proof.
  assert (H : uexp (fun x => tan x * cos x) 0 m (conv tanc cosc)).
  { apply uexp_mult; [apply uexp_tan0|]. eapply uexp_ext; [|apply uexp_sincos]. intros i _. cbn beta. rewrite sin_0, cos_0. ring. }
  assert (G : uexp (fun x => tan x * cos x) 0 m sinc).
  { apply (uexp_fun sin).
    - exists 1. split; [lra|]. intros x Hx. apply Rabs_le_between in Hx. unfold tan. field.
      apply Rgt_not_eq, cos_gt_0; assert (P := PI_RGT_0); assert (Q := PI2_1); lra.
    - eapply uexp_ext; [|apply (uexp_sincos 0 m)]. intros i _. cbn beta. rewrite sin_0, cos_0. ring. }
  apply (uexp_unique _ _ _ _ _ H G m). lia.
Qed.
Lemma cosh_pos x : 0 < cosh x.
Proof. unfold cosh. assert (A := exp_pos x). assert (B := exp_pos (- x)). lra. Qed.
Lemma conv_tanh m : conv tanhc coshc m = sinhc m.
Proof.
  assert (H : uexp (fun x => tanh x * cosh x) 0 m (conv tanhc coshc)).
  { apply uexp_mult; [apply uexp_tanh0|]. eapply uexp_ext; [|apply uexp_sinhcosh]. intros i _. cbn beta. rewrite sinh_0, cosh_0. ring. }
  assert (G : uexp (fun x => tanh x * cosh x) 0 m sinhc).
  { apply (uexp_fun_all sinh).
    - intros x. unfold tanh. assert (P := cosh_pos x). field. lra.
    - eapply uexp_ext; [|apply (uexp_sinhcosh 0 m)]. intros i _. cbn beta. rewrite sinh_0, cosh_0. ring. }
  apply (uexp_unique _ _ _ _ _ H G m). lia.
Qed.
Lemma kofZ_C z : (kofZ z : C) = RtoC (IZR z). Proof. reflexivity. Qed.
Lemma tanc_C i : (tanc i : C) = RtoC (tanc i).
Proof.
  unfold tanc. apply oddc_C. intros j. unfold tanj. destruct j as [|j]; [reflexivity|]. toC. toR.
  rewrite RtoC_div by apply INR_fact_neq_0. rewrite !RtoC_mult, RtoC_minus. reflexivity.
Qed.
Lemma tanhc_C i : (tanhc i : C) = RtoC (tanhc i).
Proof.
  unfold tanhc. apply oddc_C. intros j. unfold tanhj. destruct j as [|j]; [reflexivity|]. toC. toR.
  rewrite RtoC_div by apply INR_fact_neq_0. rewrite !RtoC_mult, RtoC_minus. reflexivity.
Qed.
Lemma Csin_0 : Csin (RtoC 0) = RtoC 0.
Proof. unfold Csin, RtoC; cbn [fst snd]. rewrite sin_0, cos_0, sinh_0. f_equal; ring. Qed.
Lemma Ccos_0 : Ccos (RtoC 0) = RtoC 1.
Proof. unfold Ccos, RtoC; cbn [fst snd]. rewrite sin_0, cos_0, cosh_0. f_equal; ring. Qed.
Lemma Csinh_0 : Csinh (RtoC 0) = RtoC 0.
Proof. unfold Csinh, RtoC; cbn [fst snd]. rewrite sin_0, sinh_0. f_equal; ring. Qed.
Lemma Ccosh_0 : Ccosh (RtoC 0) = RtoC 1.
Proof. unfold Ccosh, RtoC; cbn [fst snd]. rewrite sin_0, cos_0, cosh_0. f_equal; ring. Qed.

Lemma cuexp_tan0 n : cuexp Ctan (RtoC 0) n tanc.
Proof.
  apply (cuexp_quot Csin Ccos (RtoC 0) n sinc cosc tanc).
  - eapply cuexp_ext; [|apply cuexp_sin]. intros i _. cbn beta. rewrite Csin_0, Ccos_0. ring.
  - eapply cuexp_ext; [|apply cuexp_cos]. intros i _. cbn beta. rewrite Csin_0, Ccos_0. ring.
  - rewrite cosc_C, cosc_0. apply RtoC_neq0. lra.
  - intros m _. rewrite sinc_C, <- conv_tan, <- cconv_RtoC. unfold cconv. apply csum_ext. intros j _. rewrite tanc_C, cosc_C. reflexivity.
Qed.
Lemma cuexp_tanh0 n : cuexp Ctanh (RtoC 0) n tanhc.
Proof.
  apply (cuexp_quot Csinh Ccosh (RtoC 0) n sinhc coshc tanhc).
  - eapply cuexp_ext; [|apply cuexp_sinh]. intros i _. cbn beta. rewrite Csinh_0, Ccosh_0. ring.
  - eapply cuexp_ext; [|apply cuexp_cosh]. intros i _. cbn beta. rewrite Csinh_0, Ccosh_0. ring.
  - rewrite coshc_C, coshc_0. apply RtoC_neq0. lra.
  - intros m _. rewrite sinhc_C, <- conv_tanh, <- cconv_RtoC. unfold cconv. apply csum_ext. intros j _. rewrite tanhc_C, coshc_C. reflexivity.
Qed.

(** ** atanh *)
Lemma cuexp_atanh p n : nocut (RtoC 1 + p)%C -> nocut (RtoC 1 - p)%C -> cuexp Catanh p n (atanhc p).
Proof.
  intros H1 H2. assert (Z1 := nocut_neq0 _ H1). assert (Z2 := nocut_neq0 _ H2).
  apply (cuexp_fun_all (fun z => RtoC (1 / 2) * (Clog ((RtoC 1 + p) + RtoC 1 * (z - p)) - Clog ((RtoC 1 - p) + (- RtoC 1) * (z - p))))%C).
  { intros z. unfold Catanh. f_equal. f_equal; f_equal; ring. }
  eapply cuexp_ext; [|apply cuexp_scale, cuexp_minus;
    [apply (cuexp_affine Clog (RtoC 1) (RtoC 1 + p)%C p), cuexp_log; auto|apply (cuexp_affine Clog (- RtoC 1)%C (RtoC 1 - p)%C p), cuexp_log; auto]].
  intros i _. cbn beta. rewrite Cpw_1. rewrite <- RtoC_opp, kpow_RtoC. destruct i as [|i].
  - cbn [logc atanhc]. change (e_log (Elem:=ElemC)) with Clog. change (e_atanh (Elem:=ElemC)) with Catanh. unfold Catanh.
    cbn [pow]. ring.
  - cbn [logc atanhc]. rewrite !kofZ_C. toC.
    set (A := Cpw (RtoC 1 + p)%C (S i)). set (B := Cpw (RtoC 1 - p)%C (S i)).
    assert (An : A <> RtoC 0) by (apply Cpw_neq0; auto). assert (Bn : B <> RtoC 0) by (apply Cpw_neq0; auto).
    assert (X := Cnat_neq0 i).
    assert (E : (RtoC ((-1) ^ i) * RtoC ((- (1)) ^ S i))%C = (- RtoC 1)%C).
    { rewrite <- RtoC_mult, <- RtoC_opp. f_equal. replace ((- (1)) ^ S i) with (- (-1) ^ i) by (cbn [pow]; replace (- (1)) with (-1) by lra; ring).
      replace ((-1) ^ i * - (-1) ^ i) with (- ((-1) ^ i * (-1) ^ i)) by ring. rewrite <- Rpow_mult_distr. replace (-1 * -1) with 1 by lra.
      rewrite pow1. reflexivity. }
    rewrite RtoC_div by lra. rewrite C2_eq.
    transitivity (RtoC 1 / (RtoC 1 + RtoC 1) * (RtoC ((-1) ^ i) / (RtoC (INR (S i)) * A) - (RtoC ((-1) ^ i) * RtoC ((- (1)) ^ S i)) / (RtoC (INR (S i)) * B)))%C.
    + field. repeat split; auto. apply C11_neq0.
    + rewrite E. field. repeat split; auto. apply C11_neq0.
Qed.

(** ** Addition theorems *)
Lemma Csincos_add a b :
  Csin (a + b)%C = (Csin a * Ccos b + Ccos a * Csin b)%C /\ Ccos (a + b)%C = (Ccos a * Ccos b - Csin a * Csin b)%C.
Proof.
  assert (E1 : (Ccos (a + b) + Ci * Csin (a + b))%C = ((Ccos a + Ci * Csin a) * (Ccos b + Ci * Csin b))%C).
  { rewrite <- !Cexp_i, <- Cexp_add. f_equal. ring. }
  assert (E2 : (Ccos (a + b) - Ci * Csin (a + b))%C = ((Ccos a - Ci * Csin a) * (Ccos b - Ci * Csin b))%C).
  { rewrite <- !Cexp_im, <- Cexp_add. f_equal. ring. }
  set (sb := Csin (a + b)%C) in *. set (cb := Ccos (a + b)%C) in *. clearbody sb cb.
  set (sa := Csin a) in *. set (ca := Ccos a) in *. set (s := Csin b) in *. set (c := Ccos b) in *. clearbody sa ca s c.
  assert (Z := C11_neq0). assert (Y := Ci_neq0).
  split.
  - transitivity (((cb + Ci * sb) - (cb - Ci * sb)) / ((RtoC 1 + RtoC 1) * Ci))%C; [field; auto|].
    rewrite E1, E2. field. auto.
  - transitivity (((cb + Ci * sb) + (cb - Ci * sb)) / (RtoC 1 + RtoC 1))%C; [field; auto|].
    rewrite E1, E2. transitivity (ca * c + (Ci * Ci) * (sa * s))%C; [field; auto|]. rewrite Ci_sq. ring.
Qed.
Lemma Csinhcosh_add a b :
  Csinh (a + b)%C = (Csinh a * Ccosh b + Ccosh a * Csinh b)%C /\ Ccosh (a + b)%C = (Ccosh a * Ccosh b + Csinh a * Csinh b)%C.
Proof.
  assert (E1 : (Ccosh (a + b) + Csinh (a + b))%C = ((Ccosh a + Csinh a) * (Ccosh b + Csinh b))%C).
  { rewrite <- !Cexp_pm, <- Cexp_add. reflexivity. }
  assert (E2 : (Ccosh (a + b) - Csinh (a + b))%C = ((Ccosh a - Csinh a) * (Ccosh b - Csinh b))%C).
  { rewrite <- !Cexp_mm, <- Cexp_add. f_equal. ring. }
  set (sb := Csinh (a + b)%C) in *. set (cb := Ccosh (a + b)%C) in *. clearbody sb cb.
  set (sa := Csinh a) in *. set (ca := Ccosh a) in *. set (s := Csinh b) in *. set (c := Ccosh b) in *. clearbody sa ca s c.
  assert (Z := C11_neq0).
  split.
  - transitivity (((cb + sb) - (cb - sb)) / (RtoC 1 + RtoC 1))%C; [field; auto|]. rewrite E1, E2. field. auto.
  - transitivity (((cb + sb) + (cb - sb)) / (RtoC 1 + RtoC 1))%C; [field; auto|]. rewrite E1, E2. field. auto.
Qed.
Lemma Ctan_add a b : Ccos a <> RtoC 0 -> Ccos b <> RtoC 0 -> Ccos (a + b)%C <> RtoC 0 ->
  Ctan (a + b)%C = ((Ctan a + Ctan b) / (RtoC 1 - Ctan a * Ctan b))%C.
Proof.
  intros Ha Hb Hab. destruct (Csincos_add a b) as [Es Ec]. unfold Ctan. rewrite Ec in Hab. rewrite Es, Ec.
  field. repeat split; auto.
Qed.
Lemma Ctanh_add a b : Ccosh a <> RtoC 0 -> Ccosh b <> RtoC 0 -> Ccosh (a + b)%C <> RtoC 0 ->
  Ctanh (a + b)%C = ((Ctanh a + Ctanh b) / (RtoC 1 + Ctanh a * Ctanh b))%C.
Proof.
  intros Ha Hb Hab. destruct (Csinhcosh_add a b) as [Es Ec]. unfold Ctanh. rewrite Ec in Hab. rewrite Es, Ec.
  field. repeat split; auto.
Qed.

Lemma cuexp_at_shift (F : C -> C) n c p : cuexp F (RtoC 0) n c -> cuexp (fun y => F (y - p)%C) p n c.
Proof.
  intros H. apply (cuexp_affine F (RtoC 1) (RtoC 0) p) in H.
  apply (cuexp_fun_all (fun x => F (RtoC 0 + RtoC 1 * (x - p))%C)); [intros; f_equal; ring|].
  apply (cuexp_ext _ _ _ (fun i => c i * Cpw (RtoC 1) i)%C); auto. intros. rewrite Cpw_1. ring.
Qed.
Lemma cont_neq0 (F : C -> C) p n c : cuexp F p n c -> F p <> RtoC 0 ->
  exists e, 0 < e /\ forall y, Cmod (y - p)%C <= e -> F y <> RtoC 0.
Proof.
  intros H N. rewrite (cuexp_at0 _ _ _ _ H) in N. apply (cuexp_le _ _ 0 n) in H; [|lia].
  destruct H as (M & d & Hd & HM & B). assert (P := Cmod_pos0 _ N).
  assert (Q : 0 < Cmod (c 0%nat) / (2 * (M + 1))) by (apply Rdiv_lt_0_compat; lra).
  exists (Rmin d (Cmod (c 0%nat) / (2 * (M + 1)))). split; [apply Rmin_pos; auto|]. intros y Hy E.
  assert (X1 : Cmod (y - p)%C <= d) by (eapply Rle_trans; [exact Hy|apply Rmin_l]).
  assert (X2 : Cmod (y - p)%C <= Cmod (c 0%nat) / (2 * (M + 1))) by (eapply Rle_trans; [exact Hy|apply Rmin_r]).
  specialize (B _ X1). replace (p + (y - p))%C with y in B by ring. rewrite E, cusum_0, pow_1 in B.
  replace (RtoC 0 - c 0%nat)%C with (- c 0%nat)%C in B by ring. rewrite Cmod_opp in B.
  apply (Rmult_le_compat_r (M + 1)) in X2; [|lra].
  replace (Cmod (c 0%nat) / (2 * (M + 1)) * (M + 1)) with (Cmod (c 0%nat) / 2) in X2 by (field; lra).
  assert (Z := Cmod_pos (y - p)%C). nra.
Qed.

(** ** Integer powers at any point but 0 *)
Lemma Cpower_S z n : z <> RtoC 0 -> forall a, Cpower z (a + RtoC (INR n))%C = (Cpower z a * Cpw z n)%C.
Proof. intros H a. rewrite <- (Cpower_nat z n H), !Cpower_exp by auto. rewrite <- Cexp_add. f_equal. ring. Qed.
Lemma Cpower_neg z m : z <> RtoC 0 -> Cpower z (RtoC (- INR m)) = (/ Cpw z m)%C.
Proof.
  intros H. rewrite <- (Cpower_nat z m H), !Cpower_exp by auto. rewrite <- Cexp_opp. f_equal. rewrite RtoC_opp. ring.
Qed.
Lemma Cpw_opp z m : Cpw (- z)%C m = (RtoC ((-1) ^ m) * Cpw z m)%C.
Proof.
  induction m; [rewrite !Cpw_0; cbn [pow]; ring|]. rewrite !Cpw_S, IHm. cbn [pow]. rewrite RtoC_mult.
  replace (RtoC (-1)) with (- RtoC 1)%C by (rewrite <- RtoC_opp; reflexivity). ring.
Qed.
Lemma Copp_neq0 z : z <> RtoC 0 -> (- z)%C <> RtoC 0.
Proof. intros H E. apply H. transitivity (- - z)%C; [ring|]. rewrite E. ring. Qed.
(** The sign (-1)^m. *)
Definition zsign (m : Z) : R := (-1) ^ Z.abs_nat m.
Lemma zsign_sq m : zsign m * zsign m = 1.
Proof. unfold zsign. rewrite <- Rpow_mult_distr. replace (-1 * -1) with 1 by lra. apply pow1. Qed.
Lemma m1_sq k : (-1) ^ k * (-1) ^ k = 1.
Proof. rewrite <- Rpow_mult_distr. replace (-1 * -1) with 1 by lra. apply pow1. Qed.
Lemma Cpower_int_opp z m : z <> RtoC 0 -> Cpower (- z)%C (RtoC (IZR m)) = (RtoC (zsign m) * Cpower z (RtoC (IZR m)))%C.
Proof.
  intros H. assert (H' := Copp_neq0 z H).
  destruct (Z_le_gt_dec 0 m) as [L|L].
  - assert (E : IZR m = INR (Z.to_nat m)) by (rewrite INR_IZR_INZ, Z2Nat.id; auto).
    rewrite E, !Cpower_nat by auto. rewrite Cpw_opp. unfold zsign. rewrite Zabs2Nat.abs_nat_nonneg by auto. reflexivity.
  - assert (E : IZR m = - INR (Z.to_nat (- m))) by (rewrite INR_IZR_INZ, Z2Nat.id, opp_IZR by lia; ring).
    rewrite E, !Cpower_neg by auto. rewrite Cpw_opp. unfold zsign.
    replace (Z.abs_nat m) with (Z.to_nat (- m)) by lia. set (k := Z.to_nat (- m)).
    assert (X := Cpw_neq0 z k H). assert (S2 := m1_sq k).
    assert (Sn : RtoC ((-1) ^ k) <> RtoC 0) by (apply RtoC_neq0; nra).
    transitivity (RtoC ((-1) ^ k * (-1) ^ k) / (RtoC ((-1) ^ k) * Cpw z k))%C.
    + rewrite S2. field. auto.
    + rewrite RtoC_mult. field. auto.
Qed.
Lemma cuexp_power_int p n m : p <> RtoC 0 -> cuexp (fun z => Cpower z (RtoC (IZR m))) p n (powc p (RtoC (IZR m))).
Proof.
  intros Hp. destruct (Rlt_dec 0 (fst p)) as [L|L]; [apply cuexp_power; left; auto|].
  destruct (Req_EM_T (snd p) 0) as [E|E]; [|apply cuexp_power; right; auto].
  assert (Hn : nocut (- p)%C).
  { left. cbn [Copp fst]. destruct (Req_dec (fst p) 0) as [Z|Z]; [|lra]. exfalso. apply Hp. apply Ceq_iff; auto. }
  assert (Hq := Copp_neq0 p Hp).
  apply (cuexp_fun (fun z => RtoC (zsign m) * Cpower (- p + - RtoC 1 * (z - p)) (RtoC (IZR m)))%C).
  - destruct (neq0_near p Hp) as (d & Hd & N). exists d. split; auto. intros z Hz.
    replace (- p + - RtoC 1 * (p + z - p))%C with (- (p + z))%C by ring. rewrite Cpower_int_opp by auto.
    rewrite Cmult_assoc, <- RtoC_mult, zsign_sq. ring.
  - eapply cuexp_ext; [|apply cuexp_scale, (cuexp_affine (fun z => Cpower z (RtoC (IZR m))) (- RtoC 1)%C (- p)%C p), cuexp_power; auto].
    intros i _. cbn beta. rewrite !powc_C. rewrite !Cpower_sub by auto. rewrite !Cpower_nat by auto.
    rewrite Cpower_int_opp by auto. rewrite <- RtoC_opp, kpow_RtoC, Cpw_opp.
    replace (- (1)) with (-1) by lra. set (e := (-1) ^ i). assert (Se : e * e = 1) by apply m1_sq.
    assert (en : RtoC e <> RtoC 0) by (apply RtoC_neq0; nra). assert (X := Cpw_neq0 p i Hp).
    transitivity ((RtoC (zsign m) * RtoC (zsign m)) * (gbin (RtoC (IZR m)) i * (Cpower p (RtoC (IZR m)) / Cpw p i)))%C.
    + field. auto.
    + rewrite <- RtoC_mult, zsign_sq. ring.
Qed.
