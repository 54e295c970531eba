(** * Identities between functions of gduals with complex coefficients (proof file). *)

From Coq Require Import String Ascii Reals Lra Lia Psatz List ZArith Bool.
From Coquelicot Require Import Coquelicot.
From Verif Require Import Ops Syms SymsFacts Poly PolyFacts Sem Den Gdual GdualFacts Functions FunStruct Spec CoefFacts CoreProofs MiscProofs FunAlg ElemR UniFun Cplx CUni CFun CFun2 CTaylor CTayUnique CTayFun SpecCpx CTayProofs.
Import ListNotations.
Open Scope R_scope.

Lemma eq_of_cexpands n a b f : cexpands n a f -> cexpands n b f -> (get_order a <= n)%nat -> (get_order b <= n)%nat ->
  geqb a b = true.
Proof.
  intros Ha Hb La Lb. assert (Va := proj1 Ha). assert (Vb := proj1 Hb).
  apply (geqb_same (o:=OpsC)); auto. intros W k HW Hk.
  destruct (le_lt_dec (list_sum k) n) as [L|L].
  - apply (cexpands_unique n a b f); auto; [apply Ha|apply Hb].
  - rewrite !(coef_above (o:=OpsC)) by (first [apply valid_iff; assumption | auto; unfold get_order in *; lia]). reflexivity.
Qed.
Lemma cexpands_self d : valid d -> cexpands (get_order d) d (value d).
Proof.
  intros V. split; auto. split; auto. exists 0, 1. split; [lra|]. split; [lra|]. intros x r _ _.
  replace (value d x - value d x)%C with (RtoC 0) by ring. rewrite Cmod_m0. lra.
Qed.
Lemma cself_center d : valid d -> value d ccenter = constant_cf d.
Proof. intros V. exact (cexpands_at _ _ _ (cexpands_self d V)). Qed.
Lemma cnear n d f (P : C -> Prop) : cexpands n d f -> (exists e, 0 < e /\ forall z, Cmod z <= e -> P (f ccenter + z)%C) ->
  exists e, 0 < e /\ forall x, csmall x e -> P (f x).
Proof.
  intros H (e & He & B). apply cexpands_T in H. destruct (T_near idC n d f e H He) as (r & Hr & N). exists r. split; auto.
  intros x Hx. specialize (B (f x - f ccenter)%C). replace (f ccenter + (f x - f ccenter))%C with (f x) in B by ring.
  apply B. exact (N x Hx).
Qed.

(** The principal argument. *)
Lemma Carg_range z : - PI < Carg z <= PI.
Proof.
  pose proof PI_RGT_0 as P. unfold Carg. pose proof (atan_bound (snd z / fst z)). pose proof (atan_bound (fst z / snd z)).
  destruct (Rlt_dec _ _); [lra|]. destruct (Rlt_dec _ _); [lra|]. destruct (Rlt_dec (snd z) 0); [|destruct (Rlt_dec _ _); lra].
  split; [|lra]. lra.
Qed.
Lemma cos_one x : - (2 * PI) < x < 2 * PI -> cos x = 1 -> x = 0.
Proof.
  intros H E. replace x with (2 * (x / 2)) in E by field. rewrite cos_2a_sin in E.
  assert (S0 : sin (x / 2) = 0) by nra.
  destruct (Rtotal_order x 0) as [L|[L|L]]; auto; exfalso.
  - assert (0 < sin (- (x / 2))) by (apply sin_gt_0; lra). rewrite sin_neg in H0. lra.
  - assert (0 < sin (x / 2)) by (apply sin_gt_0; lra). lra.
Qed.
Lemma Carg_unique r t : 0 < r -> - PI < t <= PI -> Carg (r * cos t, r * sin t)%R = t.
Proof.
  intros Hr Ht. set (z := (r * cos t, r * sin t)%R).
  assert (Nz : z <> RtoC 0). { apply C_neq0. unfold z. cbn [fst snd]. pose proof (sin2_cos2 t). unfold Rsqr in *. nra. }
  assert (M : Cmod z = r).
  { rewrite Cmod_sqrt. unfold z. cbn [fst snd]. replace (_ + _) with (r * r).
    - apply sqrt_square. lra.
    - pose proof (sin2_cos2 t). unfold Rsqr in *. nra. }
  destruct (Carg_polar z Nz) as [A B]. rewrite M in A, B. unfold z at 2 in A. unfold z at 2 in B. cbn [fst snd] in A, B.
  apply Rmult_eq_reg_l in A; [|lra]. apply Rmult_eq_reg_l in B; [|lra].
  pose proof (Carg_range z). assert (Carg z - t = 0); [|lra]. apply cos_one; [lra|].
  rewrite cos_minus, A, B. pose proof (sin2_cos2 t). unfold Rsqr in *. lra.
Qed.
Lemma Cmod_exp z : Cmod (Cexp z) = exp (fst z).
Proof.
  rewrite Cmod_sqrt. unfold Cexp. cbn [fst snd]. replace (_ + _) with (exp (fst z) * exp (fst z)).
  - apply sqrt_square. left. apply exp_pos.
  - pose proof (sin2_cos2 (snd z)). unfold Rsqr in *. nra.
Qed.
Lemma Clog_exp z : - PI < snd z <= PI -> Clog (Cexp z) = z.
Proof.
  intros H. unfold Clog. rewrite Cmod_exp, ln_exp. unfold Cexp. rewrite Carg_unique; auto; [|apply exp_pos]. destruct z; reflexivity.
Qed.
Lemma slit_exp z : - PI < snd z < PI -> slit (Cexp z).
Proof.
  intros H [A B]. unfold Cexp in A, B. cbn [fst snd] in A, B. pose proof (exp_pos (fst z)) as P.
  assert (S0 : sin (snd z) = 0) by nra. assert (C1 : cos (snd z) <= 0) by nra.
  destruct (Rtotal_order (snd z) 0) as [L|[L|L]].
  - assert (X : 0 < sin (- snd z)) by (apply sin_gt_0; lra). rewrite sin_neg in X. lra.
  - rewrite L, cos_0 in C1. lra.
  - assert (X : 0 < sin (snd z)) by (apply sin_gt_0; lra). lra.
Qed.
Lemma slit_neq0 z : slit z -> z <> RtoC 0.
Proof. intros H ->. apply H. cbn. lra. Qed.
Lemma Ccosh_i z : Ccosh (Ci * z)%C = Ccos z.
Proof.
  rewrite Ccosh_exp, Ccos_exp. replace (RtoC 1 * (Ci * z))%C with (Ci * z)%C by ring.
  replace (- RtoC 1 * (Ci * z))%C with (- Ci * z)%C by ring. reflexivity.
Qed.
Lemma Csinh_i z : Csinh (Ci * z)%C = (Ci * Csin z)%C.
Proof.
  rewrite Csinh_exp, Csin_exp. replace (RtoC 1 * (Ci * z))%C with (Ci * z)%C by ring.
  replace (- RtoC 1 * (Ci * z))%C with (- Ci * z)%C by ring.
  transitivity ((- (Ci * Ci)) * (/ RtoC 2 * (Cexp (Ci * z) - Cexp (- Ci * z))))%C.
  - rewrite Ci_sq. ring.
  - unfold Cdiv. ring.
Qed.
Lemma Csin2_cos2 z : (Csin z * Csin z + Ccos z * Ccos z)%C = RtoC 1.
Proof.
  transitivity (Cexp (Ci * z) * Cexp (- Ci * z))%C.
  - rewrite Cexp_i, Cexp_im. transitivity (Ccos z * Ccos z - (Ci * Ci) * Csin z * Csin z)%C; [rewrite Ci_sq|]; ring.
  - rewrite <- Cexp_add. replace (Ci * z + - Ci * z)%C with (RtoC 0) by ring. apply Cexp_0.
Qed.
Lemma Ccosh2_sinh2 z : (Ccosh z * Ccosh z - Csinh z * Csinh z)%C = RtoC 1.
Proof. transitivity (Cexp z * Cexp (- z))%C; [rewrite Cexp_pm, Cexp_mm; ring|apply Cexp_neg]. Qed.
Lemma Cpower_z z k : ((k <= 0)%Z -> z <> RtoC 0) -> Cpower z (RtoC (IZR k)) = cpowZ z k.
Proof.
  intros H. destruct (Ceqb z (RtoC 0)) eqn:E.
  - apply Ceqb_eq in E. subst z. unfold Cpower. replace (Ceqb (RtoC 0) (RtoC 0)) with true by (symmetry; apply Ceqb_eq; auto).
    assert (P : (0 < k)%Z) by (destruct (Z_lt_le_dec 0 k); auto; exfalso; apply H; auto).
    rewrite Ceqb_neq by (apply RtoC_neq0; apply not_0_IZR; lia).
    unfold cpowZ. replace (Z.ltb k 0) with false by (symmetry; apply Z.ltb_ge; lia).
    replace (Z.to_nat k) with (S (Z.to_nat k - 1)) by lia. cbn [cpow]. ring.
  - assert (Nz : z <> RtoC 0) by (intros ->; replace (Ceqb (RtoC 0) (RtoC 0)) with true in E by (symmetry; apply Ceqb_eq; auto); discriminate).
    unfold cpowZ. destruct (Z.ltb_spec k 0).
    + assert (K : IZR k = - INR (Z.to_nat (- k))) by (rewrite INR_IZR_INZ, <- opp_IZR; f_equal; lia). rewrite K.
      rewrite Cpower_neg by auto. reflexivity.
    + assert (K : IZR k = INR (Z.to_nat k)) by (rewrite INR_IZR_INZ; f_equal; lia).
      transitivity (Cpw z (Z.to_nat k)); [rewrite K; apply Cpower_nat; auto|symmetry; apply cpow_Cpw].
Qed.

Section Ident.
  Variable d : gdual C.
  Hypothesis V : valid d.
  Let N := get_order d.
  Let E0 := cexpands_self d V.
  Let C0 := cself_center d V.
  Lemma co1 f : get_order (run1 (cfun1 f) d) = N.
  Proof. apply run1_ord; auto. Qed.
  Lemma co_mul (a b : gdual C) : get_order (gmul a b) = Nat.max (get_order a) (get_order b).
  Proof. reflexivity. Qed.
  Lemma co_sg (c : C) (a : gdual C) : get_order (gmul_sg c a) = get_order a.
  Proof. unfold gmul_sg, get_order. cbn [gmul gconst_ord gord]. lia. Qed.

  Let Hexp := cexpands_fun1 Xexp N d (value d) E0 I I.
  Let Hsinh := cexpands_fun1 Xsinh N d (value d) E0 I I.
  Let Hcosh := cexpands_fun1 Xcosh N d (value d) E0 I I.
  Let Hid := proj1 (proj2 (proj2 (proj2 (proj2 (cexpands_scalar N d (value d) Ci E0))))).

  Lemma c_euler : (Z.of_nat (get_order d) <= 65536)%Z -> geqb (gexp (gmul_sg Ci d)) (gadd (gcos d) (gmul_sg Ci (gsin d))) = true.
  Proof.
    intros L. assert (Hs := cexpands_fun1 Xsin N d (value d) E0 I L). assert (Hc := cexpands_fun1 Xcos N d (value d) E0 I L).
    assert (He := cexpands_fun1 Xexp N _ _ Hid I I).
    destruct (cexpands_scalar N _ _ Ci Hs) as (_ & _ & _ & _ & Hm & _).
    destruct (cexpands_arith N _ _ _ _ Hc Hm) as (Ha & _).
    pose proof (co1 Xsin) as O1. pose proof (co1 Xcos) as O2. pose proof (run1_ord Fexp _ (proj1 Hid)) as O3. rewrite co_sg in O3.
    cbn [run1 cfun1 cval] in *.
    apply (eq_of_cexpands N _ _ (fun x => Ccos (value d x) + Ci * Csin (value d x))%C); auto; unfold N in *.
    - eapply cexpands_ext; [|exact He]. intros x. apply Cexp_i.
    - lia.
    - change (get_order (gadd ?a ?b)) with (Nat.max (get_order a) (get_order b)). rewrite co_sg. lia.
  Qed.
  Lemma c_hyp_trig : (Z.of_nat (get_order d) <= 65536)%Z ->
    geqb (gcosh (gmul_sg Ci d)) (gcos d) = true /\ geqb (gsinh (gmul_sg Ci d)) (gmul_sg Ci (gsin d)) = true.
  Proof.
    intros L. assert (Hs := cexpands_fun1 Xsin N d (value d) E0 I L). assert (Hc := cexpands_fun1 Xcos N d (value d) E0 I L).
    assert (H1 := cexpands_fun1 Xcosh N _ _ Hid I I). assert (H2 := cexpands_fun1 Xsinh N _ _ Hid I I).
    destruct (cexpands_scalar N _ _ Ci Hs) as (_ & _ & _ & _ & Hm & _).
    pose proof (co1 Xsin) as O1. pose proof (co1 Xcos) as O2.
    pose proof (run1_ord Fcosh _ (proj1 Hid)) as O3. pose proof (run1_ord Fsinh _ (proj1 Hid)) as O4. rewrite co_sg in O3, O4.
    cbn [run1 cfun1 cval] in *. unfold N in *. split.
    - apply (eq_of_cexpands N _ _ (fun x => Ccos (value d x))); auto; unfold N; try lia.
      eapply cexpands_ext; [|exact H1]. intros x. apply Ccosh_i.
    - apply (eq_of_cexpands N _ _ (fun x => Ci * Csin (value d x))%C); auto; unfold N; try lia; [|rewrite co_sg; lia].
      eapply cexpands_ext; [|exact H2]. intros x. apply Csinh_i.
  Qed.
  Lemma c_sin_cos_one : (Z.of_nat (get_order d) <= 65536)%Z ->
    geqb (gadd (gmul (gsin d) (gsin d)) (gmul (gcos d) (gcos d))) (gconst (RtoC 1)) = true.
  Proof.
    intros L. assert (Hs := cexpands_fun1 Xsin N d (value d) E0 I L). assert (Hc := cexpands_fun1 Xcos N d (value d) E0 I L).
    destruct (cexpands_arith N _ _ _ _ Hs Hs) as (_ & _ & M1 & _). destruct (cexpands_arith N _ _ _ _ Hc Hc) as (_ & _ & M2 & _).
    destruct (cexpands_arith N _ _ _ _ M1 M2) as (S & _).
    pose proof (co1 Xsin) as O1. pose proof (co1 Xcos) as O2. cbn [run1 cfun1 cval] in *.
    apply (eq_of_cexpands N _ _ (fun _ => RtoC 1)).
    - eapply cexpands_ext; [|exact S]. intros x. apply Csin2_cos2.
    - apply cexpands_const.
    - unfold get_order in *. cbn [gadd gmul gord]. lia.
    - unfold get_order. cbn. lia.
  Qed.
  Lemma c_cosh_sinh_one : geqb (gsub (gmul (gcosh d) (gcosh d)) (gmul (gsinh d) (gsinh d))) (gconst (RtoC 1)) = true.
  Proof.
    destruct (cexpands_arith N _ _ _ _ Hsinh Hsinh) as (_ & _ & M1 & _). destruct (cexpands_arith N _ _ _ _ Hcosh Hcosh) as (_ & _ & M2 & _).
    destruct (cexpands_arith N _ _ _ _ M2 M1) as (_ & S & _).
    pose proof (co1 Xsinh) as O1. pose proof (co1 Xcosh) as O2. cbn [run1 cfun1 cval] in *.
    apply (eq_of_cexpands N _ _ (fun _ => RtoC 1)).
    - eapply cexpands_ext; [|exact S]. intros x. apply Ccosh2_sinh2.
    - apply cexpands_const.
    - unfold get_order in *. cbn [gsub gmul gord]. lia.
    - unfold get_order. cbn. lia.
  Qed.
  Lemma c_exp_log : slit (constant_cf d) -> geqb (gexp (glog d)) d = true.
  Proof.
    intros P. rewrite <- C0 in P.
    assert (H := cexpands_fun1 Xlog N d (value d) E0 P I). assert (H2 := cexpands_fun1 Xexp N _ _ H I I).
    pose proof (co1 Xlog) as O. pose proof (run1_ord Fexp _ (proj1 H)) as O2. cbn [run1 cfun1 cval] in *.
    apply (eq_of_cexpands N _ _ (value d)); auto; [|lia].
    eapply cexpands_fun; [|exact H2].
    destruct (cnear N d (value d) (fun y => y <> RtoC 0) E0 (neq0_near _ (slit_neq0 _ P))) as (e & He & B).
    exists e. split; auto. intros x Hx. apply Cexp_log. auto.
  Qed.
  Lemma c_log_exp : - PI < snd (constant_cf d) < PI -> geqb (glog (gexp d)) d = true.
  Proof.
    intros P. rewrite <- C0 in P.
    assert (H2 := cexpands_fun1 Xlog N _ _ Hexp (slit_exp _ P) I).
    pose proof (co1 Xexp) as O. pose proof (run1_ord Flog _ (proj1 Hexp)) as O2. cbn [run1 cfun1 cval] in *.
    apply (eq_of_cexpands N _ _ (value d)); auto; [|lia].
    eapply cexpands_fun; [|exact H2].
    destruct (cnear N d (value d) (fun y => - PI < snd y < PI) E0) as (e & He & B).
    { exists (Rmin ((PI - snd (value d ccenter)) / 2) ((snd (value d ccenter) + PI) / 2)).
      split; [apply Rmin_pos; lra|]. intros z Hz. pose proof (Cmod_snd z) as Q.
      pose proof (Rmin_l ((PI - snd (value d ccenter)) / 2) ((snd (value d ccenter) + PI) / 2)).
      pose proof (Rmin_r ((PI - snd (value d ccenter)) / 2) ((snd (value d ccenter) + PI) / 2)).
      assert (Q' : Rabs (snd z) <= Rmin ((PI - snd (value d ccenter)) / 2) ((snd (value d ccenter) + PI) / 2)) by lra.
      unfold Cplus. cbn [snd]. apply Rabs_le_between in Q'. lra. }
    exists e. split; auto. intros x Hx. apply Clog_exp. specialize (B x Hx). lra.
  Qed.
  Lemma c_exp_add e : valid e -> get_order e = get_order d -> geqb (gexp (gadd d e)) (gmul (gexp d) (gexp e)) = true.
  Proof.
    intros Ve Q. assert (E1 := cexpands_self e Ve). rewrite Q in E1.
    destruct (cexpands_arith N _ _ _ _ E0 E1) as (A & _). assert (Va := proj1 A).
    pose proof (run1_ord Fexp _ Va) as Oa. pose proof (co1 Xexp) as O. pose proof (run1_ord Fexp e Ve) as Oe.
    assert (H1 := cexpands_fun1 Xexp N e (value e) E1 I I).
    assert (H2 := cexpands_fun1 Xexp N _ _ A I I). cbn [run1 cfun1 cval] in *.
    destruct (cexpands_arith N _ _ _ _ Hexp H1) as (_ & _ & M & _).
    apply (eq_of_cexpands N _ _ (fun x => Cexp (value d x) * Cexp (value e x))%C); auto.
    - eapply cexpands_ext; [|exact H2]. intros x. apply Cexp_add.
    - rewrite Oa. unfold N, get_order in *. cbn [gadd gord]. lia.
    - rewrite co_mul. cbn [run1 cfun1] in *. unfold N in *. lia.
  Qed.
  Lemma c_tan_quot : (Z.of_nat (get_order d) <= 65536)%Z -> Ccos (constant_cf d) <> RtoC 0 -> geqb (gtan d) (gdiv (gsin d) (gcos d)) = true.
  Proof.
    intros L P. rewrite <- C0 in P. assert (H := cexpands_fun1 Xtan N d (value d) E0 P I).
    assert (Hs := cexpands_fun1 Xsin N d (value d) E0 I L). assert (Hc := cexpands_fun1 Xcos N d (value d) E0 I L).
    destruct (cexpands_arith N _ _ _ _ Hs Hc) as (_ & _ & _ & _ & Q).
    pose proof (co1 Xsin) as O1. pose proof (co1 Xcos) as O2. pose proof (co1 Xtan) as O3.
    destruct (ord_binary _ _ (proj1 Hs) (proj1 Hc)) as (_ & _ & _ & O4 & _). cbn [run1 cfun1 cval] in *.
    apply (eq_of_cexpands N _ _ (fun x => Csin (value d x) / Ccos (value d x))%C); auto; unfold N in *; lia.
  Qed.
  Lemma c_tanh_quot : Ccosh (constant_cf d) <> RtoC 0 -> geqb (gtanh d) (gdiv (gsinh d) (gcosh d)) = true.
  Proof.
    intros P. rewrite <- C0 in P. assert (H := cexpands_fun1 Xtanh N d (value d) E0 P I).
    destruct (cexpands_arith N _ _ _ _ Hsinh Hcosh) as (_ & _ & _ & _ & Q).
    pose proof (co1 Xsinh) as O1. pose proof (co1 Xcosh) as O2. pose proof (co1 Xtanh) as O3.
    destruct (ord_binary _ _ (proj1 Hsinh) (proj1 Hcosh)) as (_ & _ & _ & O4 & _). cbn [run1 cfun1 cval] in *.
    apply (eq_of_cexpands N _ _ (fun x => Csinh (value d x) / Ccosh (value d x))%C); auto; unfold N in *; lia.
  Qed.
  Lemma c_pow_overloads z : ((z <= 0)%Z -> constant_cf d <> RtoC 0) -> geqb (gpow_real d (RtoC (IZR z))) (gpow_int d z) = true.
  Proof.
    intros P. rewrite <- C0 in P. destruct (ord_pow d V) as (O1 & O2 & _).
    assert (H1 : cexpands N (gpow_real d (RtoC (IZR z))) (fun x => Cpower (value d x) (RtoC (IZR z)))).
    { apply cexpands_pow_real; auto. destruct (Z_lt_le_dec 0 z) as [L|L].
      - right. right. exists (Z.to_nat (z - 1)). rewrite INR_IZR_INZ. f_equal. lia.
      - right. left. split; eauto. }
    assert (H2 : cexpands N (gpow_int d z) (fun x => cpowZ (value d x) z)) by (apply cexpands_pow_int; auto; intros; apply P; lia).
    apply (eq_of_cexpands N _ _ (fun x => cpowZ (value d x) z)); auto; [|rewrite O1; auto|rewrite O2; auto].
    eapply cexpands_fun; [|exact H1].
    destruct (Z_lt_le_dec 0 z) as [L|L].
    - exists 1. split; [lra|]. intros x _. apply Cpower_z. lia.
    - destruct (cnear N d (value d) (fun y => y <> RtoC 0) E0 (neq0_near _ (P L))) as (e & He & B).
      exists e. split; auto. intros x Hx. apply Cpower_z. auto.
  Qed.
End Ident.
