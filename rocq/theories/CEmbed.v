(** * Real gduals inside the complex ones (proof file). *)

From Coq Require Import String Ascii Reals Lra Lia Psatz List ZArith Bool.
From Coquelicot Require Import Coquelicot.
From Verif Require Import Ops Syms Poly Sem Gdual GdualFacts Functions FunStruct Spec FunAlg ElemR Uni UniFun SpecTaylor TayProofs TayIdent Gmap Cplx CUni CFun CFun2 CTayFun SpecCpx CTayProofs CTayIdent.
Import ListNotations.
Open Scope R_scope.

Lemma RtoC_div' a b : RtoC (a / b) = (RtoC a / RtoC b)%C.
Proof.
  destruct (Req_EM_T b 0) as [->|H]; [|apply RtoC_div; auto].
  unfold Rdiv, Cdiv, Cinv, RtoC, Cmult. cbn [fst snd]. rewrite Rinv_0. apply Ceq_iff; cbn [fst snd];
  replace (0 ^ 2 + 0 ^ 2) with 0 by ring; unfold Rdiv; rewrite Rinv_0; ring.
Qed.
#[local] Instance HomRC : Hom OpsR OpsC RtoC.
Proof.
  constructor; cbn [k0 k1 kadd ksub kmul kopp kdiv kofZ kabs keqb OpsR OpsC]; auto using RtoC_plus, RtoC_minus, RtoC_mult, RtoC_opp, RtoC_div'.
  - intros a. rewrite Cmod_R. reflexivity.
  - intros a H. unfold Reqb in H. destruct (Req_EM_T a 0); [subst; auto|discriminate].
Qed.
Lemma RtoC_eqb (a b : R) : keqb (RtoC a) (RtoC b) = keqb a b.
Proof.
  cbn [keqb OpsR OpsC]. unfold Ceqb, Reqb. cbn [fst snd RtoC]. destruct (Req_EM_T a b), (Req_EM_T 0 0); auto; congruence.
Qed.
Lemma RtoC_zero (a : R) : keqb (RtoC a) k0 = keqb a k0.
Proof. exact (RtoC_eqb a 0). Qed.
Lemma cembed_gmapc g : cembed g = gmapc RtoC g.
Proof. reflexivity. Qed.

Lemma RC_exp x : RtoC (exp x) = Cexp (RtoC x).
Proof. unfold Cexp, RtoC. cbn [fst snd]. rewrite cos_0, sin_0. apply Ceq_iff; cbn [fst snd]; ring. Qed.
Lemma RC_sincos x : RtoC (sin x) = Csin (RtoC x) /\ RtoC (cos x) = Ccos (RtoC x).
Proof. unfold Csin, Ccos, RtoC. cbn [fst snd]. rewrite cosh_0, sinh_0. split; apply Ceq_iff; cbn [fst snd]; ring. Qed.
Lemma RC_sinhcosh x : RtoC (sinh x) = Csinh (RtoC x) /\ RtoC (cosh x) = Ccosh (RtoC x).
Proof. unfold Csinh, Ccosh, RtoC. cbn [fst snd]. rewrite cos_0, sin_0. split; apply Ceq_iff; cbn [fst snd]; ring. Qed.
Lemma RC_log x : 0 < x -> RtoC (ln x) = Clog (RtoC x).
Proof.
  intros H. unfold Clog. rewrite Cmod_R, Rabs_right by lra. unfold Carg, RtoC. cbn [fst snd].
  destruct (Rlt_dec 0 x); [|lra]. replace (0 / x) with 0 by (field; lra). rewrite atan_0. reflexivity.
Qed.
Lemma RC_tan x : RtoC (tan x) = Ctan (RtoC x).
Proof. unfold tan, Ctan. rewrite RtoC_div'. destruct (RC_sincos x) as [-> ->]. reflexivity. Qed.
Lemma RC_tanh x : RtoC (tanh x) = Ctanh (RtoC x).
Proof. unfold tanh, Ctanh. rewrite RtoC_div'. destruct (RC_sinhcosh x) as [-> ->]. reflexivity. Qed.
Lemma RC_atanh x : -1 < x < 1 -> RtoC (atanh_R x) = Catanh (RtoC x).
Proof.
  intros H. unfold atanh_R, Catanh. rewrite <- RtoC_plus, <- RtoC_minus, <- !RC_log, <- RtoC_minus, <- RtoC_mult by lra. f_equal.
  unfold Rdiv. rewrite ln_mult, ln_Rinv; [field|lra|lra|apply Rinv_0_lt_compat; lra].
Qed.
Lemma RC_atan x : RtoC (atan x) = Catan (RtoC x).
Proof.
  assert (E1 : (RtoC 1 - Ci * RtoC x)%C = (1, - x)) by (apply Ceq_iff; cbn; ring).
  assert (E2 : (RtoC 1 + Ci * RtoC x)%C = (1, x)) by (apply Ceq_iff; cbn; ring).
  unfold Catan. rewrite E1, E2. unfold Clog, Carg, Cmod. cbn [fst snd]. destruct (Rlt_dec 0 1); [|lra].
  replace (- x / 1) with (- x) by field. replace (x / 1) with x by field. rewrite atan_opp.
  replace (1 ^ 2 + (- x) ^ 2) with (1 ^ 2 + x ^ 2) by ring.
  apply Ceq_iff; cbn; field.
Qed.
Lemma RC_powZ x k : RtoC (powerRZ x k) = cpowZ (RtoC x) k.
Proof.
  assert (P : forall n, RtoC (x ^ n) = cpow (RtoC x) n) by (induction n; cbn [pow cpow]; [|rewrite RtoC_mult, IHn]; auto).
  unfold cpowZ. destruct k as [|q|q]; cbn [powerRZ Z.ltb Z.compare Z.opp Z.to_nat]; [reflexivity|apply P|].
  rewrite <- P. change (/ RtoC (x ^ Pos.to_nat q))%C with (Cinv (RtoC (x ^ Pos.to_nat q))).
  pose proof (RtoC_div' 1 (x ^ Pos.to_nat q)) as E. unfold Rdiv in E. rewrite Rmult_1_l in E. rewrite E. unfold Cdiv. ring.
Qed.
Lemma RC_pow_pos x a : 0 < x -> RtoC (rpow x a) = Cpower (RtoC x) (RtoC a).
Proof.
  intros H. unfold rpow. destruct (Rlt_dec 0 x); [|lra]. rewrite Cpower_exp by (apply RtoC_neq0; lra).
  rewrite <- RC_log, <- RtoC_mult, <- RC_exp by auto. reflexivity.
Qed.
Lemma RC_pow_int x m : x <> 0 -> RtoC (rpow x (IZR m)) = Cpower (RtoC x) (RtoC (IZR m)).
Proof.
  intros H. unfold rpow. destruct (Rlt_dec 0 x) as [P|P].
  - rewrite <- RC_pow_pos by auto. unfold rpow. destruct (Rlt_dec 0 x); [auto|lra].
  - rewrite Int_part_IZR. destruct (Req_EM_T (IZR m) (IZR m)); [|congruence].
    rewrite Cpower_z by (intros; apply RtoC_neq0; auto). apply RC_powZ.
Qed.

(** The constructors and the operations. *)
Lemma embed_var v s n g : gvar v s n = Ok g -> gvar (RtoC v) s n = Ok (cembed g).
Proof. intros E. rewrite (gvar_map RtoC RtoC_zero v s n), E. reflexivity. Qed.
Lemma embed_const v : gconst (RtoC v) = cembed (gconst v).
Proof. apply (gconst_map RtoC RtoC_zero). Qed.
Lemma embed_arith a b :
  gadd (cembed a) (cembed b) = cembed (gadd a b) /\ gsub (cembed a) (cembed b) = cembed (gsub a b) /\
  gmul (cembed a) (cembed b) = cembed (gmul a b) /\ gdiv (cembed a) (cembed b) = cembed (gdiv a b) /\
  gneg (cembed a) = cembed (gneg a).
Proof.
  rewrite !cembed_gmapc. split; [apply (gadd_map RtoC RtoC_zero)|]. split; [apply (gsub_map RtoC RtoC_zero)|].
  split; [apply (gmul_map RtoC RtoC_zero)|]. split; [apply (gdiv_map RtoC RtoC_zero)|]. apply (gneg_map RtoC).
Qed.
Lemma embed_scalar v a :
  gadd_sg (RtoC v) (cembed a) = cembed (gadd_sg v a) /\ gadd_gs (cembed a) (RtoC v) = cembed (gadd_gs a v) /\
  gsub_sg (RtoC v) (cembed a) = cembed (gsub_sg v a) /\ gsub_gs (cembed a) (RtoC v) = cembed (gsub_gs a v) /\
  gmul_sg (RtoC v) (cembed a) = cembed (gmul_sg v a) /\ gmul_gs (cembed a) (RtoC v) = cembed (gmul_gs a v) /\
  gdiv_sg (RtoC v) (cembed a) = cembed (gdiv_sg v a) /\ gdiv_gs (cembed a) (RtoC v) = cembed (gdiv_gs a v).
Proof.
  rewrite !cembed_gmapc.
  split; [apply (gadd_sg_map RtoC RtoC_zero)|]. split; [apply (gadd_gs_map RtoC RtoC_zero)|].
  split; [apply (gsub_sg_map RtoC RtoC_zero)|]. split; [apply (gsub_gs_map RtoC RtoC_zero)|].
  split; [apply (gmul_sg_map RtoC RtoC_zero)|]. split; [apply (gmul_gs_map RtoC RtoC_zero)|].
  split; [apply (gdiv_sg_map RtoC RtoC_zero)|]. apply (gdiv_gs_map RtoC RtoC_zero).
Qed.

(** The functions, where the real function is defined. *)
Lemma embed_fun f d : dom1 (cfun1 f) (constant_cf d) -> run1 (cfun1 f) (cembed d) = cembed (run1 (cfun1 f) d).
Proof.
  intros D. rewrite !cembed_gmapc. destruct f; cbn [cfun1 run1 dom1] in *.
  - apply (gexp_map RtoC RtoC_zero). apply RC_exp.
  - apply (glog_map RtoC RtoC_zero). apply RC_log; auto.
  - exact (proj1 (gsin_map RtoC RtoC_zero d (proj1 (RC_sincos _)) (proj2 (RC_sincos _)))).
  - exact (proj2 (gsin_map RtoC RtoC_zero d (proj1 (RC_sincos _)) (proj2 (RC_sincos _)))).
  - apply (gtan_map RtoC RtoC_zero); [reflexivity|apply RC_tan].
  - exact (proj1 (gsinh_map RtoC RtoC_zero d (proj1 (RC_sinhcosh _)) (proj2 (RC_sinhcosh _)))).
  - exact (proj2 (gsinh_map RtoC RtoC_zero d (proj1 (RC_sinhcosh _)) (proj2 (RC_sinhcosh _)))).
  - apply (gtanh_map RtoC RtoC_zero); [reflexivity|apply RC_tanh].
  - apply (gatanh_map RtoC RtoC_zero). apply RC_atanh; auto.
Qed.
Lemma embed_quad q d g : domD (quadD q) (constant_cf d) -> runD (quadD q) d = Ok g -> runD (quadD q) (cembed d) = Ok (cembed g).
Proof.
  intros D E. rewrite !cembed_gmapc. destruct q; cbn [quadD runD domD] in *.
  - rewrite (gatanh_d_map RtoC RtoC_zero), E by (apply RC_atanh; auto). reflexivity.
  - rewrite (gatan_d_map RtoC RtoC_zero), E by apply RC_atan. reflexivity.
Qed.
(** The calculus. *)
Lemma embed_calculus d s v :
  gpartial (cembed d) s = match gpartial d s with Ok g => Ok (cembed g) | Throw x => Throw x end /\
  gintegrate (cembed d) s = match gintegrate d s with Ok g => Ok (cembed g) | Throw x => Throw x end /\
  gsubs_val (cembed d) s (RtoC v) = cembed (gsubs_val d s v).
Proof.
  split; [exact (gpartial_map RtoC RtoC_zero d s)|]. split; [exact (gintegrate_map RtoC RtoC_zero d s)|].
  exact (gsubs_val_map RtoC RtoC_zero d s v).
Qed.
Lemma embed_pow_int d z : gpow_int (cembed d) z = cembed (gpow_int d z).
Proof. apply (gpow_int_map RtoC RtoC_zero). Qed.
Lemma embed_pow a b : 0 < constant_cf a -> gpow (cembed a) (cembed b) = cembed (gpow a b).
Proof. intros H. apply (gpow_map RtoC RtoC_zero); [apply RC_log; auto|apply RC_exp]. Qed.
Lemma embed_pow_sg v d : 0 < v -> gpow_sg (RtoC v) (cembed d) = cembed (gpow_sg v d).
Proof. intros H. apply (gpow_sg_map RtoC RtoC_zero); [apply RC_log; auto|apply RC_exp|apply RC_pow_pos; auto]. Qed.
Lemma embed_pow_real d a : 0 < constant_cf d \/ (constant_cf d <> 0 /\ exists m, a = IZR m) \/ (exists k, a = INR (S k)) ->
  gpow_real (cembed d) (RtoC a) = cembed (gpow_real d a).
Proof.
  intros D. rewrite !cembed_gmapc. apply (gpow_real_map RtoC RtoC_zero).
  - change (kofZ (e_toint (RtoC a))) with (RtoC (kofZ (e_toint a))). rewrite RtoC_eqb. reflexivity.
  - reflexivity.
  - intros Q b Hb. cbn [e_pow ElemR ElemC].
    destruct D as [D|[[D (m & Hm)]|(k & Hk)]].
    + apply RC_pow_pos; auto.
    + assert (I : exists m', b = IZR m').
      { destruct Hb as [->|[->|(i & ->)]]; [exists m; auto|exists (m - 1)%Z|exists (m - Z.of_nat i)%Z];
          rewrite minus_IZR, Hm; reflexivity. }
      destruct I as (m' & ->). apply RC_pow_int; auto.
    + exfalso. subst a. cbn [keqb kltb kofZ k0 OpsR e_toint ElemR] in Q. rewrite INR_IZR_INZ, rtoint_IZR in Q.
      unfold Reqb, Rltb in Q. destruct (Req_EM_T _ _); [|congruence]. destruct (Rlt_dec _ _) as [|X]; [discriminate|].
      apply X. apply (IZR_lt 0). lia.
Qed.

Lemma cfun_of_eq f f' : cfun_of f = Some f' -> f = cfun1 f'.
Proof. destruct f; cbn [cfun_of]; intros E; inversion E; reflexivity. Qed.
Lemma cquad_of_eq f q : cquad_of f = Some q -> f = quadD q.
Proof. destruct f; cbn [cquad_of]; intros E; inversion E; reflexivity. Qed.
Lemma map1_some F a r : map1 F a = Some r -> exists x, a = Some x /\ r = F x.
Proof. destruct a; cbn [map1]; intros E; inversion E; eauto. Qed.
Lemma map2_some F a b r : map2 F a b = Some r -> exists x y, a = Some x /\ b = Some y /\ r = F x y.
Proof. destruct a, b; cbn [map2]; intros E; inversion E; eauto. Qed.

Lemma embed_program point order M e : (forall s, (order s <= M)%nat) -> forall e' g, to_complex e = Some e' ->
  calc point order e = Ok g -> fits e M -> smooth e point ->
  ccalc (fun s => RtoC (point s)) order e' = Ok (cembed g).
Proof.
  intros HM.
  assert (CC : forall a g, calc point order a = Ok g -> fits a M -> smooth a point -> constant_cf g = real a point).
  { intros a g E F S. destruct (calc_inv point order M 0 (fun s => conj (Nat.le_0_l _) (HM s)) a g E F S) as (X & _).
    apply expands_at in X. rewrite TayProofs.at_center in X. symmetry. exact X. }
  induction e; intros e' g T E F S; cbn [to_complex] in T; cbn [calc] in E; cbn [fits] in F; cbn [smooth] in S;
    repeat match goal with Hh : _ /\ _ |- _ => destruct Hh end;
    repeat match goal with
    | X : (match ?r with Ok _ => _ | Throw _ => _ end) = Ok _ |- _ => destruct r eqn:?; [|discriminate X]
    | X : rbind ?r _ = Ok _ |- _ => destruct r eqn:?; cbn [rbind] in X; [|discriminate X]
    end;
    try (match type of T with map1 _ _ = _ => apply map1_some in T; destruct T as (x & T & ->)
                            | map2 _ _ _ = _ => apply map2_some in T; destruct T as (x & y & T & T' & ->) end);
    try (match type of E with Ok _ = Ok _ => inversion E; subst g; clear E end);
    try (match type of T with Some _ = Some _ => inversion T; subst e'; clear T end);
    cbn [ccalc];
    repeat match goal with
    | T1 : to_complex ?a = Some ?x, Eq : calc point order ?a = Ok ?q |- _ =>
        pose proof (CC a q Eq ltac:(assumption) ltac:(assumption));
        match goal with IH : _ |- _ => rewrite (IH x q T1 eq_refl ltac:(assumption) ltac:(assumption)); clear IH end; clear T1; cbn [rbind] end;
    try (match goal with |- Ok (?f (cembed ?a) (cembed ?b)) = _ => destruct (embed_arith a b) as (? & ? & ? & ? & ?); congruence end);
    try (match goal with |- Ok (?f (cembed ?a)) = _ => destruct (embed_arith a a) as (? & ? & ? & ? & ?); congruence end);
    try (match goal with |- Ok (?f (RtoC ?v) (cembed ?a)) = _ => destruct (embed_scalar v a) as (? & ? & ? & ? & ? & ? & ? & ?); congruence end);
    try (match goal with |- Ok (?f (cembed ?a) (RtoC ?v)) = _ => destruct (embed_scalar v a) as (? & ? & ? & ? & ? & ? & ? & ?); congruence end).
  - rewrite embed_const. reflexivity.
  - apply embed_var. exact E.
  - destruct (cfun_of f) as [f'|] eqn:Ef; [|discriminate]. apply map1_some in T. destruct T as (x & T & ->).
    cbn [ccalc]. rewrite (IHe x a T eq_refl ltac:(assumption) ltac:(assumption)). cbn [rbind].
    apply cfun_of_eq in Ef. subst f. rewrite embed_fun; [reflexivity|].
    rewrite (CC e a) by assumption. assumption.
  - destruct (cquad_of f) as [q|] eqn:Ef; [|discriminate]. apply map1_some in T. destruct T as (x & T & ->).
    cbn [ccalc]. rewrite (IHe x a T eq_refl ltac:(assumption) ltac:(assumption)). cbn [rbind].
    apply cquad_of_eq in Ef. subst f. apply embed_quad; [|exact E].
    rewrite (CC e a) by assumption. assumption.
  - rewrite embed_pow; [reflexivity|congruence].
  - rewrite embed_pow_sg; auto.
  - rewrite embed_pow_real; [reflexivity|]. rewrite (CC e a) by assumption.
    match goal with D : dompow _ _ |- _ => destruct D as [D|[[D ?]|D]]; [left; auto|right; left; split; auto; lra|right; right; auto] end.
  - rewrite embed_pow_int. reflexivity.
Qed.

(** log(exp d) is not d in general. *)
Lemma log_exp_other : exists d : gdual C, valid d /\ constant_cf (glog (gexp d)) <> constant_cf d.
Proof.
  assert (X : exists z : C, Cexp z = RtoC 1 /\ z <> RtoC 0).
  { exists (0, 2 * PI). split.
    - unfold Cexp. cbn [fst snd]. rewrite exp_0, cos_2PI, sin_2PI. unfold RtoC. f_equal; ring.
    - intros X. inversion X. pose proof PI_RGT_0. lra. }
  destruct X as (z & E & Nz). exists (gconst z). pose proof (cexpands_const 0 z) as H. split; [apply H|].
  pose proof (cexpands_fun1 Xexp 0 _ _ H I I) as H1. cbn [run1 cfun1 cval] in H1.
  assert (S1 : slit (RtoC 1)) by (intros [_ X]; cbn in X; lra).
  pose proof (cexpands_fun1 Xlog 0 _ _ H1) as H2. cbn [run1 cfun1 cval cdom cfits1] in H2. rewrite E in H2. specialize (H2 S1 I).
  apply cexpands_at in H. apply cexpands_at in H2. rewrite <- H, <- H2. rewrite <- RC_log, ln_1 by lra. auto.
Qed.
