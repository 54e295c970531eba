(** * Conjugate data (proof file). *)

From Coq Require Import String Ascii Reals Lra Lia Psatz List ZArith Bool.
From Coquelicot Require Import Coquelicot.
From Verif Require Import Ops Syms Poly Sem Gdual GdualFacts Functions FunStruct Spec FunAlg ElemR Uni UniFun SpecTaylor TayProofs Gmap Cplx CUni CFun CFun2 CTayFun SpecCpx CTayProofs CTayIdent CEmbed CQuad CProg SpecConj.
Import ListNotations.
Open Scope R_scope.

Ltac ceq := apply Ceq_iff; unfold cconj, RtoC, Ci; cbn; try ring.
Lemma conj_add a b : cconj (a + b)%C = (cconj a + cconj b)%C.
Proof. ceq. Qed.
Lemma conj_sub a b : cconj (a - b)%C = (cconj a - cconj b)%C.
Proof. ceq. Qed.
Lemma conj_mul a b : cconj (a * b)%C = (cconj a * cconj b)%C.
Proof. ceq. Qed.
Lemma conj_opp a : cconj (- a)%C = (- cconj a)%C.
Proof. ceq. Qed.
Lemma conj_real x : cconj (RtoC x) = RtoC x.
Proof. ceq. Qed.
Lemma conj_conj z : cconj (cconj z) = z.
Proof. destruct z. ceq. Qed.
Lemma conj_Ci : cconj Ci = (- Ci)%C.
Proof. ceq. Qed.
Lemma conj_inv b : cconj (/ b)%C = (/ cconj b)%C.
Proof.
  unfold Cinv, cconj. cbn [fst snd]. replace ((- snd b) ^ 2) with (snd b ^ 2) by ring.
  apply Ceq_iff; cbn [fst snd]; unfold Rdiv; ring.
Qed.
Lemma conj_div a b : cconj (a / b)%C = (cconj a / cconj b)%C.
Proof. unfold Cdiv. rewrite conj_mul, conj_inv. reflexivity. Qed.
Lemma conj_mod z : Cmod (cconj z) = Cmod z.
Proof. unfold Cmod, cconj. cbn [fst snd]. f_equal. ring. Qed.
Lemma conj_inj a b : cconj a = cconj b -> a = b.
Proof. intros H. rewrite <- (conj_conj a), H. apply conj_conj. Qed.
#[local] Instance HomConj : Hom OpsC OpsC cconj.
Proof.
  constructor; cbn [k0 k1 kadd ksub kmul kopp kdiv kofZ kabs keqb OpsC];
    auto using conj_add, conj_sub, conj_mul, conj_opp, conj_div, conj_real.
  - intros z. apply conj_real.
  - intros a. rewrite conj_real, conj_mod. reflexivity.
  - intros a H. apply Ceqb_eq in H. subst a. apply conj_real.
Qed.
Lemma conj_zero (a : C) : keqb (cconj a) k0 = keqb a k0.
Proof.
  cbn [keqb k0 OpsC]. destruct (Ceqb a (RtoC 0)) eqn:E.
  - apply Ceqb_eq in E. subst a. apply Ceqb_eq, conj_real.
  - destruct (Ceqb (cconj a) (RtoC 0)) eqn:E'; auto. apply Ceqb_eq in E'. rewrite <- (conj_real 0) in E'.
    apply conj_inj in E'. subst a. replace (Ceqb (RtoC 0) (RtoC 0)) with true in E by (symmetry; apply Ceqb_eq; auto). discriminate.
Qed.
Lemma gconj_gmapc g : gconj g = gmapc cconj g.
Proof. reflexivity. Qed.

Lemma conj_slit z : slit z -> slit (cconj z).
Proof. unfold slit, cconj. cbn [fst snd]. intros H [A B]. apply H. split; [lra|auto]. Qed.
Lemma conj_exp z : cconj (Cexp z) = Cexp (cconj z).
Proof. unfold Cexp, cconj. cbn [fst snd]. rewrite cos_neg, sin_neg. f_equal. ring. Qed.
Lemma sinh_neg x : sinh (- x) = - sinh x.
Proof. unfold sinh. rewrite Ropp_involutive. field. Qed.
Lemma cosh_neg x : cosh (- x) = cosh x.
Proof. unfold cosh. rewrite Ropp_involutive. field. Qed.
Lemma conj_sin z : cconj (Csin z) = Csin (cconj z).
Proof. unfold Csin, cconj. cbn [fst snd]. rewrite cosh_neg, sinh_neg. f_equal. ring. Qed.
Lemma conj_cos z : cconj (Ccos z) = Ccos (cconj z).
Proof. unfold Ccos, cconj. cbn [fst snd]. rewrite cosh_neg, sinh_neg. f_equal. ring. Qed.
Lemma conj_sinh z : cconj (Csinh z) = Csinh (cconj z).
Proof. unfold Csinh, cconj. cbn [fst snd]. rewrite cos_neg, sin_neg. f_equal. ring. Qed.
Lemma conj_cosh z : cconj (Ccosh z) = Ccosh (cconj z).
Proof. unfold Ccosh, cconj. cbn [fst snd]. rewrite cos_neg, sin_neg. f_equal. ring. Qed.
Lemma conj_arg z : slit z -> Carg (cconj z) = - Carg z.
Proof.
  intros H. unfold Carg, cconj, slit in *. cbn [fst snd]. destruct z as [x y]. cbn [fst snd] in *.
  destruct (Rlt_dec 0 x). { unfold Rdiv. rewrite Ropp_mult_distr_l_reverse, atan_opp. reflexivity. }
  destruct (Rlt_dec 0 y).
  - destruct (Rlt_dec 0 (- y)); [lra|]. destruct (Rlt_dec (- y) 0); [|lra].
    replace (x / - y) with (- (x / y)) by (field; lra). rewrite atan_opp. ring.
  - destruct (Rlt_dec y 0).
    + destruct (Rlt_dec 0 (- y)); [|lra]. replace (x / - y) with (- (x / y)) by (field; lra). rewrite atan_opp. ring.
    + exfalso. apply H. split; lra.
Qed.
Lemma conj_log z : slit z -> cconj (Clog z) = Clog (cconj z).
Proof. intros H. unfold Clog. rewrite conj_mod, conj_arg by auto. reflexivity. Qed.
Lemma conj_tan z : cconj (Ctan z) = Ctan (cconj z).
Proof. unfold Ctan. rewrite conj_div, conj_sin, conj_cos. reflexivity. Qed.
Lemma conj_tanh z : cconj (Ctanh z) = Ctanh (cconj z).
Proof. unfold Ctanh. rewrite conj_div, conj_sinh, conj_cosh. reflexivity. Qed.
Lemma conj_atanh z : slit (RtoC 1 + z)%C -> slit (RtoC 1 - z)%C -> cconj (Catanh z) = Catanh (cconj z).
Proof. intros H1 H2. unfold Catanh. rewrite conj_mul, conj_sub, !conj_log, conj_add, conj_sub, !conj_real by auto. reflexivity. Qed.
Lemma conj_atan z : slit (RtoC 1 + Ci * z)%C -> slit (RtoC 1 - Ci * z)%C -> cconj (Catan z) = Catan (cconj z).
Proof.
  intros H1 H2. unfold Catan. rewrite conj_mul, conj_sub, conj_div, !conj_log, conj_add, conj_sub, !conj_mul, !conj_real, !conj_Ci by auto.
  replace (RtoC 1 - - Ci * cconj z)%C with (RtoC 1 + Ci * cconj z)%C by ring.
  replace (RtoC 1 + - Ci * cconj z)%C with (RtoC 1 - Ci * cconj z)%C by ring. unfold Cdiv. ring.
Qed.
Lemma conj_cpow z n : cconj (cpow z n) = cpow (cconj z) n.
Proof. induction n; cbn [cpow]; [apply conj_real|]. rewrite conj_mul, IHn. reflexivity. Qed.
Lemma conj_cpowZ z k : cconj (cpowZ z k) = cpowZ (cconj z) k.
Proof. unfold cpowZ. destruct (Z.ltb k 0); [rewrite conj_inv|]; rewrite conj_cpow; reflexivity. Qed.
Lemma conj_neq0 z : z <> RtoC 0 -> cconj z <> RtoC 0.
Proof. intros H E. apply H. apply conj_inj. rewrite conj_real. exact E. Qed.
Lemma conj_pow_slit z w : slit z -> cconj (Cpower z w) = Cpower (cconj z) (cconj w).
Proof.
  intros H. pose proof (slit_neq0 z H). rewrite !Cpower_exp by auto using conj_neq0.
  rewrite conj_exp, conj_mul, conj_log by auto. reflexivity.
Qed.
Lemma conj_pow_int z m : z <> RtoC 0 -> cconj (Cpower z (RtoC (IZR m))) = Cpower (cconj z) (RtoC (IZR m)).
Proof. intros H. rewrite !Cpower_z by auto using conj_neq0. apply conj_cpowZ. Qed.
Lemma pos_slit v : 0 < v -> slit (RtoC v).
Proof. intros H [_ X]. cbn in X. lra. Qed.

(** The operations. *)
Lemma conj_garith a b :
  gadd (gconj a) (gconj b) = gconj (gadd a b) /\ gsub (gconj a) (gconj b) = gconj (gsub a b) /\
  gmul (gconj a) (gconj b) = gconj (gmul a b) /\ gdiv (gconj a) (gconj b) = gconj (gdiv a b) /\
  gneg (gconj a) = gconj (gneg a).
Proof.
  rewrite !gconj_gmapc. split; [apply (gadd_map cconj conj_zero)|]. split; [apply (gsub_map cconj conj_zero)|].
  split; [apply (gmul_map cconj conj_zero)|]. split; [apply (gdiv_map cconj conj_zero)|]. apply (gneg_map cconj).
Qed.
Lemma conj_gscalar v a :
  gadd_sg (cconj v) (gconj a) = gconj (gadd_sg v a) /\ gadd_gs (gconj a) (cconj v) = gconj (gadd_gs a v) /\
  gsub_sg (cconj v) (gconj a) = gconj (gsub_sg v a) /\ gsub_gs (gconj a) (cconj v) = gconj (gsub_gs a v) /\
  gmul_sg (cconj v) (gconj a) = gconj (gmul_sg v a) /\ gmul_gs (gconj a) (cconj v) = gconj (gmul_gs a v) /\
  gdiv_sg (cconj v) (gconj a) = gconj (gdiv_sg v a) /\ gdiv_gs (gconj a) (cconj v) = gconj (gdiv_gs a v).
Proof.
  rewrite !gconj_gmapc.
  split; [apply (gadd_sg_map cconj conj_zero)|]. split; [apply (gadd_gs_map cconj conj_zero)|].
  split; [apply (gsub_sg_map cconj conj_zero)|]. split; [apply (gsub_gs_map cconj conj_zero)|].
  split; [apply (gmul_sg_map cconj conj_zero)|]. split; [apply (gmul_gs_map cconj conj_zero)|].
  split; [apply (gdiv_sg_map cconj conj_zero)|]. apply (gdiv_gs_map cconj conj_zero).
Qed.
Lemma conj_gfun f d : match f with Xlog | Xatanh => cdom f (constant_cf d) | _ => True end ->
  run1 (cfun1 f) (gconj d) = gconj (run1 (cfun1 f) d).
Proof.
  intros D. rewrite !gconj_gmapc. destruct f; cbn [cfun1 run1 cdom] in *.
  - apply (gexp_map cconj conj_zero). apply conj_exp.
  - apply (glog_map cconj conj_zero). apply conj_log; auto.
  - exact (proj1 (gsin_map cconj conj_zero d (conj_sin _) (conj_cos _))).
  - exact (proj2 (gsin_map cconj conj_zero d (conj_sin _) (conj_cos _))).
  - apply (gtan_map cconj conj_zero); [intros; apply conj_real|apply conj_tan].
  - exact (proj1 (gsinh_map cconj conj_zero d (conj_sinh _) (conj_cosh _))).
  - exact (proj2 (gsinh_map cconj conj_zero d (conj_sinh _) (conj_cosh _))).
  - apply (gtanh_map cconj conj_zero); [intros; apply conj_real|apply conj_tanh].
  - apply (gatanh_map cconj conj_zero). apply conj_atanh; apply D.
Qed.
Lemma conj_gquad q d : cdomq q (constant_cf d) ->
  runD (quadD q) (gconj d) = match runD (quadD q) d with Ok g => Ok (gconj g) | Throw x => Throw x end.
Proof.
  intros D. rewrite !gconj_gmapc. destruct q; cbn [quadD runD cdomq] in *.
  - exact (gatanh_d_map cconj conj_zero d (conj_atanh _ (proj1 D) (proj2 D))).
  - exact (gatan_d_map cconj conj_zero d (conj_atan _ (proj1 D) (proj2 D))).
Qed.
Lemma conj_gcalculus d s v :
  gpartial (gconj d) s = match gpartial d s with Ok g => Ok (gconj g) | Throw x => Throw x end /\
  gintegrate (gconj d) s = match gintegrate d s with Ok g => Ok (gconj g) | Throw x => Throw x end /\
  gsubs_val (gconj d) s (cconj v) = gconj (gsubs_val d s v).
Proof.
  split; [exact (gpartial_map cconj conj_zero d s)|]. split; [exact (gintegrate_map cconj conj_zero d s)|].
  exact (gsubs_val_map cconj conj_zero d s v).
Qed.
Lemma conj_gpow_int d z : gpow_int (gconj d) z = gconj (gpow_int d z).
Proof. apply (gpow_int_map cconj conj_zero). Qed.
Lemma conj_gpow a b : slit (constant_cf a) -> gpow (gconj a) (gconj b) = gconj (gpow a b).
Proof. intros H. apply (gpow_map cconj conj_zero); [apply conj_log; auto|apply conj_exp]. Qed.
Lemma conj_gpow_sg v d : 0 < v -> gpow_sg (RtoC v) (gconj d) = gconj (gpow_sg (RtoC v) d).
Proof.
  intros H. rewrite <- (conj_real v) at 1.
  apply (gpow_sg_map cconj conj_zero); [apply conj_log, pos_slit; auto|apply conj_exp|apply conj_pow_slit, pos_slit; auto].
Qed.
Lemma conj_gpow_real d a : cdompow (constant_cf d) a -> gpow_real (gconj d) (RtoC a) = gconj (gpow_real d (RtoC a)).
Proof.
  intros D. rewrite <- (conj_real a) at 1. rewrite !gconj_gmapc. apply (gpow_real_map cconj conj_zero).
  - rewrite conj_real. reflexivity.
  - rewrite conj_real. reflexivity.
  - intros Q b Hb. cbn [e_pow ElemC].
    destruct D as [D|[[D (m & Hm)]|(k & Hk)]].
    + apply conj_pow_slit; auto.
    + assert (I : exists m', b = RtoC (IZR m')).
      { destruct Hb as [->|[->|(i & ->)]]; [exists m; subst; auto|exists (m - 1)%Z|exists (m - Z.of_nat i)%Z];
          rewrite minus_IZR, RtoC_minus, Hm; reflexivity. }
      destruct I as (m' & ->). rewrite conj_real. apply conj_pow_int; auto.
    + exfalso. subst a. cbn [keqb kltb kofZ k0 OpsC e_toint ElemC] in Q. cbn [fst RtoC] in Q. unfold CofZ in Q.
      rewrite INR_IZR_INZ, rtoint_IZR in Q.
      replace (Ceqb (RtoC (IZR (Z.of_nat (S k)))) (RtoC (IZR (Z.of_nat (S k))))) with true in Q by (symmetry; apply Ceqb_eq; auto).
      unfold Rltb in Q. destruct (Rlt_dec _ _) as [|X]; [discriminate|]. apply X. apply (IZR_lt 0). lia.
Qed.
Lemma conj_gvar v s n : gvar (cconj v) s n = match gvar v s n with Ok g => Ok (gconj g) | Throw x => Throw x end.
Proof. exact (gvar_map cconj conj_zero v s n). Qed.
Lemma conj_gconst v : gconst (cconj v) = gconj (gconst v).
Proof. apply (gconst_map cconj conj_zero). Qed.

(** Values: the conjugate at the conjugate point. *)
Lemma conj_kpow z n : kpow (cconj z) n = cconj (kpow z n).
Proof. induction n; cbn [kpow]; [symmetry; apply conj_real|]. rewrite IHn. symmetry. apply conj_mul. Qed.
Lemma conj_mono V k x : mono_at V k (fun s => cconj (x s)) = cconj (mono_at V k x).
Proof.
  unfold mono_at.
  assert (H : forall W, fold_right (fun s a => (kpow (cconj (x s)) (expo V k s) * a)%K) 1%K W =
                        cconj (fold_right (fun s a => (kpow (x s) (expo V k s) * a)%K) 1%K W)); [|apply H].
  induction W as [|s W IH]; cbn [fold_right]; [symmetry; apply conj_real|].
  rewrite IH, conj_kpow. change (@kmul C OpsC) with Cmult. rewrite conj_mul. reflexivity.
Qed.
Lemma conj_value g x : value (gconj g) (fun s => cconj (x s)) = cconj (value g x).
Proof.
  unfold value, gconj. cbn [gp psyms pterms]. induction (pterms (gp g)) as [|t l IH]; cbn [map sum_list fold_right].
  - symmetry. apply conj_real.
  - unfold sum_list in IH. rewrite IH. cbn [fst snd]. change (@kadd C OpsC) with Cplus. change (@kmul C OpsC) with Cmult.
    rewrite conj_add, conj_mul. f_equal. f_equal. apply conj_mono.
Qed.
Lemma gconj_invol g : gconj (gconj g) = g.
Proof.
  destruct g as [[V l] o]. unfold gconj. cbn [gp gord psyms pterms]. f_equal. f_equal. rewrite map_map. cbn [fst snd].
  rewrite <- (map_id l) at 2. apply map_ext. intros [k c]. cbn [fst snd]. rewrite conj_conj. reflexivity.
Qed.
Lemma conj_real_coefs g : real_coefs g <-> gconj g = g.
Proof.
  destruct g as [[V l] o]. unfold real_coefs, gconj. cbn [gp gord psyms pterms]. split.
  - intros H. f_equal. f_equal. rewrite <- (map_id l) at 2. apply map_ext_in. intros [k [a b]] Hin.
    rewrite Forall_forall in H. specialize (H _ Hin). cbn [fst snd] in H. subst b. unfold cconj. cbn [fst snd]. rewrite Ropp_0. reflexivity.
  - intros H. injection H as H. induction l as [|[k [a b]] l IH]; constructor.
    + cbn [map fst snd] in H. injection H as Hb _. cbn [fst snd]. cbn [snd] in Hb. lra.
    + apply IH. cbn [map] in H. injection H as _ H. exact H.
Qed.

(** Programs. *)
Lemma conj_program point order M e : (forall s, (order s <= M)%nat) -> cnames_ok order e -> cfits e M -> csmooth e point -> positive_bases e ->
  exists g, ccalc point order e = Ok g /\ ccalc (fun s => cconj (point s)) order (econj e) = Ok (gconj g).
Proof.
  intros HM.
  assert (CC : forall a g, ccalc point order a = Ok g -> cnames_ok order a -> cfits a M -> csmooth a point -> constant_cf g = cplx a point).
  { intros a g E N F S. destruct (ccalc_inv point order M 0 (fun s => conj (Nat.le_0_l _) (HM s)) a N F S) as (g' & E' & X & _).
    rewrite E in E'. injection E' as <-. apply cexpands_at in X. rewrite at_center in X. symmetry. exact X. }
  induction e; intros NO FT SM PB; pose proof (ccalc_inv point order M 0 (fun s => conj (Nat.le_0_l _) (HM s)) _ NO FT SM) as (gg & EG & _);
    cbn [cnames_ok] in NO; cbn [cfits] in FT; cbn [csmooth] in SM; cbn [positive_bases] in PB;
    exists gg; (split; [exact EG|]); cbn [ccalc] in EG; cbn [econj ccalc];
    repeat match goal with Hh : _ /\ _ |- _ => destruct Hh end;
    repeat match goal with IH : cnames_ok order ?a -> _, H1 : cnames_ok order ?a, H2 : cfits ?a M, H3 : csmooth ?a point, H4 : positive_bases ?a |- _ =>
      let q := fresh "q" in let EQ := fresh "EQ" in let EQ' := fresh "EQ'" in
      destruct (IH H1 H2 H3 H4) as (q & EQ & EQ'); clear IH; rewrite EQ'; rewrite EQ in EG; cbn [rbind] in EG |- *;
      pose proof (CC a q EQ H1 H2 H3) end;
    try (match type of EG with Ok _ = Ok _ => inversion EG; subst gg; clear EG end);
    try (match goal with |- Ok (?f (gconj ?a) (gconj ?b)) = _ => destruct (conj_garith a b) as (? & ? & ? & ? & ?); congruence end);
    try (match goal with |- Ok (?f (gconj ?a)) = _ => destruct (conj_garith a a) as (? & ? & ? & ? & ?); congruence end);
    try (match goal with |- Ok (?f (cconj ?v) (gconj ?a)) = _ => destruct (conj_gscalar v a) as (? & ? & ? & ? & ? & ? & ? & ?); congruence end);
    try (match goal with |- Ok (?f (gconj ?a) (cconj ?v)) = _ => destruct (conj_gscalar v a) as (? & ? & ? & ? & ? & ? & ? & ?); congruence end).
  - rewrite conj_gconst. reflexivity.
  - rewrite conj_gvar, EG. reflexivity.
  - rewrite conj_gfun; [reflexivity|]. replace (constant_cf q) with (cplx e point) by auto. destruct f; auto.
  - rewrite conj_gquad, EG; [reflexivity|]. replace (constant_cf q0) with (cplx e point) by auto. auto.
  - rewrite conj_gpow; [reflexivity|]. congruence.
  - rewrite conj_gpow_sg; auto.
  - rewrite conj_gpow_real; [reflexivity|]. congruence.
  - rewrite conj_gpow_int. reflexivity.
Qed.
Lemma econj_real e : real_numbers e -> econj e = e.
Proof.
  assert (R : forall v : C, snd v = 0 -> cconj v = v) by (intros [a b] H; cbn in H; subst b; unfold cconj; cbn [fst snd]; rewrite Ropp_0; reflexivity).
  induction e; cbn [real_numbers econj]; intros H; repeat match goal with Hh : _ /\ _ |- _ => destruct Hh end;
    rewrite ?IHe, ?IHe1, ?IHe2, ?R by auto; reflexivity.
Qed.
Lemma real_program point order M e : (forall s, (order s <= M)%nat) -> cnames_ok order e -> cfits e M -> csmooth e point -> positive_bases e ->
  real_numbers e -> (forall s, snd (point s) = 0) -> exists g, ccalc point order e = Ok g /\ real_coefs g.
Proof.
  intros HM N F S P RN RP. destruct (conj_program point order M e HM N F S P) as (g & E & E').
  exists g. split; auto. apply conj_real_coefs. rewrite econj_real in E' by auto.
  replace (fun s => cconj (point s)) with point in E'; [congruence|].
  apply FunctionalExtensionality.functional_extensionality. intros s. specialize (RP s). destruct (point s) as [a b]. cbn in RP. subst b.
  unfold cconj. cbn [fst snd]. rewrite Ropp_0. reflexivity.
Qed.

(** An expansion of f gives one of the reflected function. *)
Lemma conj_valid g : valid g -> valid (gconj g).
Proof.
  intros [A B D E F]. unfold gconj. constructor; cbn [gp gord psyms pterms]; auto.
  - intros t H. apply in_map_iff in H. destruct H as (u & <- & H). cbn [fst]. auto.
  - rewrite map_map. cbn [fst]. exact D.
  - intros t H. apply in_map_iff in H. destruct H as (u & <- & H). cbn [snd]. rewrite conj_zero. auto.
  - intros t H. apply in_map_iff in H. destruct H as (u & <- & H). cbn [fst]. auto.
Qed.
Lemma conj_expands n g f : cexpands n g f -> cexpands n (gconj g) (fun x => cconj (f (fun s => cconj (x s)))).
Proof.
  intros (V & O & K & d & Hd & HK & B). split; [apply conj_valid; auto|]. split; [exact O|].
  exists K, d. split; auto. split; auto. intros x r Hx Hr.
  replace (value (gconj g) x) with (cconj (value g (fun s => cconj (x s)))).
  - rewrite <- conj_sub, conj_mod. apply B; auto. intros s. rewrite conj_mod. apply Hx.
  - rewrite <- conj_value. f_equal. apply FunctionalExtensionality.functional_extensionality. intros s. apply conj_conj.
Qed.

(** On the negative axis log does not commute with conjugation. *)
Lemma log_conj_other : exists d : gdual C, valid d /\ constant_cf d <> RtoC 0 /\ glog (gconj d) <> gconj (glog d).
Proof.
  exists (gconst (RtoC (-1))). pose proof (cexpands_const 0 (RtoC (-1))) as H. split; [apply H|].
  assert (C1 : constant_cf (gconst (RtoC (-1))) = RtoC (-1)) by (apply cexpands_at in H; symmetry; exact H).
  split. { rewrite C1. intros X. apply RtoC_inj in X. lra. }
  rewrite <- conj_gconst, conj_real. intros X. symmetry in X. apply (f_equal constant_cf) in X.
  rewrite (cc_map cconj) in X.
  assert (L : constant_cf (glog (gconst (RtoC (-1)))) = (0, PI)).
  { unfold glog. rewrite C1. change (seq 2 (gord (gconst (RtoC (-1))) - 1)) with (@nil nat). cbn [fold_left].
    destruct (cexpands_scalar 0 _ _ (RtoC (-1)) H) as (_ & _ & _ & H1 & _).
    destruct (cexpands_scalar 0 _ _ (RtoC (-1)) H1) as (_ & _ & _ & _ & _ & _ & H2 & _).
    destruct (cexpands_scalar 0 _ _ (Clog (RtoC (-1))) H2) as (H3 & _). apply cexpands_at in H3.
    cbn [e_log ElemC]. rewrite <- H3. unfold Clog. rewrite Cmod_R. unfold Carg. cbn [fst snd RtoC].
    destruct (Rlt_dec 0 (-1)); [lra|]. destruct (Rlt_dec 0 0); [lra|]. destruct (Rlt_dec (-1) 0); [|lra].
    replace (Rabs (-1)) with 1 by (rewrite Rabs_left; lra). rewrite ln_1.
    replace ((RtoC (-1) - RtoC (-1)) / RtoC (-1))%C with (RtoC 0) by (unfold Cdiv; ring).
    apply Ceq_iff; cbn [fst snd RtoC Cplus]; ring. }
  rewrite L in X. unfold cconj in X. cbn [fst snd] in X. injection X as X. pose proof PI_RGT_0. lra.
Qed.

(** Cases. *)
Definition conj_prog : cexpr := XMul (XFun Xexp (XNumMul Ci (XVar "x"))) (XPowReal (XFun Xlog (XVar "y")) (1 / 2)).
Lemma conj_prog_case : cnames_ok (fun _ => 3%nat) conj_prog /\ cfits conj_prog 3 /\
  csmooth conj_prog (fun _ => (2, 1)) /\ positive_bases conj_prog /\ econj conj_prog <> conj_prog.
Proof.
  unfold conj_prog. cbn [cnames_ok cfits csmooth positive_bases cfits1 cdom econj cplx cval].
  assert (S1 : slit (2, 1)) by (intros [X _]; cbn in X; lra).
  assert (N : forall c r, c <> "d"%char -> (exists c' r', String c r = String c' r' /\ c' <> "d"%char) /\ (Z.of_nat 3 < 4294967285)%Z).
  { intros c r H. split; [exists c, r; auto|]. lia. }
  split. { split; apply N; discriminate. }
  split; [repeat split|]. split.
  - split; [auto|]. split; [auto|]. left. unfold Clog, Carg. cbn [fst snd].
    destruct (Rlt_dec 0 2); [|lra]. intros [X _]. cbn [snd] in X.
    assert (0 < atan (1 / 2)) by (rewrite <- atan_0; apply atan_increasing; lra). lra.
  - split; [auto|]. intros X. injection X as X. unfold Ci in X. lra.
Qed.
Lemma real_prog_case : exists e point, cnames_ok (fun _ => 3%nat) e /\ cfits e 3 /\
  csmooth e point /\ positive_bases e /\ real_numbers e /\ (forall s, snd (point s) = 0) /\ e = XFun Xlog (XNumAdd (RtoC 1) (XPowInt (XVar "x") 2)).
Proof.
  exists (XFun Xlog (XNumAdd (RtoC 1) (XPowInt (XVar "x") 2))), (fun _ => RtoC (-1)).
  cbn [cnames_ok cfits csmooth positive_bases cfits1 cdom cplx real_numbers snd RtoC].
  split. { split; [exists "x"%char, ""%string; split; [reflexivity|discriminate]|lia]. }
  repeat split; auto; try lia.
  intros [_ X]. unfold cpowZ in X. change (Z.to_nat 2) with 2%nat in X. cbn in X. lra.
Qed.
