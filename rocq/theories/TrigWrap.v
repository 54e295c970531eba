(** * sin and cos at orders from 65537 on (proof file)

    The products i * (i - 1) of the loops wrap modulo 2^32. *)
From Coq Require Import String List Arith Bool Lia ZArith Znumtheory Zpow_facts Setoid Morphisms Ring Field Reals Lra.
From Verif Require Import Ops Syms SymsFacts Poly PolyFacts Sem Den Gdual GdualFacts Functions FunStruct FunAlg Spec CoefFacts CoreProofs MiscProofs ElemR SpecTaylor Uni UniFun Taylor TayFun TayProofs TayIdent TMArith.
Import ListNotations.

Definition wrapped (i : nat) : Z := ((Z.of_nat i * (Z.of_nat i - 1)) mod two32)%Z.
Lemma wrapped_neq0 i : (2 <= i)%nat -> (Z.of_nat i < 4294967296)%Z -> wrapped i <> 0%Z.
Proof.
  intros H L. unfold wrapped. intros E. apply Z.mod_divide in E; [|unfold two32; lia].
  assert (P : forall z, Z.odd z = true -> rel_prime two32 z).
  { intros z Hz. change two32 with (2 ^ 32)%Z. apply rel_prime_sym, rel_prime_Zpower_r; [lia|]. apply rel_prime_sym, prime_rel_prime; [exact prime_2|].
    intros D. apply Zdivide_mod in D. rewrite Zmod_odd, Hz in D. discriminate. }
  destruct (Z.odd (Z.of_nat i)) eqn:O.
  - apply (Gauss _ (Z.of_nat i)) in E; [|auto]. apply Z.divide_pos_le in E; unfold two32 in *; lia.
  - rewrite Z.mul_comm in E. apply (Gauss _ (Z.of_nat i - 1)) in E.
    + apply Z.divide_pos_le in E; unfold two32 in *; lia.
    + apply P. rewrite Z.odd_sub. rewrite O. reflexivity.
Qed.

Section Wrap.
  Context {A K : Type} {oA : Ops A} {oK : Ops K} {fl : FieldLaws oK}.
  Context {eA : Elem A} {eK : Elem K}.
  Variable h : A -> K.
  Context {hh : Hom oA oK h} {he : HomElem eA eK h}.
  Local Open Scope K_scope.
  Add Field KfieldW : (fl_field (K:=K)).
  Notation gd := (gden h).
  Variable n : nat.
  Add Ring springW : (sp_ring_theory (Some n)) (setoid (seqv_equiv (Some n)) (sp_ring_ext (Some n))).

  Fixpoint fw (f : nat -> nat) (j : nat) : K := match j with O => 1 | S i => fw f i * kofZ (wrapped (f i)) end.
  Lemma trig_loop_wrapped (f : nat -> nat) J phat2 tmp0 q t0 N :
    gwf phat2 -> gwf tmp0 -> gord phat2 = N -> (gord tmp0 <= N)%nat -> (n <= N)%nat ->
    (forall j, (j <= J)%nat -> fw f j <> 0) ->
    seqv (Some n) (gd phat2) q -> seqv (Some n) (gd tmp0) t0 ->
    gwf (trig_loop phat2 tmp0 (map f (seq 0 J))) /\ (gord (trig_loop phat2 tmp0 (map f (seq 0 J))) <= N)%nat /\
    seqv (Some n) (gd (trig_loop phat2 tmp0 (map f (seq 0 J)))) (smul t0 (psum (fun j => alt j / fw f j) J q)).
  Proof.
    intros W2 W0 O2 O0 Hn Hnz Eq E0. unfold trig_loop. set (F := fun '(t, coeff, tmp, factorial) i => _).
    assert (G : forall j, (j <= J)%nat -> let '(t, cf, tmp, fa) := fold_left F (map f (seq 0 j)) (tmp0, 1%Z, tmp0, k1) in
      gwf t /\ gwf tmp /\ (gord t <= N)%nat /\ (gord tmp <= N)%nat /\ kofZ cf = alt j /\ h fa = fw f j /\
      seqv (Some n) (gd tmp) (smul t0 (spow q j)) /\
      seqv (Some n) (gd t) (smul t0 (psum (fun j => alt j / fw f j) j q))).
    { induction j; intros Hj.
      - cbn [seq map fold_left]. split; [auto|]. split; [auto|]. split; [auto|]. split; [auto|].
        split; [apply fl_ofZ1|]. split; [apply (hom_1 h)|]. split.
        + cbn [spow]. rewrite E0. ring.
        + cbn [psum fw]. unfold alt; cbn [kpow]. replace (1 / 1) with (1 : K) by (field; apply K10).
          rewrite scon_1, E0. ring.
      - specialize (IHj ltac:(lia)). rewrite seq_S, map_app, fold_left_app. cbn [map fold_left].
        destruct (fold_left F (map f (seq 0 j)) _) as [[[t cf] tmp] fa].
        destruct IHj as (Wt & Wm & Ot & Om & Ec & Ef & Em & Et). unfold F at 1.
        replace (0 + j)%nat with j by lia.
        assert (Em' : seqv (Some n) (gd (gmul tmp phat2)) (smul t0 (spow q (S j)))).
        { rewrite (gden_mul h n) by (auto; lia). rewrite Em, Eq. cbn [spow]. ring. }
        assert (Wm' : gwf (gmul tmp phat2)) by auto with gwf.
        assert (Ec' : kofZ (- cf) = alt (S j)).
        { rewrite kofZ_opp, Ec. unfold alt. cbn [kpow]. ring. }
        assert (Ef' : h (kmul fa (kofZ ((Z.of_nat (f j) * (Z.of_nat (f j) - 1)) mod two32))) = fw f (S j)).
        { rewrite (hom_mul h), Ef, (hom_ofZ h). reflexivity. }
        split; [auto 6 with gwf|]. split; [auto|]. split.
        { cbn [gadd gord]. rewrite gdiv_gs_ord, gmul_sg_ord. cbn [gmul gord]. lia. }
        split; [cbn [gmul gord]; lia|]. split; [auto|]. split; [auto|]. split; [auto|].
        rewrite (gden_add h) by auto 6 with gwf. rewrite (gden_div_gs h), (gden_mul_sg h) by auto with gwf.
        rewrite Ef', (hom_ofZ h), Ec', Em', Et. rewrite psum_S.
        transitivity (sadd (smul t0 (psum (fun j0 : nat => alt j0 / fw f j0) j q))
           (smul t0 (smul (smul (scon (1 / fw f (S j))) (scon (alt (S j)))) (spow q (S j))))); [ring|].
        rewrite <- scon_mul. replace (1 / fw f (S j) * alt (S j)) with (alt (S j) / fw f (S j) : K).
        + ring.
        + assert (fw f (S j) <> 0) by (apply Hnz; lia). field. auto. }
    specialize (G J ltac:(lia)).
    destruct (fold_left F _ _) as [[[t cf] tmp] fa]. destruct G as (Wt & _ & Ot & _ & _ & _ & _ & E).
    split; [auto|]. split; auto.
  Qed.
  Lemma fw_neq0 f J : (forall j, (j < J)%nat -> (2 <= f j)%nat /\ (Z.of_nat (f j) < 4294967296)%Z) -> forall j, (j <= J)%nat -> fw f j <> 0.
  Proof.
    intros H. induction j; intros L; cbn [fw]; [apply K10|]. destruct (H j) as [H1 H2]; [lia|].
    apply kmul_neq0; [apply IHj; lia|apply kofZ_neq0, wrapped_neq0; auto].
  Qed.
  Definition coscw : nat -> K := evenc (fun j => alt j / fw (fun j => 2 * j + 2)%nat j).
  Definition sincw : nat -> K := oddc (fun j => alt j / fw (fun j => 2 * j + 3)%nat j).

  Lemma cos_taylor_wrapped d : gwf d -> (n <= gord d)%nat -> (Z.of_nat (gord d) < 4294967296)%Z ->
    gwf (cos_taylor d) /\ (gord (cos_taylor d) <= gord d)%nat /\ seqv (Some n) (gd (cos_taylor d)) (psum coscw n (ghat h d)).
  Proof.
    intros Hd Hn Hb. destruct (phat2_facts h n d Hd Hn) as (W2 & O2 & E2).
    unfold cos_taylor, evens. fold (phat_of d).
    destruct (trig_loop_wrapped (fun j => 2 * j + 2)%nat (gord d / 2) _ (gconst k1) (smul (ghat h d) (ghat h d)) (scon 1) (gord d) W2) as (W & O & E); auto with gwf.
    - simpl; lia.
    - apply fw_neq0. intros j Hj. assert (X := Nat.mul_div_le (gord d) 2 ltac:(lia)). lia.
    - rewrite (gden_const h), (hom_1 h). reflexivity.
    - split; [auto|]. split; [auto|]. rewrite E. rewrite (psum_even (Some n)), scon_1.
      rewrite (psum_trunc _ n) by (try apply ghat_vanish; pose proof (even_bound (gord d)); lia).
      unfold coscw. ring.
  Qed.
  Lemma sin_taylor_wrapped d : gwf d -> (n <= gord d)%nat -> (Z.of_nat (gord d) < 4294967296)%Z ->
    gwf (sin_taylor d) /\ (gord (sin_taylor d) <= gord d)%nat /\ seqv (Some n) (gd (sin_taylor d)) (psum sincw n (ghat h d)).
  Proof.
    intros Hd Hn Hb. destruct (phat2_facts h n d Hd Hn) as (W2 & O2 & E2).
    unfold sin_taylor, odds. fold (phat_of d).
    destruct (trig_loop_wrapped (fun j => 2 * j + 3)%nat ((gord d - 1) / 2) _ (phat_of d) (smul (ghat h d) (ghat h d)) (ghat h d) (gord d) W2) as (W & O & E); auto; try (apply phat_gwf; exact Hd).
    - apply fw_neq0. intros j Hj. assert (X := Nat.mul_div_le (gord d - 1) 2 ltac:(lia)). lia.
    - exact (phat_den h n d Hd).
    - split; [auto|]. split; [auto|]. rewrite E. rewrite (psum_odd (Some n)).
      assert (B := odd_bound (gord d)). unfold sincw. apply (psum_oddc_ext n _ _ (gord d)); auto. apply ghat_vanish.
  Qed.
  Lemma gsin_wrapped d : gwf d -> (n <= gord d)%nat -> (Z.of_nat (gord d) < 4294967296)%Z ->
    seqv (Some n) (gd (gsin d)) (psum (fun i => e_sin (h (constant_cf d)) * coscw i + e_cos (h (constant_cf d)) * sincw i) n (ghat h d)).
  Proof.
    intros Hd Hn Hb. unfold gsin. destruct (cos_taylor_wrapped d Hd Hn Hb) as (Wc & _ & Ec).
    destruct (sin_taylor_wrapped d Hd Hn Hb) as (Ws & _ & Es).
    rewrite (gden_add h) by auto with gwf. rewrite !(gden_mul_sg h) by auto with gwf.
    rewrite Ec, Es, (hom_sin h), (hom_cos h). rewrite (psum_add (Some n)), !(psum_scale (Some n)). reflexivity.
  Qed.
  Lemma gcos_wrapped d : gwf d -> (n <= gord d)%nat -> (Z.of_nat (gord d) < 4294967296)%Z ->
    seqv (Some n) (gd (gcos d)) (psum (fun i => e_cos (h (constant_cf d)) * coscw i - e_sin (h (constant_cf d)) * sincw i) n (ghat h d)).
  Proof.
    intros Hd Hn Hb. unfold gcos. destruct (cos_taylor_wrapped d Hd Hn Hb) as (Wc & _ & Ec).
    destruct (sin_taylor_wrapped d Hd Hn Hb) as (Ws & _ & Es).
    rewrite (gden_sub h) by auto with gwf. rewrite !(gden_mul_sg h) by auto with gwf.
    rewrite Ec, Es, (hom_sin h), (hom_cos h). rewrite (psum_sub (Some n)), !(psum_scale (Some n)). reflexivity.
  Qed.
End Wrap.
Open Scope R_scope.
Lemma run_wrapped n d f : expands n d f -> (Z.of_nat (gord d) < 4294967296)%Z ->
  let S := fun y => usum (fun i => sin (f center) * coscw i + cos (f center) * sincw i) (gord d) (y - f center) in
  let C := fun y => usum (fun i => cos (f center) * coscw i - sin (f center) * sincw i) (gord d) (y - f center) in
  expands n (gsin d) (fun x => S (f x)) /\ expands n (gcos d) (fun x => C (f x)).
Proof.
  intros H L S C. assert (E := expands_at _ _ _ H). apply expands_T in H. pose proof H as [W Z O Ht].
  split; apply expands_T.
  - pose proof (gsin_sto d W Z) as Q. apply (T_comp idR n d (gsin d) f S (fun i => sin (f center) * coscw i + cos (f center) * sincw i)); auto; try apply Q.
    + left. apply Q.
    + apply uexp_self.
    + change (f center) with (f (fun _ => 0)) in *. rewrite E. exact (gsin_wrapped idR (gord d) d W (le_n _) L).
  - pose proof (gcos_sto d W Z) as Q. apply (T_comp idR n d (gcos d) f C (fun i => cos (f center) * coscw i - sin (f center) * sincw i)); auto; try apply Q.
    + left. apply Q.
    + apply uexp_self.
    + change (f center) with (f (fun _ => 0)) in *. rewrite E. exact (gcos_wrapped idR (gord d) d W (le_n _) L).
Qed.
Lemma fw_small f J : (forall j, (j < J)%nat -> (1 <= Z.of_nat (f j) <= 65536)%Z) -> forall j, (j <= J)%nat -> fw (K:=R) f j = ff f j.
Proof.
  intros H. induction j; intros L; cbn [fw ff]; [reflexivity|]. rewrite IHj by lia. f_equal. assert (B := H j ltac:(lia)).
  unfold wrapped. rewrite Z.mod_small by (unfold two32; nia). rewrite fl_ofZmul, kofZ_sub, fl_ofZ1. reflexivity.
Qed.
Lemma alt_neq0 j : alt (K:=R) j <> 0.
Proof.
  unfold alt. induction j; cbn [kpow]; [apply R1_neq_R0|]. change (@kmul R OpsR) with Rmult. apply Rmult_integral_contrapositive. split; auto.
  change (@kopp R OpsR) with Ropp. change (@k1 R OpsR) with 1. lra.
Qed.
Lemma odd_index (j : nat) : Nat.even (2 * j + 1) = false /\ ((2 * j + 1) / 2 = j)%nat.
Proof. replace (2 * j + 1)%nat with (S (2 * j)) by lia. split; [apply even_2_1|apply half_2_1]. Qed.
Lemma sincw_wrong j : Z.of_nat j = 32768%Z -> sincw (K:=R) (2 * j + 1) <> sinc (2 * j + 1).
Proof.
  intros Hj. destruct (odd_index j) as [O1 O2]. unfold sincw, sinc, oddc. rewrite O1, O2. rewrite <- ff_odd. destruct j as [|j]; [lia|]. assert (H : Z.of_nat (2 * j + 3) = 65537%Z) by lia.
  cbn [fw ff]. rewrite (fw_small _ j) by (intros; lia). unfold wrapped. rewrite H. unfold kofnat. rewrite H.
  change ((65537 * (65537 - 1)) mod two32)%Z with 65536%Z. change (@kofZ R OpsR) with IZR. change (@k1 R OpsR) with 1.
  assert (F : ff (K:=R) (fun j => (2 * j + 3)%nat) j <> 0) by (rewrite ff_odd; exact (kfct_neq0 (oK:=OpsR) _)). set (a := ff _ j) in *.
  assert (A := alt_neq0 (S j)). set (b := alt _) in *. change (@kdiv R OpsR) with Rdiv. change (@kmul R OpsR) with Rmult. change (@ksub R OpsR) with Rminus.
  intros E. apply (f_equal (fun z => z * (a * 65537 * 65536 * / b))) in E. revert E.
  replace (b / (a * 65536) * (a * 65537 * 65536 * / b)) with 65537 by (field; auto).
  replace (b / (a * (65537 * (65537 - 1))) * (a * 65537 * 65536 * / b)) with 1 by (field; auto). lra.
Qed.

Lemma same_line n (g : gdual R) v s S F : taylor_of n g (fun x => S (v + x s)) -> taylor_of n g (fun x => F (v + x s)) -> forall c, uexp S v n c -> uexp F v n c.
Proof.
  intros (C & e & He & HC & B) (C' & e' & He' & HC' & B') c U. apply (bigO_line n F S v s c); auto.
  exists (C + C'), (Rmin e e'). split; [apply Rmin_pos; auto|]. split; [lra|]. intros x r Hx Hr.
  specialize (B x r Hx (Rle_trans _ _ _ Hr (Rmin_l _ _))). specialize (B' x r Hx (Rle_trans _ _ _ Hr (Rmin_r _ _))). cbv beta in *.
  set (u := S _) in *. set (w := value g x) in *. set (a := F _) in *.
  replace (a - u) with ((a - w) - (u - w)) by ring. eapply Rle_trans; [apply Rabs_triang|]. rewrite Rabs_Ropp. lra.
Qed.
Lemma trig_refuted v s N (d : gdual R) : gvar v s N = Ok d -> (65537 <= Z.of_nat N)%Z ->
  (cos v <> 0 -> ~ taylor_of (Z.to_nat 65537) (gsin d) (fun x => sin (v + x (dsym s)))) /\
  (sin v <> 0 -> ~ taylor_of (Z.to_nat 65537) (gcos d) (fun x => cos (v + x (dsym s)))).
Proof.
  intros E L. set (M := Z.to_nat 65537). assert (HM : Z.of_nat M = 65537%Z) by (unfold M; lia). clearbody M. assert (LM : (M <= N)%nat) by lia.
  pose proof (expands_var M N v s d LM E) as H. pose proof (gvar_spec v s N) as S. rewrite E in S. destruct S as (LN & _ & Og & _).
  assert (Og' : gord d = N) by exact Og. destruct (run_wrapped M d _ H) as [WS WC]; [rewrite Og'; lia|].
  unfold center in WS, WC. rewrite Rplus_0_r, Og' in WS, WC.
  set (j := Z.to_nat 32768). assert (Hj : Z.of_nat j = 32768%Z) by (unfold j; lia). assert (Lj : (2 * j + 1 <= M)%nat) by lia. clearbody j.
  assert (Ev : forall c, evenc (K:=R) c (2 * j + 1) = 0) by (intros c; unfold evenc; rewrite (proj1 (odd_index j)); reflexivity).
  assert (D := sincw_wrong j Hj). split; intros Nz Ht.
  - assert (U := same_line M _ v _ _ sin (proj2 (proj2 WS)) Ht _ (uexp_le _ _ _ _ _ LM (uexp_self _ _ _))).
    assert (Q := uexp_unique sin v M _ _ U (proj1 (uexp_sincos v M)) (2 * j + 1) Lj). cbv beta in Q.
    unfold coscw, cosc in Q. rewrite !Ev in Q. apply D. apply (Rmult_eq_reg_l (cos v)); auto. lra.
  - assert (U := same_line M _ v _ _ cos (proj2 (proj2 WC)) Ht _ (uexp_le _ _ _ _ _ LM (uexp_self _ _ _))).
    assert (Q := uexp_unique cos v M _ _ U (proj2 (uexp_sincos v M)) (2 * j + 1) Lj). cbv beta in Q.
    unfold coscw, cosc in Q. rewrite !Ev in Q. apply D. apply (Rmult_eq_reg_l (sin v)); auto. lra.
Qed.

(** * atan, asin and acos at orders from 31 on *)
Lemma atan_31_wrong : ~ uexp atan 1 31 (atanc 1).
Proof.
  intros U. pose proof (uexp_unique atan 1 31 _ _ U (uexp_atan_true 1 30) 31 (le_n _)) as Q.
  revert Q. cbn [atanc]. toR. intros Q.
  change (Nat.odd 31) with true in Q. cbv iota in Q. change (31 / 2)%nat with 15%nat in Q.
  rewrite (atan_odd_IZR 1) in Q. destruct (zAB_IZR 1 31) as [_ ZB]. rewrite ZB in Q.
  replace (snd (zABZ 1 31)) with (-32768)%Z in Q by (vm_compute; reflexivity).
  set (w := atan_oddZ 1 31) in Q. vm_compute in w. subst w.
  assert (P1 : (-1) ^ 15 = -1) by (simpl; ring). assert (P2 : (-1) ^ 30 = 1) by (simpl; ring).
  rewrite P1, P2 in Q. assert (N31 : INR 31 <> 0) by (apply not_0_INR; lia).
  assert (N2 : (1 + 1 * 1) ^ 31 <> 0) by (apply pow_nonzero; lra).
  apply (f_equal (fun z => z * (INR 31 * (1 + 1 * 1) ^ 31))) in Q.
  unfold Rdiv in Q. rewrite !Rmult_assoc, !(Rmult_comm (/ _)), !Rinv_r in Q by (apply Rmult_integral_contrapositive; auto).
  lra.
Qed.
Lemma atan_large_refuted s N (d : gdual R) : gvar 1 s N = Ok d -> (31 <= N)%nat ->
  ~ taylor_of 31 (gatan d) (fun x => atan (1 + x (dsym s))).
Proof.
  intros E L Ht. pose proof (expands_var 31 N 1 s d L E) as H. pose proof (gvar_spec 1 s N) as S. rewrite E in S. destruct S as (_ & _ & Og & _).
  assert (Og' : gord d = N) by exact Og. pose proof (atan_wrong_T 31 d _ H) as W. rewrite Og' in W. unfold center in W. rewrite Rplus_0_r in W.
  apply atan_31_wrong. exact (same_line 31 _ 1 _ (fun y => usum (atanc 1) N (y - 1)) atan (proj2 (proj2 W)) Ht _ (uexp_le _ _ _ _ _ L (uexp_self _ _ _))).
Qed.
Lemma lip1 (f f' : R -> R) a b : (forall c, derivable_pt_lim f c (f' c)) -> (forall c, Rabs (f' c) <= 1) -> Rabs (f b - f a) <= Rabs (b - a).
Proof.
  intros D B. destruct (MVT_abs f f' a b (fun c _ => D c)) as (c & E & _). rewrite E. specialize (B c). assert (X := Rabs_pos (b - a)). nra.
Qed.
Lemma sin_atan_lip a b : Rabs (sin (atan b) - sin (atan a)) <= Rabs (b - a).
Proof.
  eapply Rle_trans; [apply (lip1 sin cos)|apply (lip1 atan (fun x => / (1 + x ^ 2)))].
  - apply derivable_pt_lim_sin.
  - intros c. apply Rabs_le. assert (X := COS_bound c). lra.
  - apply derivable_pt_lim_atan.
  - intros c. assert (X : 1 <= 1 + c ^ 2) by nra. rewrite Rabs_inv, Rabs_right by lra. rewrite <- Rinv_1. apply Rinv_le_contravar; lra.
Qed.
Lemma tan_angle y : sin (atan y) / sqrt (1 - sin (atan y) * sin (atan y)) = y /\ asin (sin (atan y)) = atan y.
Proof.
  assert (B := atan_bound y). split; [|apply asin_sin; lra].
  assert (C : 0 < cos (atan y)) by (apply cos_gt_0; lra). assert (S := sin2_cos2 (atan y)). unfold Rsqr in S.
  replace (1 - sin (atan y) * sin (atan y)) with (cos (atan y) * cos (atan y)) by lra. rewrite sqrt_square by lra. apply tan_atan.
Qed.
Lemma asin_large_refuted s N (d : gdual R) : gvar (sin (PI / 4)) s N = Ok d -> (31 <= N)%nat ->
  ~ taylor_of 31 (gasin d) (fun x => asin (sin (PI / 4) + x (dsym s))).
Proof.
  rewrite <- atan_1. set (v := sin (atan 1)). intros E L Ht. pose proof (expands_var 31 N v s d L E) as H.
  pose proof (gvar_spec v s N) as S. rewrite E in S. destruct S as (_ & _ & Og & _ & V). apply valid_iff in V. destruct V as [Wd Nd].
  destruct (tan_angle 1) as [T1 _]. fold v in T1.
  assert (Bv : -1 < v < 1).
  { unfold v. assert (B := atan_bound 1). assert (A1 := atan_1). assert (P := PI_RGT_0). rewrite A1.
    assert (S1 := sin_gt_0 (PI/4) ltac:(lra) ltac:(lra)). assert (C1 := cos_gt_0 (PI/4) ltac:(lra) ltac:(lra)). assert (Q := sin2_cos2 (PI/4)). unfold Rsqr in Q. nra. }
  assert (X : expands 31 (gdiv d (gsqrt (gsub_sg 1 (gmul d d)))) (fun x => (v + x (dsym s)) / sqrt (1 - (v + x (dsym s)) * (v + x (dsym s))))).
  { apply expands_T. apply expands_T in H. apply (T_asin_arg idR 31 d _ H). cbv beta. rewrite Rplus_0_r. exact Bv. }
  pose proof (atan_wrong_T 31 _ _ X) as W. cbv beta in W. unfold center in W. rewrite Rplus_0_r, T1 in W.
  assert (Og' : gord (gdiv d (gsqrt (gsub_sg 1 (gmul d d)))) = N).
  { assert (S := sto_self d Wd Nd). assert (Y : sto (gsyms d) (gord d) (gdiv d (gsqrt (gsub_sg 1 (gmul d d))))).
    { apply sto_div; auto. apply sto_sqrt, sto_sub_sg, sto_mul; auto. }
    rewrite (sto_ord _ _ _ Y). exact Og. }
  rewrite Og' in W. apply atan_31_wrong.
  assert (U := uexp_le _ _ _ _ _ L (uexp_self (atanc 1) 1 N)). destruct U as (C0 & e0 & He0 & HC0 & B0).
  destruct W as (_ & _ & (C & e & He & HC & B)). destruct Ht as (C' & e' & He' & HC' & B').
  exists (C + C' + C0), (Rmin e0 (Rmin e e')). split; [repeat apply Rmin_pos; auto|]. split; [lra|]. intros t Ht.
  assert (L0 : Rabs t <= e0) by (eapply Rle_trans; [exact Ht|apply Rmin_l]).
  assert (L1 : Rabs t <= e) by (eapply Rle_trans; [exact Ht|eapply Rle_trans; [apply Rmin_r|apply Rmin_l]]).
  assert (L2 : Rabs t <= e') by (eapply Rle_trans; [exact Ht|eapply Rle_trans; [apply Rmin_r|apply Rmin_r]]).
  set (w := sin (atan (1 + t)) - v). assert (Lw : Rabs w <= Rabs t).
  { unfold w, v. replace (Rabs t) with (Rabs (1 + t - 1)) by (f_equal; ring). apply sin_atan_lip. }
  specialize (B0 t L0). specialize (B (fun _ => w) (Rabs t) (fun _ => Lw) L1). specialize (B' (fun _ => w) (Rabs t) (fun _ => Lw) L2). cbv beta in *.
  replace (v + w) with (sin (atan (1 + t))) in * by (unfold w; ring). destruct (tan_angle (1 + t)) as [T2 T3]. rewrite T2 in B. rewrite T3 in B'.
  change (gatan (gdiv d (gsqrt (gsub_sg 1 (gmul d d))))) with (gasin d) in B.
  replace (1 + t - 1) with t in * by ring.
  set (q := usum (atanc 1) N t) in *. set (z := value _ _) in *. set (a := atan (1 + t)) in *. set (q0 := usum _ 31 t) in *.
  replace (a - q0) with ((a - z) + ((z - q) + (q - q0))) by ring.
  eapply Rle_trans; [apply Rabs_triang|]. eapply Rle_trans; [apply Rplus_le_compat_l, Rabs_triang|]. rewrite (Rabs_minus_sym z q). lra.
Qed.
Lemma acos_large_refuted s N (d : gdual R) : gvar (sin (PI / 4)) s N = Ok d -> (31 <= N)%nat ->
  ~ taylor_of 31 (gacos d) (fun x => acos (sin (PI / 4) + x (dsym s))).
Proof.
  set (v := sin (PI / 4)). intros E L (C & e & He & HC & B). apply (asin_large_refuted s N d E L). fold v.
  assert (Bv : 0 < v < 1).
  { unfold v. assert (P := PI_RGT_0).
    assert (S1 := sin_gt_0 (PI/4) ltac:(lra) ltac:(lra)). assert (C1 := cos_gt_0 (PI/4) ltac:(lra) ltac:(lra)). assert (Q := sin2_cos2 (PI/4)). unfold Rsqr in Q. nra. }
  exists C, (Rmin e (1 - v)). split; [apply Rmin_pos; lra|]. split; auto. intros x r Hx Hr.
  assert (L1 : r <= e) by (eapply Rle_trans; [exact Hr|apply Rmin_l]). assert (L2 : r <= 1 - v) by (eapply Rle_trans; [exact Hr|apply Rmin_r]).
  specialize (B x r Hx L1). cbv beta in *. assert (X := Hx (dsym s)). apply Coquelicot.Rcomplements.Rabs_le_between in X. rewrite acos_asin in B by lra.
  unfold gacos in B. pose proof (gvar_spec v s N) as S. rewrite E in S. destruct S as (_ & _ & _ & _ & V).
  rewrite value_sub_sg in B by (apply (run1_valid neg_nz_R Fasin d V)).
  change (kmul (kdiv k1 (kofZ 2)) e_pi) with (1 / 2 * PI) in B.
  rewrite Rabs_minus_sym. replace (value (gasin d) x - asin (v + x (dsym s))) with (PI / 2 - asin (v + x (dsym s)) - (1 / 2 * PI - value (gasin d) x)) by lra. exact B.
Qed.
