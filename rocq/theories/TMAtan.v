(** * The arc tangent of a Taylor model expanded where the function is 0 *)
From Coq Require Import String List Arith Bool ZArith Reals Permutation Lra Lia.
From Coquelicot Require Import Coquelicot.
From Verif Require Import Ops Syms SymsFacts Poly PolyFacts Sem Den Gdual GdualFacts Functions FunStruct Spec CoefFacts CoreProofs ValueProofs MiscProofs FunAlg ElemR Uni UniFun TaylorModel Interval SpecTM TMMaps TMArith TMMul TMFunctions Lagrange Bounding TMTaylor TMBounds TMPow TMFlat TMRefute2 TMSamples TMInst.
Import ListNotations.
Local Open Scope R_scope.

(** ** Derivatives of the arc tangent *)
Definition atan_d (i : nat) (x : R) : R :=
  match i with
  | O => atan x
  | S m => INR (fact m) * cos (atan x) ^ S m * sin (INR (S m) * (atan x + PI / 2))
  end.
Lemma cos_atan2 x : cos (atan x) ^ 2 = / (1 + x²).
Proof.
  rewrite cos_atan. assert (P : 0 < 1 + x²) by (assert (Q := Rle_0_sqr x); lra). assert (S := sqrt_lt_R0 _ P).
  replace ((1 / sqrt (1 + x²)) ^ 2) with (/ (sqrt (1 + x²) * sqrt (1 + x²))) by (field; lra). rewrite sqrt_sqrt by lra. reflexivity.
Qed.
Lemma atan_ds i x : is_derive (atan_d i) x (atan_d (S i) x).
Proof.
  destruct i as [|m].
  - cbn [atan_d fact]. replace (INR 1 * _ * _) with (/ (1 + x²)); [apply is_derive_atan|].
    rewrite <- cos_atan2. change (INR 1) with 1. rewrite Rmult_1_l, (Rmult_1_l (_ + _)), pow_1, <- cos_shift.
    replace (PI / 2 - (atan x + PI / 2)) with (- atan x) by ring. rewrite cos_neg. ring.
  - set (F := fun t => INR (fact m) * cos t ^ S m * sin (INR (S m) * (t + PI / 2))).
    assert (D : forall t, is_derive F t (INR (fact m) * INR (S m) * cos t ^ m * sin (INR (S (S m)) * (t + PI / 2)))).
    { intros t. unfold F. auto_derive; auto. change (Nat.pred (S m)) with m. change (match m with 0%nat => 1 | S _ => INR m + 1 end) with (INR (S m)).
      rewrite (S_INR (S m)). replace ((INR (S m) + 1) * (t + PI / 2)) with (INR (S m) * (t + PI / 2) + t + PI / 2) by ring.
      set (u := INR (S m) * (t + PI / 2)). replace (sin (u + t + PI / 2)) with (cos (u + t)).
      - rewrite cos_plus. cbn [pow]. ring.
      - rewrite <- cos_shift. replace (PI / 2 - (u + t + PI / 2)) with (- (u + t)) by ring. rewrite cos_neg. reflexivity. }
    assert (E := is_derive_comp F atan x _ _ (D (atan x)) (is_derive_atan x)). unfold scal in E; cbn in E. unfold mult in E; cbn in E.
    rewrite <- cos_atan2 in E. unfold F in E. cbn [atan_d].
    replace (INR (fact (S m)) * cos (atan x) ^ S (S m) * sin (INR (S (S m)) * (atan x + PI / 2)))
      with (cos (atan x) ^ 2 * (INR (fact m) * INR (S m) * cos (atan x) ^ m * sin (INR (S (S m)) * (atan x + PI / 2)))); [exact E|].
    rewrite fact_simpl, mult_INR. cbn [pow]. ring.
Qed.

(** ** The coefficients of gatan at 0 *)
Lemma atan_odd_0 k : atan_odd (0 : R) k = 1.
Proof.
  unfold atan_odd. set (F := fun '(binom, f0, cf_i) j => _).
  assert (G : forall l b f c, f = 0 -> fst (fst (fold_left F l (b, f, c))) = b).
  { induction l; intros b f c Hf; cbn [fold_left]; auto. unfold F at 2. rewrite IHl; cbn; rewrite Hf; ring. }
  specialize (G (seq 1 (k / 2)) 1 (0 * 0) (- (1)) ltac:(ring)). cbn in *. destruct (fold_left F _ _) as [[? ?] ?]. exact G.
Qed.
Lemma atan_even_0 k : atan_even (0 : R) k = 0.
Proof.
  unfold atan_even. set (F := fun '(binom, f0, cf_i) j => _).
  assert (G : forall l b f c, f = 0 -> fst (fst (fold_left F l (b, f, c))) = b).
  { induction l; intros b f c Hf; cbn [fold_left]; auto. unfold F at 2. rewrite IHl; cbn; rewrite Hf; ring. }
  specialize (G (seq 1 ((k + 1) / 2)) 0 0 1 eq_refl). cbn in *. destruct (fold_left F _ _) as [[? ?] ?]. exact G.
Qed.
Lemma sin_half_even j : sin (INR (2 * j) * (PI / 2)) = 0.
Proof. rewrite mult_INR. change (INR 2) with 2. replace (2 * INR j * (PI / 2)) with (INR j * PI) by field. rewrite INR_IZR_INZ. apply sin_eq_0_1. exists (Z.of_nat j). auto. Qed.
Lemma sin_half_odd j : sin (INR (S (2 * j)) * (PI / 2)) = (-1) ^ j.
Proof.
  induction j.
  - cbn [Nat.mul]. change (INR 1) with 1. rewrite Rmult_1_l, sin_PI2. reflexivity.
  - replace (S (2 * S j)) with (S (2 * j) + 2)%nat by lia. rewrite plus_INR. change (INR 2) with 2.
    replace ((INR (S (2 * j)) + 2) * (PI / 2)) with (INR (S (2 * j)) * (PI / 2) + PI) by field. rewrite neg_sin, IHj. cbn [pow]. ring.
Qed.
Lemma atanc_0 i : (atanc 0 i : R) = atan_d i 0 / INR (fact i).
Proof.
  destruct i as [|m].
  - cbn [atanc atan_d fact]. cbn. field.
  - unfold atanc. rewrite atan_odd_0, atan_even_0. unfold atan_d. rewrite atan_0, cos_0, pow1, Rplus_0_l.
    rewrite fact_simpl, mult_INR. assert (F := INR_fact_neq_0 m). assert (N : INR (S m) <> 0) by (apply not_0_INR; lia).
    rewrite kpow_pow. toR. replace ((1 + 0 * 0) ^ S m) with 1 by (rewrite Rmult_0_l, Rplus_0_r, pow1; reflexivity).
    destruct (Nat.Even_or_Odd (S m)) as [[j Hj]|[j Hj]].
    + rewrite Hj at 2. rewrite Nat.odd_mul. cbn [Nat.odd Nat.even negb andb]. rewrite Hj, sin_half_even, <- Hj. field. auto.
    + assert (O : Nat.odd (S m) = true) by (apply Nat.odd_spec; exists j; auto). rewrite O.
      replace (S m / 2)%nat with j. 2:{ rewrite Hj. rewrite Nat.add_1_r, <- Nat.add_1_r, Nat.mul_comm, Nat.div_add_l by lia. cbn. lia. }
      rewrite Hj, Nat.add_1_r, sin_half_odd. rewrite Nat.add_1_r in Hj. rewrite <- Hj. field. auto.
Qed.

(** ** The model *)
Section Zero.
  Variables (iter : list (string * (R * R)) -> list (string * (R * R))) (A : taylor_model R) (D : point -> Prop) (f : point -> R).
  Hypothesis RA : represents D A f.
  Hypothesis Hk : (1 <= get_order (m_tpol A) <= 31)%nat.
  Hypothesis HL : linear A.
  Hypothesis HE : m_rem A = (0, 0).
  Hypothesis H0 : constant_cf (m_tpol A) = 0.
  Hypothesis Hp : permutes iter.
  Hypothesis Hi : ordered_on iter (variables A).
  Notation g := (m_tpol A).
  Notation k := (get_order (m_tpol A)).
  Let W := proj1 RA.
  Let V : valid g := wf_poly _ W.
  Let Wg : gwf g := valid_gwf _ V.
  Let Ng : gnz g := proj2 (proj1 (valid_iff g) V).
  Let S0 := sto_self g Wg Ng.
  Let HA : simple A := conj HL (or_intror HE).

  (** 1 + 0 * A is 1 *)
  Lemma one_model : exists B P, tm_mul_sg 0 A = Ok P /\ tm_add_sg 1 P = Ok B /\ represents D B (fun _ => 1) /\ m_rem B = (0, 0) /\
    m_exp B = m_exp A /\ m_domain B = m_domain A /\ psyms (gp (m_tpol B)) = psyms (gp g) /\ get_order (m_tpol B) = k /\
    (forall rho, value (m_tpol B) rho = 1).
  Proof.
    destruct (tm_mul_sg_ok A D f RA 0) as (P & EP & RP). destruct (tm_add_sg_ok P D _ RP 1) as (B & EB & RB). exists B, P.
    split; auto. split; auto. assert (FP := make_fields _ _ _ _ _ EP). assert (FB := make_fields _ _ _ _ _ EB).
    assert (S1 := sto_mul_sg _ _ 0 _ S0). assert (S2 := sto_add_sg _ _ 1 _ S1).
    assert (Z : m_tpol B = gadd_sg 1 (gmul_sg 0 g)) by (rewrite FB; cbn [m_tpol]; rewrite FP; reflexivity).
    split.
    { destruct RB as [WB XB]. split; auto. intros x Hx. destruct (XB x Hx) as [X Y]. split; auto. replace 1 with (1 + 0 * f x) by ring. exact Y. }
    split.
    { rewrite FB. cbn [m_rem]. rewrite FP. cbn [m_rem]. rewrite HE. apply imul_zero_r. }
    split; [rewrite FB; cbn [m_exp]; rewrite FP; reflexivity|]. split; [rewrite FB; cbn [m_domain]; rewrite FP; reflexivity|].
    rewrite Z. split; [exact (sto_sym _ _ _ S2)|]. split; [exact (sto_ord _ _ _ S2)|].
    intros rho. rewrite (value_add_sg 1 (gmul_sg 0 g)) by (destruct S1; apply valid_iff; auto). rewrite value_mul_sg by auto. toR. ring.
  Qed.
  (** dividing by it changes nothing *)
  Lemma one_coefs (p : gdual R) U j : valid p -> (forall rho, value p rho = 1) -> NoDup U -> length j = length U -> (0 < list_sum j)%nat -> coef p U j = 0.
  Proof.
    intros Vp E HU Hj L. rewrite (value_coef p (gconst 1) U j); auto.
    - exact (coef_above (gconst 1) U j (gconst_gwf 1) HU Hj L).
    - apply valid_gwf; auto.
    - apply gconst_gwf.
    - intros rho. rewrite E, value_const. reflexivity.
  Qed.
  Lemma adapted_ok : exists T B P Ad, tm_sub_gs A 0 = Ok T /\ tm_mul_sg 0 A = Ok P /\ tm_add_sg 1 P = Ok B /\ tm_div iter T B = Ok Ad /\
    represents D Ad f /\ (get_order (m_tpol Ad) <= 31)%nat /\ incl (variables Ad) (variables A).
  Proof.
    destruct one_model as (B & P & EP & EB & RB & MB & XB & DB & SB & OB & VB).
    destruct (tm_sub_gs_ok A D f RA 0) as (T & ET & RT). exists T, B, P. assert (FT := make_fields _ _ _ _ _ ET).
    assert (S1 := sto_sub_gs _ _ 0 _ S0). assert (WB := proj1 RB). assert (VB' : valid (m_tpol B)) by apply WB.
    assert (RT' : represents D T f).
    { destruct RT as [WT XT]. split; auto. intros x Hx. destruct (XT x Hx) as [X Y]. split; auto. replace (f x) with (f x - 0) by ring. exact Y. }
    clear RT. assert (OT : get_order (m_tpol T) = k) by (rewrite FT; exact (sto_ord _ _ _ S1)).
    assert (ST : psyms (gp (m_tpol T)) = psyms (gp g)) by (rewrite FT; exact (sto_sym _ _ _ S1)).
    assert (LB : linear B).
    { intros u Hu. destruct (le_lt_dec (list_sum (fst u)) 1) as [L|L]; auto. exfalso. assert (WB' := valid_gwf _ VB').
      assert (C := coef_own _ _ WB' Hu). rewrite one_coefs in C; auto; try lia.
      - assert (N := valid_nonzero _ VB' u Hu). apply keqb_false in N. apply N. symmetry. exact C.
      - apply ssorted_NoDup, gsyms_sorted; auto.
      - exact (valid_length _ VB' u Hu). }
    assert (HB : simple B) by (split; auto).
    assert (CB : constant_cf (m_tpol B) = 1) by (rewrite <- (value_zero _ VB'); apply VB).
    assert (HoB : (Z.of_nat (get_order (m_tpol B)) < 4294967296)%Z) by lia.
    assert (HiB : ordered_on iter (variables B)) by (rewrite (variables_syms B A SB); auto).
    destruct (tm_recip_defined iter B (proj1 RB) HoB LB Hp HiB) as (r & Er).
    { rewrite MB. unfold within. cbn. lra. } { left. intros x _. rewrite VB, MB. cbn. lra. }
    destruct (div_fields iter 1 B r Er WB) as (F1 & F2 & F3 & F4).
    assert (RR : represents D r (fun _ => / 1)) by (apply (tm_div_sg_ok iter B D (fun _ => 1) RB); auto).
    assert (VR : valid (m_tpol r)) by apply RR.
    assert (Vr : forall rho, value (m_tpol r) rho = 1).
    { destruct (div_sg_rem iter 1 _ r Er WB) as (T' & E' & _ & Et & _). rewrite Er in E'. injection E' as <-. rewrite Et. intros rho.
      assert (SBs := sto_div_sg _ _ 1 _ (sto_self _ (valid_gwf _ VB') (proj2 (proj1 (valid_iff _) VB')))). assert (Hc : constant_cf (m_tpol B) <> 0) by (rewrite CB; lra).
      rewrite (linear_value (m_tpol B) (gdiv_sg 1 (m_tpol B)) (fun i => 1 * (inv_d i (constant_cf (m_tpol B)) / INR (fact i))) rho VB' (sto_wf _ _ _ SBs) (sto_sym _ _ _ SBs) (sto_ord _ _ _ SBs)
        (linear_degree B LB) (gdiv_sg_psum B _ _ RB HB 1 Hc)).
      rewrite VB, CB, Rminus_diag_eq, usum_at0 by auto. unfold inv_d. cbn [fact pow INR]. field. }
    assert (HiT : ordered_on iter (variables T ++ variables r)).
    { apply (ordered_incl _ _ (variables A)); auto. rewrite (variables_syms T A ST). rewrite (variables_syms r A) by congruence. apply incl_app; apply incl_refl. }
    unfold tm_div. change (k1 : R) with 1. rewrite Er. cbn [rbind].
    assert (RX : forall X, represents D X (fun x => f x * / 1) -> represents D X f).
    { intros X [WX HX]. split; auto. intros x Hx. destruct (HX x Hx) as [Y Z]. split; auto. replace (f x) with (f x * / 1) by field. exact Z. }
    assert (DZ : pterms (gp (m_tpol T)) = [] \/ pterms (gp (m_tpol T)) <> []) by (destruct (pterms (gp (m_tpol T))); [left|right]; congruence). destruct DZ as [Z|NZ].
    - assert (Z' : ~ nonzero (m_tpol T)) by (intros N; exact (N Z)).
      assert (Q := proj2 (tm_mul_zero_only iter T r D f (fun _ => / 1) (proj1 RT') (proj1 RR) (or_introl Z'))).
      rewrite (tm_mul_zero iter T r (proj1 RT') (proj1 RR) (or_introl Z')) in *. destruct Q as (Ad & EAd & RAd).
      + intros x Hx. destruct (proj2 RT' x Hx) as [_ X]. rewrite value_zero_terms in X by auto. rewrite FT in X. cbn [m_rem] in X. rewrite HE in X.
        unfold within in X. cbn in X. replace (f x) with 0 by lra. ring.
      + injection EAd as <-. exists (tm_const 0). split; auto. split; auto. split; auto. split; auto. split; auto. cbn. split; [lia|]. intros s [].
    - destruct (tm_mul_full iter T r D f (fun _ => / 1)) as (Ad & EAd & RAd & [PO PX PD PS PC]); auto.
      + intros s c c'. rewrite F2, XB, FT. cbn [m_exp]. apply distinct_In, W.
      + intros s I J X Y. rewrite F3, DB in Y. rewrite FT in X. cbn [m_domain] in X. rewrite (distinct_In s I J (m_domain A) (wf_dom _ W) X Y).
        unfold close. rewrite !Rminus_diag_eq, Rabs_R0 by auto. lra.
      + intros Z. specialize (Vr (fun _ => 0)). rewrite value_zero_terms in Vr by (intros N; apply N; exact Z). lra.
      + lia.
      + left. intros U j HU Hj L. unfold product_coef. rewrite sum_list_zero; [reflexivity|]. intros [i i'] Hij. destruct (splits_sum _ _ _ Hij) as (Q1 & Q2 & Q3). cbn [fst snd].
        destruct (Nat.eq_dec (list_sum i') 0) as [E|E].
        * assert (Y : coef (m_tpol T) U i = 0).
          { rewrite (coef_above (m_tpol T)); auto; [apply valid_gwf, RT'|congruence|]. unfold get_order in L. lia. }
          rewrite Y. toR. ring.
        * rewrite (one_coefs (m_tpol r)) by (auto; try congruence; lia). toR. ring.
      + exists Ad. split; auto. split; auto. split; auto. split; auto. split; auto. split; [lia|].
        intros s X. unfold variables in *. apply in_map_iff in X. destruct X as (u & <- & X). apply in_map. apply PS in X. rewrite ST, F4, SB in X. tauto.
  Qed.

  Context {iv : IvFun R}.
  Hypothesis SV : iv_sound iv.
  Hypothesis SA : forall I v, within I v -> within (i_atan I) (atan v).
  Lemma tm_atan_ok : exists T, tm_atan iter A = Ok T /\ represents D T (fun x => atan (f x)).
  Proof.
    destruct adapted_ok as (T & B & P & Ad & ET & EP & EB & EA & RAd & OAd & VAd). unfold tm_atan. rewrite H0, ET. cbn [rbind]. rewrite EP. cbn [rbind].
    change (@k1 R OpsR) with 1. rewrite EB. cbn [rbind]. rewrite EA. cbn [rbind].
    destruct (tm_bounds_enclose iter Ad (proj1 RAd)) as (b & Eb & Hb); auto.
    { lia. } { intros u Hu. apply (degree_le (m_tpol Ad)); auto; [apply RAd|unfold get_order in OAd; lia]. }
    { apply (ordered_incl _ _ (variables A)); auto. }
    rewrite Eb. cbn [rbind]. set (G := iadd b (m_rem Ad)). assert (HG : forall x, D x -> within G (f x)).
    { intros x Hx. destruct (proj2 RAd x Hx) as [X Y]. replace (f x) with (value (m_tpol Ad) (displacement (m_exp Ad) x) + (f x - value (m_tpol Ad) (displacement (m_exp Ad) x))) by ring.
      apply within_add; auto. }
    apply (function_ok A D f RA HA _ (fun i => atan_d i 0 / INR (fact i))).
    - apply gatan_sto; auto. unfold get_order in Hk. lia.
    - rewrite (gatan_psum idR (gord g) g Wg (le_n _)) by (rewrite H0; toR; lra). rewrite H0.
      rewrite (psum_ext _ (fun i => atan_d i 0 / INR (fact i))); [reflexivity|]. intros i _. apply atanc_0.
    - intros x Hx. rewrite H0, Rminus_0_r. specialize (HG x Hx). set (w := f x) in *.
      destruct (lagrange atan_d 0 w k) as (th & Ht & E); [intros; apply atan_ds|]. rewrite Rplus_0_l in E. change (atan w) with (atan_d 0 w). rewrite E.
      rewrite Rplus_0_l. set (t := atan (w * th)). assert (Ht' : within (i_atan (imul unit_interval G)) t).
      { apply SA. rewrite Rmult_comm. apply within_mul; auto. }
      replace (_ + _ - _) with (1 / INR (k + 1) * w ^ (k + 1) * cos t ^ (k + 1) * sin (INR (k + 1) * (t + PI / 2))).
      + apply within_mul; [apply within_mul; [apply within_mul|]|].
        * toR. apply within_ipt.
        * apply within_pow; auto.
        * apply within_pow. apply (s_cos _ SV); auto.
        * apply (s_sin _ SV). apply within_mul; [toR; apply within_ipt|]. apply within_add; auto. toR. apply within_ipt.
      + cbn [atan_d]. unfold t. rewrite (Rmult_comm th), Nat.add_1_r, fact_simpl, mult_INR. assert (F := INR_fact_neq_0 k). assert (N : INR (S k) <> 0) by (apply not_0_INR; lia).
        field. auto.
  Qed.
End Zero.

Lemma atan_origin (iv : IvFun R) iter (A : taylor_model R) (D : point -> Prop) f : represents D A f -> linear A -> m_rem A = (0, 0) ->
  constant_cf (m_tpol A) = 0 -> (1 <= get_order (m_tpol A) <= 31)%nat -> permutes iter -> ordered_on iter (variables A) -> iv_sound iv ->
  (forall I v, within I v -> within (i_atan I) (atan v)) -> exists T, tm_atan iter A = Ok T /\ represents D T (fun x => atan (f x)).
Proof. intros. apply tm_atan_ok; auto. Qed.
Lemma atan_case : exists (D : point -> Prop) A f, represents D A f /\ linear A /\ m_rem A = (0, 0) /\ constant_cf (m_tpol A) = 0 /\ nonzero (m_tpol A) /\
  (1 <= get_order (m_tpol A) <= 31)%nat /\ permutes in_order /\ ordered_on in_order (variables A) /\ iv_sound iv_std /\
  (forall I v, within I v -> within (i_atan (IvFun:=iv_std) I) (atan v)) /\ D (at_x 1).
Proof.
  set (A := var0 5 2 (0, 0) (-1, 1)). assert (RA : represents (on (-1, 1)) A (fun x => 2 * x "x"%string)) by (apply var0_represents; try lra; try lia; unfold within; cbn; lra).
  exists (on (-1, 1)), A, (fun x => 2 * x "x"%string). split; auto. split; [apply var0_simple|]. split; [reflexivity|]. split.
  { rewrite <- (value_zero _ (wf_poly _ (proj1 RA))). cbn. ring. }
  split; [discriminate|]. split; [cbn; lia|]. split; [apply in_order_permutes|]. split; [apply in_order_ordered|]. split; [apply iv_std_sound|]. split.
  - intros [a b] v [H1 H2]. cbn [fst snd] in *. unfold within. cbn [i_atan iv_std fst snd]. split.
    + destruct H1 as [H1|H1]; [left; apply atan_increasing; auto|right; congruence].
    + destruct H2 as [H2|H2]; [left; apply atan_increasing; auto|right; congruence].
  - unfold on, within, at_x; cbn; lra.
Qed.
