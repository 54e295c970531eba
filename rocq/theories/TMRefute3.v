(** * More Taylor models on which the operations of audi are wrong (proof file) *)
From Coq Require Import String List Arith Bool ZArith Reals Permutation Lra Lia.
From Verif Require Import Ops Syms SymsFacts Poly PolyFacts Gdual GdualFacts Functions FunStruct Spec CoefFacts CoreProofs CalcProofs ValueProofs MiscProofs ElemR FunAlg Interval TaylorModel TMFunctions SpecTM TMMaps TMArith TMMul TMTaylor TMBounds TMPow TMMisc TMSamples TMFlat TMRefute TMExact TMRefute2 SpecTaylor TayFun TayProofs.
Import ListNotations.
Local Open Scope string_scope.
Local Open Scope list_scope.
Local Open Scope R_scope.

(** ** Quotients of functions *)
Section Fun.
  Context {iv : IvFun R}.
  Variable iter : list (string * ivl) -> list (string * ivl).
  Hypothesis Hp : permutes iter.
  Hypothesis Hiv : iv_sound iv.
  Lemma zero_wrong v (A : taylor_model R) h : exact_model v A -> h v <> 0 -> ~ encloses everywhere (tm_const 0) (fun x => h ((fun _ => v) x)).
  Proof.
    intros HA N. apply (fails _ _ (at_x 0)). cbn [tm_const m_rem m_tpol m_exp]. rewrite value_const. unfold within. cbn. lra.
  Qed.
  Lemma cos1 : 0 < cos 1.
  Proof. assert (X := PI2_1). apply cos_gt_0; lra. Qed.
  Lemma tan_wrong : exists (D : point -> Prop) A f T, represents D A f /\ simple A /\ m_rem A = (0, 0) /\ (forall x, D x -> cos (f x) <> 0) /\
    tm_tan iter A = Ok T /\ ~ encloses D T (fun x => tan (f x)).
  Proof.
    exists everywhere, (cst 1 (0, 0)), (fun _ => 1), (tm_const 0). assert (C := cos1).
    split; [apply exact_represents, exact_cst|]. split; [apply cst_simple|]. split; auto. split; [intros; lra|].
    split; [apply (exact_tan iter Hp Hiv 1); [apply exact_cst|lra]|]. apply (zero_wrong 1 _ tan (exact_cst 1)).
    unfold tan. assert (S : 0 < sin 1) by (assert (X := PI2_1); apply sin_gt_0; lra). assert (X := Rdiv_lt_0_compat _ _ S C). lra.
  Qed.
  Lemma tanh_wrong : exists (D : point -> Prop) A f T, represents D A f /\ simple A /\ m_rem A = (0, 0) /\
    tm_tanh iter A = Ok T /\ ~ encloses D T (fun x => tanh (f x)).
  Proof.
    exists everywhere, (cst 1 (0, 0)), (fun _ => 1), (tm_const 0).
    split; [apply exact_represents, exact_cst|]. split; [apply cst_simple|]. split; auto.
    split; [apply (exact_tanh iter Hp Hiv 1), exact_cst|]. apply (zero_wrong 1 _ tanh (exact_cst 1)).
    unfold tanh. assert (S : 0 < sinh 1) by (unfold sinh; assert (X := exp_increasing (- (1)) 1 ltac:(lra)); lra).
    assert (C : 0 < cosh 1) by (unfold cosh; assert (X := exp_pos 1); assert (Y := exp_pos (- (1))); lra). assert (X := Rdiv_lt_0_compat _ _ S C). lra.
  Qed.
  (** asinh 2 = ln 3 *)
  Hypothesis Hs : forall I, 0 < fst I -> fst I <= snd I -> 0 < fst (i_sqrt I).
  Lemma asinh_wrong : exists (D : point -> Prop) A f T, represents D A f /\ simple A /\ m_rem A = (0, 0) /\
    tm_asinh iter A = Ok T /\ ~ encloses D T (fun x => ln (f x + sqrt (f x ^ 2 + 1))).
  Proof.
    destruct (exact_asinh iter Hp Hiv Hs 2 _ (exact_cst 2) ltac:(lra)) as (T & E & [F R V]).
    exists everywhere, (cst 2 (0, 0)), (fun _ => 2), T.
    split; [apply exact_represents, exact_cst|]. split; [apply cst_simple|]. split; auto. split; auto.
    apply (fails _ _ (at_x 0)). rewrite R, V. unfold within. cbn [fst snd]. intros [_ Q].
    assert (S : 1 < sqrt (2 ^ 2 + 1)) by (rewrite <- sqrt_1 at 1; apply sqrt_lt_1; lra).
    assert (X : ln (2 + 1) < ln (2 + sqrt (2 ^ 2 + 1))) by (apply ln_increasing; lra). lra.
  Qed.
  (** acosh and atanh throw for every exact constant *)
  Lemma acosh_throws v : tm_acosh iter (cst v (0, 0)) = Throw RuntimeError.
  Proof. apply (exact_acosh iter Hp v), exact_cst. Qed.
End Fun.

(** ** atan forgets the remainder of a constant *)
Lemma gatan_flat (d : gdual R) : get_order d = 0%nat -> gatan d = gconst (atan (constant_cf d)).
Proof. unfold get_order. intros E. unfold gatan. rewrite E. reflexivity. Qed.
Lemma atan_wrong {iv : IvFun R} iter : permutes iter -> iv_sound iv -> exists (D : point -> Prop) A f T, represents D A f /\ simple A /\
  tm_atan iter A = Ok T /\ ~ encloses D T (fun x => atan (f x)).
Proof.
  intros Hp Hiv. set (A := cst 0 (0, 1)). exists everywhere, A, (fun _ => 1), (cst 0 (0, 0)).
  assert (RA : represents everywhere A (fun _ => 1)) by (apply cst_represents; intros; unfold within; cbn; lra).
  assert (C : constant_cf (m_tpol A) = 0) by apply cst_cf.
  assert (G0 : gatan (m_tpol A) = gconst 0) by (rewrite gatan_flat, C, atan_0; auto).
  split; auto. split; [apply cst_simple|]. split.
  2:{ apply (fails _ _ (at_x 0)). cbn [cst m_rem m_tpol m_exp]. rewrite value_const. rewrite atan_1. assert (X := PI_RGT_0). unfold within. cbn. lra. }
  unfold tm_atan. rewrite C. 
  destruct (tm_sub_gs_ok A everywhere (fun _ => 1) RA 0) as (B & EB & RB). rewrite EB. cbn [rbind].
  destruct (tm_mul_sg_ok A everywhere (fun _ => 1) RA 0) as (M & EM & RM). rewrite EM. cbn [rbind].
  assert (XM : exact_model 0 M).
  { apply make_fields in EM. apply exact_of.
    - split; [apply RM|]. intros x Hx. destruct (proj2 RM x Hx) as [B1 B2]. split; auto. replace 0 with (0 * 1) at 1 by ring. exact B2.
    - subst M. reflexivity.
    - subst M. reflexivity.
    - subst M. cbn [m_rem A cst]. unfold ipt. rewrite imul_R. replace (0 * 0) with 0 by ring. replace (0 * 1) with 0 by ring.
      rewrite !Rmin_left, !Rmax_left by lra. auto. }
  destruct (exact_add_sg 0 M XM 1) as (N & EN & XN). change (@k1 R OpsR) with 1. rewrite EN. cbn [rbind].
  destruct (exact_recip iter Hp _ N XN ltac:(lra)) as (Q & EQ & XQ).
  assert (ED : tm_div iter B N = Ok (tm_const 0)).
  { unfold tm_div. change (@k1 R OpsR) with 1. rewrite EQ. cbn [rbind]. apply tm_mul_zero; [apply RB|apply XQ|]. left. intros NB. apply make_fields in EB. subst B. cbn [m_tpol] in NB.
    apply (nonzero_value _ (gconst 0)) in NB; [apply NB; rewrite const_zero_gdual; reflexivity|apply valid_sub_gs, valid_const|apply valid_const|].
    intros rho. rewrite value_sub_gs by apply valid_const. cbn [A cst m_tpol]. rewrite !value_const. cbn. ring. }
  rewrite ED. cbn [rbind]. rewrite (exact_bounds_of iter Hp 0 _ (exact_zero)). cbn [rbind tm_const m_rem]. 
  replace (iadd _ _) with (0, 0) by (symmetry; apply iadd_zero). rewrite (ipow_zero (get_order (m_tpol A))), imul_zero_r, !imul_zero_l, G0.
  apply cst_make'; [apply valid_const|reflexivity].
Qed.

(** ** abs *)
Lemma abs_wrong : exists (D : point -> Prop) A f T, represents D A f /\ tm_abs A = Ok T /\ ~ encloses D T (fun x => Rabs (f x)).
Proof.
  exists everywhere, (cst (-1) (-1, 1)), (fun _ => 0). eexists. split; [apply cst_represents; intros; unfold within; cbn; lra|].
  assert (E : gabs (gconst (-1)) = gneg (gconst (-1 : R))).
  { unfold gabs. assert (C := cst_cf (-1) (0, 0)). cbn [cst m_tpol] in C. rewrite C. cbn. unfold Rltb, Reqb. destruct (Rlt_dec 0 _); [lra|]. destruct (Req_EM_T _ 0); auto. exfalso. lra. }
  split.
  - unfold tm_abs. cbn [cst m_tpol m_rem m_exp m_domain]. rewrite E. apply cst_make'; [apply valid_neg, valid_const|reflexivity].
  - apply (fails _ _ (at_x 0)). cbn [m_rem m_tpol m_exp]. rewrite value_neg, value_const by apply valid_const. intros [Q _]. rewrite Rabs_R0 in Q. revert Q. unfold iabs. cbn [fst snd].
    replace (@kltb R OpsR (-1) k0) with true by (symmetry; apply Rltb_true; cbn; lra). 
    replace (@kltb R OpsR k0 1) with true by (symmetry; apply Rltb_true; cbn; lra). cbn. lra.
Qed.

(** ** == is not transitive *)
Lemma eqb_not_transitive : exists a b c, well_formed a /\ well_formed b /\ well_formed c /\ tm_eqb a b = true /\ tm_eqb b c = true /\ tm_eqb a c = false.
Proof.
  exists (cst 0 (0, 0)), (cst 0 (0, 15 / 10000000000000000)), (cst 0 (0, 30 / 10000000000000000)).
  assert (Q : forall u v, tm_eqb (cst 0 (0, u)) (cst 0 (0, v)) = true <-> close u v).
  { intros u v. rewrite tm_eqb_iff by apply wf_cst. unfold tm_equal. cbn [cst m_tpol m_rem m_exp m_domain fst snd]. split; [tauto|].
    intros H. split; auto. split; [split; [apply close_refl|auto]|]. split; (split; [tauto|intros ? ? ? []]). }
  split; [apply wf_cst|]. split; [apply wf_cst|]. split; [apply wf_cst|]. split; [apply Q; unfold close|split; [apply Q; unfold close|]].
  - rewrite Rabs_left; lra.
  - rewrite Rabs_left; lra.
  - destruct (tm_eqb _ _) eqn:E; auto. apply Q in E. unfold close in E. rewrite Rabs_left in E; lra.
Qed.

(** ** asin and acos: the derivative is bounded around the wrong point *)
Lemma exact_sub v w A B : exact_model v A -> exact_model w B -> exists T, tm_sub A B = Ok T /\ exact_model (v - w) T.
Proof.
  intros HA HB. assert (FA := ex_flat _ _ HA). assert (FB := ex_flat _ _ HB). destruct (tm_sub_cases A B (fl_wf _ FA) (fl_wf _ FB)) as (X & _ & Y).
  destruct X as [T E].
  { split; intros s a b H; [rewrite (flat_exp A FA) in H|rewrite (flat_domain A FA) in H]; destruct H. }
  exists T. split; auto. assert (RT := Y T everywhere _ _ E ltac:(intros s a b H; rewrite (flat_exp A FA) in H; destruct H)
    (proj2 (exact_represents v A everywhere HA)) (proj2 (exact_represents w B everywhere HB))).
  unfold tm_sub in E. destruct (common_exp A B); cbn [rbind] in E; [|discriminate]. destruct (common_domain A B); cbn [rbind] in E; [|discriminate].
  destruct (trim_map _ _); cbn [rbind] in E; [|discriminate]. destruct (trim_map _ _); cbn [rbind] in E; [|discriminate]. apply make_fields in E.
  apply exact_of; auto; subst T; cbn [m_tpol m_rem].
  - change (psyms _) with (gsyms (gsub (m_tpol A) (m_tpol B))). rewrite gsyms_sub. unfold gsyms. rewrite (fl_syms _ FA), (fl_syms _ FB). reflexivity.
  - unfold get_order, gsub. cbn [gord]. assert (X := fl_order _ FA). assert (Y' := fl_order _ FB). unfold get_order in *. rewrite X, Y'. reflexivity.
  - rewrite (ex_rem _ _ HA), (ex_rem _ _ HB). unfold isub. cbn. f_equal; ring.
Qed.
Section Asin.
  Context {iv : IvFun R}.
  Variable iter : list (string * ivl) -> list (string * ivl).
  Hypothesis Hp : permutes iter.
  Hypothesis Hiv : iv_sound iv.
  Hypothesis Hs : forall I, 0 < fst I -> fst I <= snd I -> 0 < fst (i_sqrt I).
  (** for 0 < v < 1 the remainder is strictly negative *)
  Lemma asin_run v : 0 < v < 1 -> exists T, tm_asin iter (cst v (0, 0)) = Ok T /\ flat T /\ constant_cf (m_tpol T) = asin v /\ snd (m_rem T) < 0.
  Proof.
    intros Hv. set (A := cst v (0, 0)). assert (HA : exact_model v A) by apply exact_cst.
    unfold tm_asin. rewrite (exact_bounds_of iter Hp v A HA). cbn [rbind].
    replace (isubset _ _) with true.
    2:{ symmetry. unfold isubset, A. cbn [cst m_rem iadd fst snd]. apply andb_true_iff. split; apply negb_true_iff, Rltb_false; cbn; lra. }
    cbn [negb]. rewrite (exact_cf v A HA). set (w := e_sqrt _).
    assert (W : w = sqrt (1 - v ^ 2)).
    { unfold w. change (e_sqrt ?x) with (sqrt x). f_equal. change (1 - e_pow v (kofZ 2))%K with (1 - rpow v (IZR 2)). f_equal. exact (rpow_nat v 2). }
    assert (W1 : 0 < w < 1).
    { assert (V2 : 0 < v ^ 2 < 1) by (split; nra). rewrite W. split; [apply sqrt_lt_R0; lra|]. rewrite <- sqrt_1 at 2. apply sqrt_lt_1; lra. }
    destruct (exact_mul_gs v A HA w) as (L & EL & XL). rewrite EL. cbn [rbind]. rewrite (exact_square iter Hp v A HA). cbn [rbind].
    change (@k1 R OpsR) with 1. destruct (exact_sub_sg 0 _ exact_zero 1) as (M & EM & XM). rewrite EM. cbn [rbind].
    destruct (exact_sqrt iter Hp Hiv Hs _ M XM ltac:(lra)) as (Q & EQ & XQ). rewrite EQ. cbn [rbind].
    replace (1 - 0) with 1 in XQ by ring. rewrite sqrt_1 in XQ. destruct (exact_mul_sg 1 Q XQ v) as (P & EP & XP). rewrite EP. cbn [rbind].
    destruct (exact_sub _ _ _ _ XL XP) as (B & EB & XB). rewrite EB. cbn [rbind]. rewrite (exact_bounds_of iter Hp _ B XB). cbn [rbind].
    rewrite (ex_rem _ _ XB). set (g := v * w - v * 1). assert (Hg : -1 < g < 0).
    { unfold g. nra. }
    replace (iadd (g, g) (0, 0)) with (g, g) by (unfold iadd; cbn; f_equal; ring).
    change (get_order (m_tpol A)) with 0%nat. cbn [Nat.add asin_derivative].
    assert (Ea : imul unit_interval (g, g) = (g, 0)).
    { unfold unit_interval. change (@k0 R OpsR) with 0. change (@k1 R OpsR) with 1. rewrite imul_R. replace (0 * g) with 0 by ring. replace (1 * g) with g by ring.
      rewrite (Rmin_left 0 0), (Rmin_left g g), (Rmin_right 0 g), (Rmax_left 0 0), (Rmax_left g g), (Rmax_left 0 g) by lra. auto. }
    assert (Eu : isub (ipt k1) (imul (g, 0) (g, 0)) = (1 - g * g, 1)).
    { rewrite imul_R. assert (0 <= g * g) by nra. replace (g * 0) with 0 by ring. replace (0 * g) with 0 by ring. replace (0 * 0) with 0 by ring.
      rewrite (Rmin_right (g * g) 0), (Rmin_left 0 0), (Rmin_left 0 0), (Rmax_left (g * g) 0), (Rmax_left 0 0), (Rmax_left (g * g) 0) by lra.
      unfold isub, ipt. cbn. f_equal; ring. }
    rewrite Ea. change (@k1 R OpsR) with 1 in *. rewrite Eu. set (s := i_sqrt (1 - g * g, 1)).
    assert (S1 : 0 < fst s) by (apply Hs; cbn; nra).
    assert (S2 : 1 <= snd s). { destruct (s_sqrt _ Hiv (1 - g * g, 1) 1) as [_ X]; [lra|unfold within; cbn; nra|]. rewrite sqrt_1 in X. exact X. }
    assert (Z : zero_in s = false) by (apply not_true_iff_false; rewrite zero_in_spec; unfold within; lra).
    unfold idiv. rewrite Z. cbn [rbind].
    assert (FG : gasin (m_tpol A) = gconst (atan (constant_cf (gdiv (m_tpol A) (gsqrt (gsub_sg 1 (gmul (m_tpol A) (m_tpol A)))))))).
    { unfold gasin. change (@k1 R OpsR) with 1. apply gatan_flat. reflexivity. }
    eexists. split; [rewrite FG; apply cst_make'; [apply valid_const|reflexivity]|]. split; [exact (flat_cst _ _)|]. cbn [m_tpol m_rem]. split.
    - rewrite <- FG. assert (X := expands_run1 Fasin 0 (gconst v) (fun _ => v) (expands_const 0 v) ltac:(cbn; lra) ltac:(cbn; lia)).
      apply expands_at in X. cbn [run1 real1] in X. symmetry. exact X.
    - assert (F1 : imul (ipt (1 / kfact 1)%K) (ipow (g, g) 1) = (g, g)).
      { unfold ipow. cbn [Nat.even fst snd]. rewrite kpow_pow. unfold ipt. rewrite kfact_R. change (1 / INR (fact 1))%K with (1 / 1). change (@k1 R OpsR) with 1. rewrite imul_R.
        replace (1 / 1 * g ^ 1) with g by field. rewrite !Rmin_left, !Rmax_left by lra. auto. }
      match goal with |- snd (imul ?X ?Y) < 0 => replace X with (g, g) by (symmetry; exact F1); set (D := Y) end.
      assert (D1 : D = (Rmin (/ snd s) (/ fst s), Rmax (/ snd s) (/ fst s))).
      { change D with (imul ((1, 1) : ivl) (1 / snd s, 1 / fst s)). rewrite imul_R.
        replace (1 * (1 / snd s)) with (/ snd s) by (field; lra). replace (1 * (1 / fst s)) with (/ fst s) by (field; lra). rewrite (Rmin_left (Rmin _ _)), (Rmax_left (Rmax _ _)) by lra. auto. }
      rewrite D1. assert (I1 := Rinv_0_lt_compat _ S1). assert (I2 := Rinv_0_lt_compat (snd s) ltac:(lra)).
      assert (M1 : 0 < Rmin (/ snd s) (/ fst s)) by (apply Rmin_glb_lt; auto). assert (M2 := Rmax_l (/ snd s) (/ fst s)).
      set (m := Rmin _ _) in *. set (m' := Rmax _ _) in *. rewrite imul_R. cbn [snd]. repeat apply Rmax_lub_lt; nra.
  Qed.
  Lemma asin_wrong : exists (D : point -> Prop) A f T, represents D A f /\ simple A /\ m_rem A = (0, 0) /\ (forall x, D x -> -1 < f x < 1) /\
    tm_asin iter A = Ok T /\ ~ encloses D T (fun x => asin (f x)).
  Proof.
    destruct (asin_run (1 / 2) ltac:(lra)) as (T & E & F & C & N). exists everywhere, (cst (1 / 2) (0, 0)), (fun _ => 1 / 2), T.
    split; [apply exact_represents, exact_cst|]. split; [apply cst_simple|]. split; auto. split; [intros; lra|]. split; auto.
    apply (fails _ _ (at_x 0)). rewrite flat_value, C by auto. unfold within. intros [_ Q]. lra.
  Qed.
  Lemma acos_wrong : exists (D : point -> Prop) A f T, represents D A f /\ simple A /\ m_rem A = (0, 0) /\ (forall x, D x -> -1 < f x < 1) /\
    tm_acos iter A = Ok T /\ ~ encloses D T (fun x => acos (f x)).
  Proof.
    destruct (asin_run (1 / 2) ltac:(lra)) as (T & E & F & C & N).
    destruct (flat_make (gsub_sg (PI / 2) (m_tpol T)) (m_rem T)) as (Q & EQ & XQ & FQ).
    { apply valid_sub_sg, F. } { apply F. } { etransitivity; [exact (gsyms_gsub_sg (PI / 2) (m_tpol T))|apply F]. }
    exists everywhere, (cst (1 / 2) (0, 0)), (fun _ => 1 / 2), Q.
    split; [apply exact_represents, exact_cst|]. split; [apply cst_simple|]. split; auto. split; [intros; lra|]. split.
    - unfold tm_acos. rewrite E. cbn [rbind]. unfold tm_sub_sg. rewrite (flat_exp T F), (flat_domain T F). exact EQ.
    - apply (fails _ _ (at_x 0)). subst Q. cbn [m_tpol m_rem m_exp]. rewrite value_sub_sg by apply F. rewrite flat_value, C by auto.
      rewrite acos_asin by lra. unfold within. intros [_ X]. lra.
  Qed.
End Asin.
