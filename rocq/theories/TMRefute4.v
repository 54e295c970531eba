(** * Products and powers of a variable, roots, constructors (proof file) *)
From Coq Require Import String List Arith Bool ZArith Reals Permutation Lra Lia.
From Verif Require Import Ops Syms SymsFacts Poly PolyFacts Gdual GdualFacts Functions FunStruct Spec CoefFacts CoreProofs CalcProofs ValueProofs MiscProofs ElemR FunAlg Uni UniFun Interval TaylorModel TMFunctions SpecTM TMMaps TMArith TMMul TMTaylor Lagrange TMBounds TMPow TMMisc TMSamples TMFlat TMRefute TMExact TMRefute2 TMRefute3.
Import ListNotations.
Local Open Scope string_scope.
Local Open Scope list_scope.
Local Open Scope R_scope.

Lemma valid_raise (g : gdual R) n : valid g -> (gord g <= n)%nat -> valid (mkG (gp g) n).
Proof. intros [A B C D E] H. constructor; cbn [gp gord]; auto. intros t Ht. specialize (E t Ht). lia. Qed.
(** the coefficients of the product of two polynomials, without truncation *)
Lemma product_coef_value (a b q : gdual R) W k : valid a -> valid b -> valid q -> (forall rho, value q rho = value a rho * value b rho) ->
  NoDup W -> length k = length W -> product_coef a b W k = coef q W k.
Proof.
  intros Va Vb Vq E HW Hk. set (n := (gord a + gord b + list_sum k)%nat).
  assert (Va' : valid (mkG (gp a) n)) by (apply valid_raise; auto; unfold n; lia). assert (Vb' : valid (mkG (gp b) n)) by (apply valid_raise; auto; unfold n; lia).
  change (product_coef a b W k) with (product_coef (mkG (gp a) n) (mkG (gp b) n) W k). unfold product_coef.
  assert (L : (list_sum k <= Nat.max (gord (mkG (gp a) n)) (gord (mkG (gp b) n)))%nat) by (cbn [gord]; unfold n; lia).
  rewrite <- (coef_mul (mkG (gp a) n) (mkG (gp b) n) W k (valid_gwf _ Va') (valid_gwf _ Vb') HW Hk L).
  apply (value_coef _ _ W k (valid_gwf _ (valid_mul _ _ Va' Vb')) (valid_gwf _ Vq)); auto.
  intros rho. rewrite E. change (value a rho) with (value (mkG (gp a) n) rho). change (value b rho) with (value (mkG (gp b) n) rho).
  rewrite (value_mul (mkG (gp a) n) (mkG (gp b) n) rho Va' Vb'); [reflexivity|]. cbn [gord]. assert (X := gdegree_le a (valid_gwf a Va)). assert (Y := gdegree_le b (valid_gwf b Vb)).
  change (gdegree (mkG (gp a) n)) with (gdegree a). change (gdegree (mkG (gp b) n)) with (gdegree b). unfold n. lia.
Qed.

(** the polynomial a dx^2 *)
Definition square (a : R) : gdual R := mkG (mkPoly ["dx"] [([2%nat], a)]) 2.
Lemma valid_square a : a <> 0 -> valid (square a).
Proof.
  intros Ha. constructor; cbn [square gp psyms pterms gord].
  - constructor; constructor.
  - intros t [<-|[]]; reflexivity.
  - constructor; [intros []|constructor].
  - intros t [<-|[]]; apply nz; auto.
  - intros t [<-|[]]; unfold list_sum; cbn; lia.
Qed.
Lemma square_value a rho : value (square a) rho = a * (rho "dx" * rho "dx").
Proof. cbn. ring. Qed.
Lemma square_coef a W k : NoDup W -> length k = length W -> coef (square a) W k = 0 \/ (coef (square a) W k = a /\ list_sum k = 2%nat).
Proof.
  intros HW Hk. unfold coef. cbn [square gp psyms pterms fold_right fst snd]. destruct (same_mono ["dx"] [2%nat] W k) eqn:E; [right|left; cbn; ring].
  split; [cbn; ring|]. rewrite list_sum_kdeg. symmetry. apply (kdeg_same ["dx"] [2%nat] W k); auto; [repeat constructor; intros []|].
  apply same_mono_spec. auto.
Qed.

(** ** The product of two multiples of a variable, at order 1 *)
Section Square.
  Variable iter : list (string * ivl) -> list (string * ivl).
  Hypothesis Hp : permutes iter.
  Variables (A B : taylor_model R) (a b : R) (I : ivl).
  Hypothesis Hi : ordered_on iter ["x"].
  Hypothesis WA : well_formed A.
  Hypothesis WB : well_formed B.
  Hypothesis EA : forall rho, value (m_tpol A) rho = a * rho "dx".
  Hypothesis EB : forall rho, value (m_tpol B) rho = b * rho "dx".
  Hypothesis Na : a <> 0.
  Hypothesis Nb : b <> 0.
  Hypothesis SA : psyms (gp (m_tpol A)) = ["dx"].
  Hypothesis SB : psyms (gp (m_tpol B)) = ["dx"].
  Hypothesis OA : get_order (m_tpol A) = 1%nat.
  Hypothesis OB : get_order (m_tpol B) = 1%nat.
  Hypothesis XA : m_exp A = [("x", 0)].
  Hypothesis XB : m_exp B = [("x", 0)].
  Hypothesis DA : m_domain A = [("x", I)].
  Hypothesis DB : m_domain B = [("x", I)].
  Lemma square_run : exists T, tm_mul iter A B = Ok T /\ well_formed T /\ ~ nonzero (m_tpol T) /\
    (m_rem A = (0, 0) -> m_rem B = (0, 0) -> Rabs (a * b) <= 1 / 10000000000000000 -> m_rem T = (0, 0)).
  Proof.
    assert (Vq : valid (square (a * b))) by (apply valid_square; nra).
    assert (Eq : forall rho, value (square (a * b)) rho = value (m_tpol A) rho * value (m_tpol B) rho) by (intros rho; rewrite square_value, EA, EB; ring).
    assert (PC : forall W k, NoDup W -> length k = length W -> product_coef (m_tpol A) (m_tpol B) W k = coef (square (a * b)) W k).
    { intros. apply product_coef_value; auto; apply wf_poly; auto. }
    assert (NA : nonzero (m_tpol A)).
    { intros C. assert (X := EA (fun _ => 1)). unfold value in X. rewrite C in X. cbn in X. lra. }
    assert (NB : nonzero (m_tpol B)).
    { intros C. assert (X := EB (fun _ => 1)). unfold value in X. rewrite C in X. cbn in X. lra. }
    destruct (tm_mul_run iter A B) as (T & be & b1 & b2 & ET & WT & PT & RT & TB & _); auto.
    - intros s c c'. rewrite XA, XB. intros [E|[]] [F|[]]. congruence.
    - intros s J J'. rewrite DA, DB. intros [E|[]] [F|[]]. replace J' with J by congruence. split; apply close_refl.
    - rewrite OA, OB. lia.
    - unfold variables. rewrite SA, SB. apply (ordered_incl _ _ ["x"]); auto. intros s [<-|[<-|[]]]; left; reflexivity.
    - exists T. split; auto. split; auto. split.
      + intros N. destruct (pterms (gp (m_tpol T))) as [|t l] eqn:Et; [apply N; auto|]. assert (Vt := wf_poly _ WT).
        assert (It : In t (pterms (gp (m_tpol T)))) by (rewrite Et; left; auto). assert (C := coef_own (m_tpol T) t (valid_gwf _ Vt) It).
        assert (NW : NoDup (gsyms (m_tpol T))) by exact (ssorted_NoDup _ (gsyms_sorted _ (valid_gwf _ Vt))).
        assert (LW := valid_length _ Vt t It). assert (L := valid_order _ Vt t It). fold (get_order (m_tpol T)) in L. rewrite (po_order _ _ _ PT), OA, OB in L. cbn in L.
        rewrite (po_coef _ _ _ PT), PC in C by auto. assert (Z := valid_nonzero _ Vt t It).
        destruct (square_coef (a * b) (gsyms (m_tpol T)) (fst t) NW LW) as [E|[_ E]].
        * rewrite E in C. assert (snd t = 0) by (destruct (Nat.leb _ _); auto). rewrite H in Z. cbn in Z. unfold Reqb in Z. destruct (Req_EM_T 0 0); congruence.
        * unfold list_sum in *. lia.
      + intros RA RB Hs. assert (TS : truncation_small A B).
        { intros W k HW Hk _. rewrite PC by auto. destruct (square_coef (a * b) W k HW Hk) as [->|[-> _]]; auto. rewrite Rabs_R0. lra. }
        destruct TB as [[_ ->]|[X _]]; [|contradiction]. rewrite RT, RA, RB, imul_zero_l, imul_zero_r, imul_zero_l. rewrite !iadd_zero. auto.
  Qed.
End Square.

Lemma x_square iter a : permutes iter -> ordered_on iter ["x"] -> a <> 0 -> exists T, tm_mul iter (var0 1 a (0, 0) (-1, 1)) (var0 1 a (0, 0) (-1, 1)) = Ok T /\
  well_formed T /\ ~ nonzero (m_tpol T) /\ (Rabs (a * a) <= 1 / 10000000000000000 -> m_rem T = (0, 0)).
Proof.
  intros Hp Hi Ha. assert (W : well_formed (var0 1 a (0, 0) (-1, 1))) by (apply wf_var0; auto; unfold within; cbn; lra).
  destruct (square_run iter Hp (var0 1 a (0, 0) (-1, 1)) (var0 1 a (0, 0) (-1, 1)) a a (-1, 1)) as (T & E & WT & Z & R); auto.
  - intros rho. cbn. ring.
  - intros rho. cbn. ring.
  - exists T. auto.
Qed.
(** 10^-9 x squared is 0 on [-1, 1] *)
Lemma mul_tolerance_wrong iter : permutes iter -> ordered_on iter ["x"] -> exists (D : point -> Prop) A f T, represents D A f /\
  nonzero (m_tpol A) /\ (1 <= get_order (m_tpol A))%nat /\ m_rem A = (0, 0) /\ tm_mul iter A A = Ok T /\ ~ encloses D T (fun x => f x * f x).
Proof.
  intros Hp Hi. set (a := 1 / 1000000000). destruct (x_square iter a Hp Hi ltac:(unfold a; lra)) as (T & E & WT & Z & R).
  exists (on (-1, 1)), (var0 1 a (0, 0) (-1, 1)), (fun x => a * x "x"), T.
  split; [apply var0_represents; try lia; unfold within, a; cbn; lra|]. split; [discriminate|]. split; [cbn; lia|]. split; auto. split; auto.
  intros H. destruct (H (at_x 1)) as [_ X]; [unfold on, within, at_x; cbn; lra|].
  rewrite R in X by (rewrite Rabs_pos_eq; unfold a; lra). rewrite value_zero_terms in X by auto. unfold within, a, at_x in X. cbn in X. lra.
Qed.
(** the cube of x is 0 on [-1, 1], at order 1 *)
Lemma cube_wrong iter : permutes iter -> ordered_on iter ["x"] -> exists (D : point -> Prop) A f T, represents D A f /\
  nonzero (m_tpol A) /\ (1 <= get_order (m_tpol A))%nat /\ m_rem A = (0, 0) /\ truncation_seen (m_tpol A) (m_tpol A) /\
  tm_pow_int iter A 3 = Ok T /\ ~ encloses D T (fun x => f x ^ 3).
Proof.
  intros Hp Hi. set (A := var0 1 1 (0, 0) (-1, 1)). assert (RA : represents (on (-1, 1)) A (fun x => 1 * x "x")) by (apply var0_represents; try lia; unfold within; cbn; lra).
  exists (on (-1, 1)), A, (fun x => 1 * x "x"), (tm_const 0).
  split; auto. split; [discriminate|]. split; [cbn; lia|]. split; auto. split; [|split].
  - right. exists ["dx"], [2%nat]. split; [repeat constructor; intros []|]. split; auto. split; [unfold list_sum; cbn; lia|].
    rewrite (product_coef_value _ _ (square 1)); try apply RA; auto; [|apply valid_square; lra|intros rho; cbn; ring|repeat constructor; intros []].
    unfold coef. cbn. rewrite Rplus_0_r, Rabs_R1. lra.
  - unfold tm_pow_int. cbn [Z.eqb Z.ltb Z.compare Pos.compare Pos.compare_cont]. change (Z.to_nat 3 - 1)%nat with 2%nat. cbn [seq fold_left].
    destruct (tm_mul_sg_ok A (on (-1, 1)) _ RA 1) as (M & EM & RM). change (@k1 R OpsR) with 1. rewrite EM. cbn [rbind].
    assert (X := make_fields _ _ _ _ _ EM).
    destruct (square_run iter Hp M A 1 1 (-1, 1) Hi) as (T & E & WT & Z & _); try lra; try apply RM; try apply RA; try (rewrite X; reflexivity); try reflexivity.
    + intros rho. rewrite X. cbn [m_tpol]. rewrite value_mul_sg by apply RA. cbn. ring.
    + intros rho. cbn. ring.
    + rewrite E. cbn [rbind]. apply tm_mul_zero; auto. apply RA.
  - intros H. destruct (H (at_x 1)) as [_ X]; [unfold on, within, at_x; cbn; lra|].
    cbn [tm_const m_rem m_tpol m_exp] in X. rewrite value_const in X. unfold within, at_x in X. cbn in X. lra.
Qed.

(** ** pow(A, -1/2) of a model whose remainder does not contain 0 *)
Lemma inv_sqrt_value (g : gdual R) : valid g -> (gdegree g <= 1)%nat -> get_order g = 0%nat -> 0 < constant_cf g ->
  forall rho, value (gpow_real g (- (1 / kofZ 2))%K) rho = / sqrt (constant_cf g).
Proof.
  intros V H1 O P rho. assert (Wg := valid_gwf _ V). assert (S := sto_pow_real _ _ _ (- (1 / kofZ 2))%K (sto_self _ Wg (proj2 (proj1 (valid_iff _) V)))).
  rewrite (linear_value g _ (fun i => iroot_d i (constant_cf g) / INR (fact i)) _ V (sto_wf _ _ _ S) (sto_sym _ _ _ S) (sto_ord _ _ _ S) H1).
  2:{ rewrite pow_mhalf_series, (gpow_series_psum (fun x : R => x) (gord g) g _ Wg (le_n _)).
      rewrite (psum_ext _ (fun i => iroot_d i (constant_cf g) / INR (fact i))); [reflexivity|]. intros i _. unfold powc. toR.
      change (@e_pow R ElemR) with rpow. rewrite rpow_mhalf by auto. rewrite gbin_iroot. unfold iroot_d, sqrt_d, Rdiv. ring. }
  unfold get_order in O. rewrite O, usum_0. unfold iroot_d, sqrt_d. change (root_c 1) with (1 * (1 / 2 - INR 0)). cbn [fact INR pow].
  assert (S2 : sqrt (constant_cf g) * sqrt (constant_cf g) = constant_cf g) by (apply sqrt_sqrt; lra). assert (S1 := sqrt_lt_R0 _ P).
  generalize dependent (sqrt (constant_cf g)). intros r S2 S1. rewrite <- S2. field. lra.
Qed.
Lemma inv_sqrt_wrong {iv : IvFun R} iter : permutes iter -> iv_sound iv -> 0 < fst (i_sqrt (1, 125 / 64)) -> snd (i_sqrt (1, 125 / 64)) <= 2 ->
  exists (D : point -> Prop) A f T, represents D A f /\ simple A /\ (forall x, D x -> 0 < f x) /\ tm_inv_sqrt iter A = Ok T /\ ~ encloses D T (fun x => / sqrt (f x)).
Proof.
  intros Hp Hiv P1 P2. set (A := cst 4 (1, 1)). assert (F : flat A) by apply flat_cst.
  assert (C : constant_cf (m_tpol A) = 4) by apply cst_cf.
  assert (D4 : forall I : ivl, idiv I (ipt 4) = Ok (imul I (1 / 4, 1 / 4))).
  { intros I. unfold idiv. replace (zero_in (ipt 4)) with false; [reflexivity|]. symmetry. apply not_true_iff_false. rewrite zero_in_spec. unfold within. cbn. lra. }
  assert (M1 : forall a b, imul ((a, a) : ivl) (b, b) = (a * b, a * b)).
  { intros a b. rewrite imul_R, !Rmin_left, !Rmax_left by lra. auto. }
  set (S := i_sqrt (1, 125 / 64)) in *.
  assert (ER : root_denominator (1, 1) 4 3 = Ok S).
  { unfold root_denominator. rewrite D4. cbn [rbind]. rewrite M1. f_equal. unfold S. f_equal. unfold unit_interval. change (@k0 R OpsR) with 0. change (@k1 R OpsR) with 1. rewrite imul_R.
    rewrite (Rmin_left (1 * (1 / 4) * 0)), (Rmin_left (1 * (1 / 4) * 0)), (Rmax_right (1 * (1 / 4) * 0)), (Rmax_left (1 * (1 / 4) * 1)) by lra.
    unfold ipow. cbn [Nat.even]. unfold iadd, ipt. cbn [fst snd]. rewrite !kpow_pow. f_equal; cbn; lra. }
  assert (ZS : zero_in S = false) by (apply not_true_iff_false; rewrite zero_in_spec; unfold within; lra).
  assert (E : exists rem T, tm_inv_sqrt iter A = Ok T /\ m_rem T = rem /\ m_tpol T = gpow_real (m_tpol A) (- (1 / kofZ 2))%K /\ m_exp T = [] /\ snd rem <= - (1 / 8)).
  { unfold tm_inv_sqrt. rewrite (flat_f_bar iter A Hp F), (flat_bounds iter A Hp F), C. cbn [rbind].
    replace (iabove _ _) with true. 2:{ unfold iabove. cbn. unfold Rltb. destruct (Rlt_dec _ _); auto. exfalso; lra. }
    cbn [negb]. change (get_order (m_tpol A)) with 0%nat. change (m_rem A) with ((1, 1) : ivl). 
    change (2 * 0 + 3)%nat with 3%nat. rewrite ER. cbn [rbind].
    set (s := (_ * _)%K).
    assert (Es : s = -1).
    { unfold s. rewrite (factorial2_odf_next 0) by lia. toR. rewrite kfact_R. change (@e_pow R ElemR) with rpow. replace (- (1 / 2)) with (- (1 / 2) - INR 0) by (cbn; lra).
      rewrite rpow_mhalf by lra. replace (sqrt 4) with 2 by (replace 4 with (2 * 2) by lra; symmetry; apply sqrt_square; lra). cbn. lra. }
    replace (ipow (1, 1) (0 + 1)) with ((1, 1) : ivl). 2:{ unfold ipow. cbn [Nat.even Nat.add fst snd]. rewrite !kpow_pow. cbn [pow]. f_equal; ring. }
    replace (kpow 4 (0 + 1)) with 4. 2:{ rewrite kpow_pow. cbn. ring. }
    rewrite D4. cbn [rbind]. rewrite Es. unfold ipt. rewrite !M1. change (@k1 R OpsR) with 1. unfold idiv. rewrite ZS. cbn [rbind].
    assert (Sr := sto_pow_real _ _ _ (- (1 / kofZ 2))%K (sto_self _ (valid_gwf _ (wf_poly _ (fl_wf _ F))) (proj2 (proj1 (valid_iff _) (wf_poly _ (fl_wf _ F)))))).
    destruct (same_make A (gpow_real (m_tpol A) (- (1 / kofZ 2))%K) (imul (-1 * 1 * (1 / 4) * 1, -1 * 1 * (1 / 4) * 1) ((1 / snd S)%K, (1 / fst S)%K))) as (T & ET & XT & _).
    { apply F. } { eapply valid_sto; exact Sr. } { exact (sto_sym _ _ _ Sr). }
    eexists _, T. split; [unfold trimmed, get_symbol_set; replace (psyms _) with (@nil string) by (symmetry; exact (sto_sym _ _ _ Sr)); exact ET|]. subst T. split; [reflexivity|]. split; [reflexivity|]. split; [reflexivity|].
    assert (Y := s_sqrt _ Hiv (1, 125 / 64) 1 ltac:(lra)). rewrite sqrt_1 in Y. unfold within in Y. fold S in Y. cbn [fst snd] in Y. specialize (Y ltac:(lra)).
    assert (1 / 2 <= / snd S) by (replace (1 / 2) with (/ 2) by lra; apply Rinv_le_contravar; lra).
    assert (/ snd S <= / fst S) by (apply Rinv_le_contravar; lra).
    apply imul_below; cbn; unfold Rdiv; lra. }
  destruct E as (rem & T & E & Er & Et & Ee & Eb).
  exists everywhere, A, (fun _ => 5), T. split; [apply cst_represents; intros; unfold within; cbn; lra|]. split; [apply cst_simple|]. split; [intros; lra|].
  split; auto. apply (fails _ _ (at_x 0)). rewrite Er, Et, inv_sqrt_value; [|apply F|apply linear_degree, flat_linear; auto|apply F|lra].
  rewrite C. intros [_ Q]. revert Q Eb. replace (sqrt 4) with 2 by (replace 4 with (2 * 2) by lra; symmetry; apply sqrt_square; lra).
  assert (X : / (5 / 2) < / sqrt 5).
  { apply Rinv_lt_contravar; [apply Rmult_lt_0_compat; [apply sqrt_lt_R0; lra|lra]|]. rewrite <- (sqrt_square (5 / 2)) by lra. apply sqrt_lt_1; lra. }
  intros. lra.
Qed.
