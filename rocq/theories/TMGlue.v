(** * Statements about Taylor models in the form of the properties (proof file) *)
From Coq Require Import String List Arith Bool ZArith Reals Permutation Lra Lia.
From Verif Require Import Ops Syms SymsFacts Poly PolyFacts Gdual GdualFacts Functions FunStruct Spec CoefFacts CoreProofs CalcProofs ValueProofs MiscProofs ElemR FunAlg Uni UniFun Lagrange Interval TaylorModel TMFunctions SpecTM TMMaps TMArith TMMul TMTaylor TMBounds TMPow TMMisc TMSamples TMFlat TMRefute TMExact TMRefute2 TMRefute3 TMRefute4 TMClass TMInst.
Import ListNotations.
Local Open Scope string_scope.
Local Open Scope list_scope.
Local Open Scope R_scope.

(** ** The class invariant *)
Lemma well_formed_consistent t : well_formed t -> consistent t.
Proof.
  intros W. constructor.
  - intros s. rewrite (wf_exp_keys _ W), (wf_dom_keys _ W). tauto.
  - intros s c I H1 H2. assert (X := wf_inside _ W s c I H1 H2). unfold within in X. cbn. unfold Rltb. destruct (Rlt_dec c (fst I)); [lra|]. destruct (Rlt_dec (snd I) c); [lra|auto].
  - assert (V := wf_poly _ W). transitivity (length (map fst (m_domain t))); [rewrite map_length; auto|].
    transitivity (length (map undsym (psyms (gp (m_tpol t))))); [|apply map_length]. apply Permutation_length, NoDup_Permutation.
    + apply W.
    + apply (NoDup_symbol_set (m_tpol t)); auto. apply W.
    + intros s. rewrite (wf_dom_keys _ W). symmetry. apply (In_get_symbol_set (m_tpol t) s). apply W.
Qed.
Lemma set_exp_spoils : exists (t : taylor_model R) e t' x, well_formed t /\ distinct_keys e /\ set_exp e t = (t', Throw x) /\ ~ consistent t' /\
  (exists e', e' <> e /\ consistent t /\ set_exp e' t = (t, Ok tt)).
Proof.
  assert (W : well_formed (var 1 1 (0, 0) (0, 2))) by (apply wf_var; try lra; try lia; unfold within; cbn; lra).
  exists (var 1 1 (0, 0) (0, 2)), []. assert (S := set_exp_spec [] (var 1 1 (0, 0) (0, 2)) (NoDup_nil _) (wf_dom _ W) eq_refl).
  destruct (set_exp [] (var 1 1 (0, 0) (0, 2))) as [t' [[]|x]] eqn:E; unfold checks in S; cbn [fst snd] in S.
  - exfalso. injection E as <- _. destruct S as [S _ _]. apply (S "x"). left. auto.
  - exists t', x. split; auto. split; [constructor|]. split; auto. split; [apply S|].
    exists [("x", 1)]. split; [discriminate|]. split; [apply well_formed_consistent; auto|].
    assert (S' := set_exp_spec [("x", 1)] (var 1 1 (0, 0) (0, 2)) (wf_exp _ W) (wf_dom _ W) eq_refl).
    assert (Q : set_exp [("x", 1)] (var 1 1 (0, 0) (0, 2)) = (var 1 1 (0, 0) (0, 2), check_input_validity (var 1 1 (0, 0) (0, 2)))) by reflexivity.
    rewrite Q in *. destruct (check_input_validity _) as [[]|y]; auto. destruct S' as [_ S']. exfalso. apply S'. apply well_formed_consistent; auto.
Qed.
Lemma names_unchecked : exists (p : gdual R) r ex dom t, valid p /\ distinct_keys ex /\ distinct_keys dom /\ tm_make p r ex dom = Ok t /\ ~ well_formed t.
Proof.
  set (A := var 1 1 (0, 0) (0, 2)). assert (W : well_formed A) by (apply wf_var; try lra; try lia; unfold within; cbn; lra).
  assert (D1 : distinct_keys [("y", 1)]) by (constructor; [intros []|constructor]). assert (D2 : distinct_keys [("y", ((0, 2) : ivl))]) by (constructor; [intros []|constructor]).
  exists (m_tpol A), (0, 0), [("y", 1)], [("y", (0, 2))]. assert (S := make_spec (m_tpol A) (0, 0) [("y", 1)] [("y", (0, 2))] D1 D2).
  destruct (tm_make (m_tpol A) (0, 0) [("y", 1)] [("y", (0, 2))]) as [t|x].
  - exists t. split; [apply W|]. split; auto. split; auto. split; auto. destruct S as [-> _]. intros W'. assert (X := wf_exp_keys _ W' "y"). cbn in X.
    destruct X as [X _]. destruct X as [X|[]]; [auto|discriminate].
  - exfalso. destruct S as [_ S]. apply S. constructor.
    + intros s. cbn. tauto.
    + intros s c I [E|[]] [F|[]]. injection E as _ <-. injection F as _ <-. cbn. unfold Rltb. destruct (Rlt_dec 1 0); [lra|]. destruct (Rlt_dec 2 1); [lra|auto].
    + reflexivity.
Qed.
Lemma identity_spoils : exists (rem : ivl) ex dom, distinct_keys ex /\ distinct_keys dom /\ ~ consistent (tm_identity_with (K:=R) rem ex dom) /\
  (forall s, In s (map fst ex) <-> In s (map fst dom)) /\ (forall s c I, In (s, c) ex -> In (s, I) dom -> within I c).
Proof.
  exists (0, 0), [("x", 0)], [("x", (0, 1))]. split; [constructor; [intros []|constructor]|]. split; [constructor; [intros []|constructor]|]. split.
  - intros C. apply identity_consistent in C. destruct C as [C _]. discriminate.
  - split; [intros s; cbn; tauto|]. intros s c I [E|[]] [F|[]]. injection E as _ <-. injection F as _ <-. unfold within. cbn. lra.
Qed.
(** extend_symbol_set without an interval for a new variable leaves its
    expansion point behind *)
Lemma extend_spoils : exists (t : taylor_model R) l e d t' x, well_formed t /\ distinct_keys e /\ distinct_keys d /\ tm_extend_symbol_set l e d t = (t', Throw x) /\ ~ consistent t'.
Proof.
  exists (cst 1 (0, 0)), ["y"], [("y", 1)], []. eexists _, _. split; [apply wf_cst|]. split; [constructor; [intros []|constructor]|]. split; [constructor|].
  split; [reflexivity|]. intros [C _ _]. apply (C "y"). left. auto.
Qed.
Lemma extend_in e d l t (D : point -> Prop) f : distinct_keys e -> distinct_keys d -> represents D t f ->
  (forall x s I, D x -> In s l -> In (s, I) d -> within I (x s)) ->
  let fits := forall s c I, In s l -> ~ In s (map fst (m_exp t)) -> In (s, c) e -> In (s, I) d -> within I c in
  match tm_extend_symbol_set l e d t with
  | (t', Ok _) => represents D t' f /\ m_rem t' = m_rem t /\
                  (forall s, In s (map fst (m_domain t')) <-> In s (map fst (m_domain t)) \/ In s l) /\ fits /\
                  (forall s, In s l -> In s (map fst e) /\ In s (map fst d))
  | (t', Throw x) => (x = OtherException /\ exists s, In s l /\ (~ In s (map fst e) \/ ~ In s (map fst d))) \/
                     (x = InvalidArgument /\ ~ fits)
  end.
Proof.
  intros De Dd H1 H2 fits. assert (X := extend_cases e d l t D f H1).
  assert (F : new_ok e d l t <-> fits).
  { unfold new_ok, fits. split; intros H s c I Hs Hn Hc HI; apply (H s c I Hs Hn).
    - apply In_dfind; auto.
    - apply In_dfind; auto.
    - apply dfind_In; auto.
    - apply dfind_In; auto. }
  destruct (tm_extend_symbol_set l e d t) as [t' [u|y]]; rewrite F in X; apply X; intros x s I Dx Hs Hd; apply (H2 x s I); auto; apply dfind_In; auto.
Qed.

(** ** pow *)
Lemma pow_bounds iter A : well_formed A -> permutes iter -> ordered_on iter (variables A) -> (get_order (m_tpol A) <= 62)%nat -> exists F, f_bar_remainder_bounds iter A = Ok F.
Proof.
  intros W Hp Hi H62. assert (V := wf_poly _ W). assert (Wg := valid_gwf _ V). unfold f_bar_remainder_bounds.
  assert (Vb : valid (f_bar A)) by (apply valid_sub_gs; auto).
  assert (Sb : psyms (gp (f_bar A)) = psyms (gp (m_tpol A))) by exact (gsyms_gsub_gs (m_tpol A) _ Wg).
  assert (Ob : get_order (f_bar A) = get_order (m_tpol A)) by reflexivity.
  destruct (bounds_enclose iter (f_bar A) (m_exp A) (m_domain A)) as (b & E & B); auto.
  - unfold d_names. rewrite Sb. apply W.
  - rewrite Ob. lia.
  - intros t Ht. assert (X := valid_order _ Vb t Ht). fold (get_order (f_bar A)) in X. lia.
  - apply W.
  - apply W.
  - intros s Hs. assert (Hs' : In s (get_symbol_set (m_tpol A))) by (unfold get_symbol_set in *; rewrite Sb in Hs; exact Hs).
    apply In_get_symbol_set in Hs'; [|apply W]. rewrite (wf_exp_keys _ W), (wf_dom_keys _ W). auto.
  - unfold get_symbol_set. rewrite Sb. exact Hi.
  - rewrite E. cbn. eauto.
Qed.
Section Pow.
  Context {iv : IvFun R}.
  Variables (iter : list (string * ivl) -> list (string * ivl)) (A : taylor_model R) (D : point -> Prop) (f : point -> R).
  Hypothesis RA : represents D A f.
  Hypothesis Hp : permutes iter.
  Hypothesis Hi : ordered_on iter (variables A).
  Lemma real_pow_pos n : (1 <= get_order (m_tpol A) <= 31)%nat -> (1 <= n)%nat -> (n = 1%nat \/ nonzero (m_tpol A) /\ truncation_seen (m_tpol A) (m_tpol A)) ->
    (forall j P, (2 <= j < n)%nat -> tm_pow iter A (INR j) = Ok P -> nonzero (m_tpol P) /\ truncation_seen (m_tpol P) (m_tpol A)) ->
    exists T, tm_pow iter A (INR n) = Ok T /\ represents D T (fun x => f x ^ n).
  Proof.
    intros Ho Hn Nz H. destruct (pow_bounds iter A (proj1 RA) Hp Hi ltac:(lia)) as [F EF].
    assert (E : forall j, tm_pow iter A (INR j) = tm_pow_int iter A (Z.of_nat j)) by (intros; rewrite INR_IZR_INZ; apply (tm_pow_integer iter A F); auto).
    rewrite E. destruct (Nat.eq_dec n 1) as [->|N].
    - exists A. split; auto. split; [apply RA|]. intros x Hx. rewrite pow_1. apply RA; auto.
    - destruct Nz as [Nz|[Nz Ts]]; [contradiction|]. apply (tm_pow_pos_ok iter A D f RA Hp Hi Ho n ltac:(lia) Nz Ts). intros j P Hj. rewrite <- E. apply H; auto.
  Qed.
  Lemma real_pow_neg n r : (1 <= get_order (m_tpol A) <= 31)%nat -> (1 <= n)%nat -> simple A -> tm_pow iter A (- INR 1) = Ok r -> nonzero (m_tpol r) ->
    (forall j P, (1 <= j < n)%nat -> tm_pow iter A (- INR j) = Ok P -> nonzero (m_tpol P) /\ truncation_seen (m_tpol P) (m_tpol r)) ->
    exists T, tm_pow iter A (- INR n) = Ok T /\ represents D T (fun x => / f x ^ n).
  Proof.
    intros Ho Hn HA Er Nz H. destruct (pow_bounds iter A (proj1 RA) Hp Hi ltac:(lia)) as [F EF].
    assert (E : forall j, tm_pow iter A (- INR j) = tm_pow_int iter A (- Z.of_nat j)) by (intros; rewrite INR_IZR_INZ, <- opp_IZR; apply (tm_pow_integer iter A F); auto).
    rewrite E. rewrite E in Er.
    apply (tm_pow_neg_ok iter A D f RA Hp Hi Ho n r Hn HA); auto.
    intros j P Hj. rewrite <- E. apply H; auto.
  Qed.
  Lemma real_pow_zero : (get_order (m_tpol A) <= 62)%nat -> within (m_rem A) 0 -> exists T, tm_pow iter A 0 = Ok T /\ encloses D T (fun x => f x ^ 0).
  Proof.
    intros Ho H0. destruct (pow_bounds iter A (proj1 RA) Hp Hi Ho) as [F EF]. change 0 with (IZR 0). rewrite (tm_pow_integer iter A F) by auto.
    apply tm_pow_zero_encloses; auto.
  Qed.
  Lemma real_pow_half T : (get_order (m_tpol A) <= 17)%nat -> simple A -> iv_sound iv -> tm_pow iter A (1 / 2) = Ok T -> represents D T (fun x => sqrt (f x)).
  Proof.
    intros Ho HA Hv. destruct (pow_bounds iter A (proj1 RA) Hp Hi ltac:(lia)) as [F EF]. rewrite (tm_pow_half iter A F) by auto.
    intros E. apply (tm_sqrt_ok iter A D f RA ltac:(lia) HA Hp Hi Hv T Ho E).
  Qed.
  Lemma real_pow_mhalf T : (get_order (m_tpol A) <= 16)%nat -> simple A -> iv_sound iv -> within (m_rem A) 0 -> tm_pow iter A (- (1 / 2)) = Ok T -> represents D T (fun x => / sqrt (f x)).
  Proof.
    intros Ho HA Hv H0. destruct (pow_bounds iter A (proj1 RA) Hp Hi ltac:(lia)) as [F EF]. rewrite (tm_pow_mhalf iter A F) by auto.
    intros E. apply (tm_inv_sqrt_ok iter A D f RA ltac:(lia) HA Hp Hi Hv T Ho H0 E).
  Qed.
End Pow.

(** ** number / model *)
Lemma recip_scale A (D : point -> Prop) f v rho : represents D A f -> simple A -> constant_cf (m_tpol A) <> 0 -> value (gdiv_sg v (m_tpol A)) rho = v * value (gdiv_sg 1 (m_tpol A)) rho.
Proof.
  intros RA HA N. assert (V := wf_poly _ (proj1 RA)).
  assert (S := fun v => sto_div_sg _ _ v _ (sto_self _ (valid_gwf _ V) (proj2 (proj1 (valid_iff _) V)))).
  assert (X : forall v, value (gdiv_sg v (m_tpol A)) rho = usum (fun i => v * (inv_d i (constant_cf (m_tpol A)) / INR (fact i))) (gord (m_tpol A)) (value (m_tpol A) rho - constant_cf (m_tpol A))).
  { intros u. apply linear_value; auto; try apply S.
    - apply linear_degree, HA.
    - apply (gdiv_sg_psum A _ _ RA HA u N). }
  rewrite !X, !usum_scale. ring.
Qed.
Lemma div_sg_scaled iter A D f v T : represents D A f -> (Z.of_nat (get_order (m_tpol A)) < 4294967296)%Z -> simple A -> permutes iter -> ordered_on iter (variables A) ->
  v = 1 \/ (0 <= v <= 1 /\ within (m_rem T) 0) -> tm_div_sg iter v A = Ok T -> represents D T (fun x => v / f x).
Proof.
  intros RA Ho HA Hp Hi Hv E. assert (X : exists T1, tm_div_sg iter 1 A = Ok T1).
  { unfold tm_div_sg in *. destruct (tm_bounds iter A); cbn [rbind] in *; [|discriminate]. destruct (zero_in _); [discriminate|].
    destruct (f_bar_remainder_bounds iter A); cbn [rbind] in *; [|discriminate]. do 3 (destruct (idiv _ _); cbn [rbind] in *; [|discriminate]).
    assert (V := wf_poly _ (proj1 RA)).
    assert (S := sto_div_sg _ _ 1 _ (sto_self _ (valid_gwf _ V) (proj2 (proj1 (valid_iff _) V)))).
    destruct (same_make A (gdiv_sg 1 (m_tpol A)) (imul a2 a3) (proj1 RA)) as (T1 & ET & _).
    - eapply valid_sto; exact S.
    - exact (sto_sym _ _ _ S).
    - exists T1. exact ET. }
  destruct X as [T1 E1]. assert (R1 := tm_div_sg_ok iter A D f RA Ho HA Hp Hi T1 E1).
  destruct (div_sg_rem iter v A T1 E1 (proj1 RA)) as (T' & E' & Er & Et & Ee). rewrite E in E'. injection E' as <-.
  assert (N : constant_cf (m_tpol A) <> 0).
  { unfold tm_div_sg in E. destruct (tm_bounds iter A); cbn [rbind] in *; [|discriminate]. destruct (zero_in _); [discriminate|].
    destruct (f_bar_remainder_bounds iter A); cbn [rbind] in *; [|discriminate]. do 2 (destruct (idiv _ _) eqn:?; cbn [rbind] in *; [|discriminate]).
    match goal with H : idiv _ (ipt (constant_cf (m_tpol A))) = Ok _ |- _ => exact (idiv_nz _ _ _ _ H (within_ipt _)) end. }
  unfold tm_div_sg in E, E1. destruct (tm_bounds iter A); cbn [rbind] in *; [|discriminate]. destruct (zero_in _); [discriminate|].
  destruct (f_bar_remainder_bounds iter A); cbn [rbind] in *; [|discriminate]. do 3 (destruct (idiv _ _); cbn [rbind] in *; [|discriminate]).
  assert (F := make_fields _ _ _ _ _ E). assert (F1 := make_fields _ _ _ _ _ E1).
  assert (V := wf_poly _ (proj1 RA)).
  assert (S := sto_div_sg _ _ v _ (sto_self _ (valid_gwf _ V) (proj2 (proj1 (valid_iff _) V)))).
  destruct (same_make A (gdiv_sg v (m_tpol A)) (imul a2 a3) (proj1 RA)) as (T2 & ET & _ & W2).
  { eapply valid_sto; exact S. } { exact (sto_sym _ _ _ S). }
  assert (Q : Ok T2 = Ok T) by (rewrite <- ET; exact E). injection Q as ->. split; auto.
  intros x Hx. destruct (proj2 R1 x Hx) as [B1 V1]. rewrite F1 in B1, V1. rewrite F in Hv |- *. cbn [m_domain m_rem m_tpol m_exp] in *. split; auto.
  rewrite (recip_scale A D f) by auto.
  replace (v / f x - v * _) with (v * (/ f x - value (gdiv_sg 1 (m_tpol A)) (displacement (m_exp A) x))) by (unfold Rdiv; ring).
  destruct Hv as [->|[Hv H0]]; [rewrite Rmult_1_l; exact V1|]. apply within_scaled; auto.
Qed.


(** ** Sample facts *)
Lemma x_seen k : (1 <= k)%nat -> truncation_seen (m_tpol (var0 k 1 (0, 0) (-1, 1))) (m_tpol (var0 k 1 (0, 0) (-1, 1))).
Proof.
  intros Hk. assert (W : well_formed (var0 k 1 (0, 0) (-1, 1))) by (apply wf_var0; auto; unfold within; cbn; lra).
  assert (PC : forall W' k', NoDup W' -> length k' = length W' -> product_coef (m_tpol (var0 k 1 (0, 0) (-1, 1))) (m_tpol (var0 k 1 (0, 0) (-1, 1))) W' k' = coef (square 1) W' k').
  { intros. apply product_coef_value; auto; try apply W; [apply valid_square; lra|]. intros rho. cbn. ring. }
  destruct (Nat.eq_dec k 1) as [->|N].
  - right. exists ["dx"], [2%nat]. split; [repeat constructor; intros []|]. split; auto. split; [unfold list_sum; cbn; lia|].
    rewrite PC; auto; [|repeat constructor; intros []]. unfold coef. cbn. rewrite Rplus_0_r, Rabs_R1. lra.
  - left. intros W' k' HW Hl Hs. rewrite PC by auto. destruct (square_coef 1 W' k' HW Hl) as [E|[E L]]; auto. cbn in Hs. unfold list_sum in *. lia.
Qed.
Lemma same_centers_refl A : well_formed A -> same_centers A A.
Proof. intros W s c c' H H'. exact (distinct_In s c c' _ (wf_exp _ W) H H'). Qed.
Lemma close_domains_refl A : well_formed A -> close_domains A A.
Proof. intros W s I J H H'. rewrite (distinct_In s I J _ (wf_dom _ W) H H'). split; apply close_refl. Qed.
Lemma var_positive k c r I : 0 < fst I + fst r -> c <> 0 -> positive_model (var k c r I).
Proof.
  intros H Hc x Hx. rewrite var_value. assert (X := Hx "x" I (or_introl eq_refl)). unfold within in X. cbn [var m_rem]. lra.
Qed.
Lemma recip_nonzero iter k c I r : c <> 0 -> (1 <= k)%nat -> within I c -> tm_div_sg iter 1 (var k c (0, 0) I) = Ok r -> nonzero (m_tpol r).
Proof.
  intros Hc Hk Hi E. assert (RA : represents (on I) (var k c (0, 0) I) (fun x => x "x")) by (apply var_represents; auto; unfold within; cbn; lra).
  destruct (div_sg_rem iter 1 _ r E (proj1 RA)) as (T' & E' & _ & Et & _). rewrite E in E'. injection E' as <-. rewrite Et.
  set (A := var k c (0, 0) I) in *. assert (HA : simple A) by apply var_simple.
  assert (V := wf_poly _ (proj1 RA)). assert (C : constant_cf (m_tpol A) = c) by (rewrite <- (value_zero _ V); cbn; ring).
  assert (Hc' : constant_cf (m_tpol A) <> 0) by (rewrite C; auto). intros Z.
  assert (S := sto_div_sg _ _ 1 _ (sto_self _ (valid_gwf _ V) (proj2 (proj1 (valid_iff _) V)))).
  assert (X := linear_value (m_tpol A) (gdiv_sg 1 (m_tpol A)) (fun i => 1 * (inv_d i (constant_cf (m_tpol A)) / INR (fact i))) (fun _ => 0) V (sto_wf _ _ _ S) (sto_sym _ _ _ S) (sto_ord _ _ _ S) (linear_degree A (proj1 HA)) (gdiv_sg_psum A _ _ RA HA 1 Hc')).
  rewrite value_zero_terms in X by (intros N; apply N; exact Z). replace (value (m_tpol A) (fun _ => 0)) with (constant_cf (m_tpol A)) in X by (symmetry; exact (value_zero _ V)).
  rewrite Rminus_diag_eq, usum_at0, C in X by auto.
  unfold inv_d in X. cbn [fact pow INR] in X. assert (Y : 1 * (1 * 1 / (c * 1) / 1) = / c) by (field; auto). rewrite Y in X. apply (Rinv_neq_0_compat c Hc). auto.
Qed.

(** ** Double factorials *)
Lemma int64_small z : (-9223372036854775808 <= z < 9223372036854775808)%Z -> int64 z = z.
Proof. intros H. unfold int64. rewrite Z.mod_small by lia. lia. Qed.
Lemma dfact_pos n : (0 < dfact n)%Z.
Proof.
  assert (X : (0 < dfact n /\ 0 < dfact (S n))%Z); [|tauto]. induction n as [|n [I J]]; [cbn; lia|]. split; auto. rewrite dfact_SS. lia.
Qed.
Lemma factorial2_fits n : (dfact n < 9223372036854775808)%Z -> factorial2 (Z.of_nat n) = Ok (dfact n).
Proof. intros H. assert (P := dfact_pos n). rewrite factorial2_wraps, int64_small by lia. auto. Qed.
Lemma factorial2_fits_iff n : (dfact n < 9223372036854775808)%Z <-> (n <= 33)%nat.
Proof.
  split.
  - intros H. apply factorial2_exact. apply factorial2_fits. auto.
  - intros H. apply factorial2_exact in H. rewrite factorial2_wraps in H. injection H as H. assert (X := int64_range (dfact n)). lia.
Qed.
Lemma double_factorial (n : nat) : ((dfact n < 9223372036854775808)%Z -> factorial2 (Z.of_nat n) = Ok (dfact n)) /\
  ((dfact n < 9223372036854775808)%Z <-> (n <= 33)%nat) /\
  factorial2 (-1) = Ok 1%Z /\ (forall m : Z, (m < -1)%Z -> factorial2 m = Throw InvalidArgument).
Proof. split; [apply factorial2_fits|]. split; [apply factorial2_fits_iff|]. split; [apply factorial2_minus_one|apply factorial2_throws]. Qed.
Lemma double_factorial_wraps (n : nat) : exists z, factorial2 (Z.of_nat n) = Ok z /\ (-9223372036854775808 <= z < 9223372036854775808)%Z /\
  (z mod 18446744073709551616 = dfact n mod 18446744073709551616)%Z.
Proof. exists (int64 (dfact n)). split; [apply factorial2_wraps|]. split; [apply int64_range|apply int64_mod]. Qed.
Lemma unsigned_fits (n : nat) : (Z.of_nat n < 2147483648)%Z -> (dfact n < 9223372036854775808)%Z -> factorial2_u (Z.of_nat n) = dfact n.
Proof. intros H F. assert (P := dfact_pos n). rewrite factorial2_unsigned, int64_small by lia. auto. Qed.

(** ** Bundles *)
Lemma make_iff (K : Type) (o : Ops K) (p : gdual K) (r : K * K) ex dom : distinct_keys ex -> distinct_keys dom ->
  let t := mkTM p (get_order p) (length (psyms (gp p))) r ex dom in
  (consistent t -> tm_make p r ex dom = Ok t) /\ (~ consistent t -> tm_make p r ex dom = Throw InvalidArgument).
Proof.
  intros A B t. assert (X := make_spec p r ex dom A B). change (mkTM _ _ _ _ _ _) with t in X. destruct (tm_make p r ex dom) as [t'|x].
  - destruct X as [-> C]. split; auto. intros N. contradiction.
  - destruct X as [-> C]. split; auto. intros N. contradiction.
Qed.
Lemma setters (K : Type) (o : Ops K) (t : taylor_model K) p e d :
  distinct_keys (m_exp t) -> distinct_keys (m_domain t) -> m_ndim t = length (psyms (gp (m_tpol t))) -> distinct_keys e -> distinct_keys d ->
  Forall (fun after : taylor_model K * res unit =>
            match snd after with Ok _ => consistent (fst after) | Throw x => x = InvalidArgument /\ ~ consistent (fst after) end)
         [set_tpol p t; set_exp e t; set_dom d t] /\
  m_tpol (fst (set_tpol p t)) = p /\ m_exp (fst (set_exp e t)) = e /\ m_domain (fst (set_dom d t)) = d /\
  m_order (fst (set_tpol p t)) = get_order p.
Proof.
  intros A B C D E. split; [|repeat split].
  constructor; [exact (set_tpol_spec p t A B)|]. constructor; [exact (set_exp_spec e t D B C)|]. constructor; [exact (set_dom_spec d t A E C)|]. constructor.
Qed.
Lemma add_scalars (A : taylor_model R) (D : point -> Prop) f c : represents D A f ->
  (exists T, tm_add_sg c A = Ok T /\ represents D T (fun x => c + f x)) /\
  (exists T, tm_add_gs A c = Ok T /\ represents D T (fun x => f x + c)) /\
  (exists T, tm_sub_gs A c = Ok T /\ represents D T (fun x => f x - c)).
Proof. intros H. split; [apply tm_add_sg_ok; auto|]. split; [apply tm_add_gs_ok; auto|apply tm_sub_gs_ok; auto]. Qed.
Lemma add_intervals (A : taylor_model R) (D : point -> Prop) f (I : R * R) (h : point -> R) : represents D A f -> (forall x, D x -> within I (h x)) ->
  (exists T, tm_add_ig I A = Ok T /\ represents D T (fun x => h x + f x)) /\
  (exists T, tm_add_gi A I = Ok T /\ represents D T (fun x => f x + h x)) /\
  (exists T, tm_sub_gi A I = Ok T /\ represents D T (fun x => f x - h x)).
Proof. intros H H'. split; [apply tm_add_ig_ok; auto|]. split; [apply tm_add_gi_ok; auto|apply tm_sub_gi_ok; auto]. Qed.
Lemma negations (A : taylor_model R) (D : point -> Prop) f c : represents D A f -> fst (m_rem A) = - snd (m_rem A) ->
  (exists T, tm_sub_sg c A = Ok T /\ represents D T (fun x => c - f x)) /\ (exists T, tm_neg A = Ok T /\ represents D T (fun x => - f x)).
Proof. intros H E. split; [apply tm_sub_sg_ok; auto|apply tm_neg_ok; auto]. Qed.
Lemma mul_scalars (A : taylor_model R) (D : point -> Prop) f c : represents D A f ->
  (exists T, tm_mul_sg c A = Ok T /\ represents D T (fun x => c * f x)) /\ (exists T, tm_mul_gs A c = Ok T /\ represents D T (fun x => f x * c)).
Proof. intros H. split; [apply tm_mul_sg_ok; auto|apply tm_mul_gs_ok; auto]. Qed.
Lemma mul_polynomial (iter : list (string * ivl) -> list (string * ivl)) (A B : taylor_model R) : well_formed A -> well_formed B -> same_centers A B -> close_domains A B ->
  nonzero (m_tpol A) -> nonzero (m_tpol B) -> (1 <= get_order (m_tpol A) + get_order (m_tpol B) <= 62)%nat ->
  permutes iter -> ordered_on iter (variables A ++ variables B) ->
  exists T, tm_mul iter A B = Ok T /\ well_formed T /\ get_order (m_tpol T) = Nat.max (get_order (m_tpol A)) (get_order (m_tpol B)) /\
    forall W k, NoDup W -> length k = length W ->
      coef (m_tpol T) W k = if (list_sum k <=? Nat.max (get_order (m_tpol A)) (get_order (m_tpol B)))%nat then product_coef (m_tpol A) (m_tpol B) W k else 0.
Proof.
  intros WA WB SC CD NA NB Ho Hp Hi. destruct (tm_mul_run iter A B WA WB SC CD NA NB Ho Hp Hi) as (T & _ & _ & _ & E & W & [O _ _ _ C] & _). exists T. auto.
Qed.
Lemma mul_intervals (iter : list (string * ivl) -> list (string * ivl)) (I : ivl) A : well_formed A ->
  (psyms (gp (m_tpol A)) <> [] -> tm_mul_ig iter I A = Throw InvalidArgument) /\
  (length (psyms (gp (m_tpol A))) <> 1%nat -> tm_mul_gi iter A I = Throw InvalidArgument).
Proof. intros W. split; intros H; [apply mul_ig_throws; auto|apply mul_gi_throws; auto]. Qed.
Lemma div_intervals (iter : list (string * ivl) -> list (string * ivl)) (I : ivl) A : well_formed A ->
  (psyms (gp (m_tpol A)) <> [] -> tm_div_ig iter I A = Throw InvalidArgument) /\
  (length (psyms (gp (m_tpol A))) <> 1%nat -> tm_div_gi iter A I = Throw InvalidArgument).
Proof. intros W. split; intros H; [apply div_ig_throws; auto|apply div_gi_throws; auto]. Qed.
Lemma div_number (A : taylor_model R) (D : point -> Prop) f c : represents D A f -> c <> 0 -> exists T, tm_div_gs A c = Ok T /\ represents D T (fun x => f x / c).
Proof. intros H N. apply tm_div_gs_ok; auto. Qed.
Lemma eqb_refl_sym a b : well_formed a -> well_formed b -> tm_eqb a a = true /\ tm_eqb a b = tm_eqb b a.
Proof. intros H H'. split; [apply tm_eqb_refl; auto|apply tm_eqb_sym; auto]. Qed.
Lemma pairs (K : Type) (o : Ops K) (e : Elem K) (iv : IvFun K) (iter : list (string * (K * K)) -> list (string * (K * K))) (t : taylor_model K) s c :
  (tm_sin_and_cos iter t = Ok (s, c) <-> tm_sin iter t = Ok s /\ tm_cos iter t = Ok c) /\
  (tm_sinh_and_cosh iter t = Ok (s, c) <-> tm_sinh iter t = Ok s /\ tm_cosh iter t = Ok c).
Proof.
  rewrite sin_and_cos_pair, sinh_and_cosh_pair. split.
  - destruct (tm_sin iter t), (tm_cos iter t); cbn [rbind]; split; intros H; try discriminate; try (destruct H; discriminate).
    + injection H as -> ->. auto.
    + destruct H as [H H']. injection H as ->. injection H' as ->. auto.
  - destruct (tm_sinh iter t), (tm_cosh iter t); cbn [rbind]; split; intros H; try discriminate; try (destruct H; discriminate).
    + injection H as -> ->. auto.
    + destruct H as [H H']. injection H as ->. injection H' as ->. auto.
Qed.
Section Bundles.
  Context {iv : IvFun R}.
  Variable iter : list (string * ivl) -> list (string * ivl).
  Lemma high_orders n : permutes iter -> (169 < Z.of_nat n)%Z -> (Z.of_nat n < 4294967296)%Z -> exists (D : point -> Prop) A f,
    represents D A f /\ simple A /\ positive_model A /\ D (fun _ => 0) /\ get_order (m_tpol A) = n /\
    tm_exp iter A = Throw OtherException /\ tm_sin iter A = Throw OtherException /\ tm_cos iter A = Throw OtherException /\
    tm_sinh iter A = Throw OtherException /\ tm_cosh iter A = Throw OtherException /\
    tm_sin_and_cos iter A = Throw OtherException /\ tm_sinh_and_cosh iter A = Throw OtherException /\
    tm_sqrt iter A = Throw OtherException /\ tm_inv_sqrt iter A = Throw OtherException.
  Proof.
    intros Hp H1 H2. set (A := mkTM (mkG (mkPoly [] [([], 1)]) n : gdual R) n 0 (0, 0) [] []).
    assert (W : well_formed A).
    { constructor; cbn; auto; try constructor; try tauto; cbn; try tauto; try constructor.
      - intros t [<-|[]]. auto.
      - tauto.
      - constructor.
      - intros t [<-|[]]. cbn. unfold Reqb. destruct (Req_EM_T _ _); [lra|auto].
      - intros t [<-|[]]. cbn. lia. }
    assert (L : linear A) by (intros u [<-|[]]; cbn; lia).
    assert (Oi : ordered_on iter (variables A)) by (apply no_vars; auto).
    assert (V : forall rho, value (m_tpol A) rho = 1) by (intros; cbn; lra).
    assert (P : positive_model A) by (intros x _; rewrite V; cbn; lra).
    destruct (f_bar_exact iter A W) as (lo & hi & x & y & E & _); auto.
    exists everywhere, A, (fun _ => 1). split; [split; auto; intros z _; split; [intros ? ? []|rewrite V; unfold within; cbn; lra]|].
    split; [split; auto|]. split; auto. split; [exact I|]. split; auto.
    unfold tm_exp, tm_sin, tm_cos, tm_sinh, tm_cosh, tm_sin_and_cos, tm_sinh_and_cosh. rewrite E. cbn [rbind]. rewrite !factorial_fits_gt by exact H1.
    repeat (split; [reflexivity|]). apply tm_sqrt_high; auto. unfold within. cbn. lra.
  Qed.
  Lemma entire_functions (A : taylor_model R) (D : point -> Prop) f : represents D A f -> simple A ->
    (Z.of_nat (get_order (m_tpol A)) <= 169)%Z -> permutes iter -> ordered_on iter (variables A) -> iv_sound iv ->
    (exists T, tm_exp iter A = Ok T /\ represents D T (fun x => exp (f x))) /\
    (exists T, tm_sin iter A = Ok T /\ represents D T (fun x => sin (f x))) /\
    (exists T, tm_cos iter A = Ok T /\ represents D T (fun x => cos (f x))) /\
    (exists T, tm_sinh iter A = Ok T /\ represents D T (fun x => sinh (f x))) /\
    (exists T, tm_cosh iter A = Ok T /\ represents D T (fun x => cosh (f x))).
  Proof.
    intros RA HA Ho Hp Hi Hv. assert (Ho' : (Z.of_nat (get_order (m_tpol A)) < 4294967296)%Z) by lia.
    split; [apply (tm_exp_ok iter A D f RA); auto|]. split; [apply (tm_sin_ok iter A D f RA); auto|]. split; [apply (tm_cos_ok iter A D f RA); auto|].
    split; [apply (tm_sinh_ok iter A D f RA); auto|apply (tm_cosh_ok iter A D f RA); auto].
  Qed.
  Lemma log_sqrt (A : taylor_model R) (D : point -> Prop) f T : represents D A f -> simple A ->
    (Z.of_nat (get_order (m_tpol A)) < 4294967296)%Z -> permutes iter -> ordered_on iter (variables A) -> iv_sound iv ->
    (tm_log iter A = Ok T -> represents D T (fun x => ln (f x))) /\
    ((get_order (m_tpol A) <= 17)%nat -> tm_sqrt iter A = Ok T -> represents D T (fun x => sqrt (f x))).
  Proof. intros RA HA Ho Hp Hi Hv. split; [apply (tm_log_ok iter A D f RA); auto|intros Hk E; apply (tm_sqrt_ok iter A D f RA Ho HA Hp Hi Hv T); auto]. Qed.
  Lemma roots_defined (A : taylor_model R) : well_formed A -> (Z.of_nat (get_order (m_tpol A)) < 4294967296)%Z -> linear A ->
    permutes iter -> ordered_on iter (variables A) -> within (m_rem A) 0 -> (forall I, 0 < fst I -> fst I <= snd I -> 0 < fst (i_sqrt I)) -> positive_model A ->
    (exists T, tm_log iter A = Ok T) /\
    ((Z.of_nat (get_order (m_tpol A)) <= 169)%Z -> (exists T, tm_sqrt iter A = Ok T) /\ (exists T, tm_inv_sqrt iter A = Ok T)).
  Proof.
    intros W Ho HL Hp Hi H0 Hs P. split; [apply tm_log_defined; auto|]. intros Hk. split; [apply tm_sqrt_defined; auto|apply tm_inv_sqrt_defined; auto].
  Qed.
  Lemma acosh_atanh v : permutes iter -> tm_acosh iter (cst v (0, 0)) = Throw RuntimeError /\ (v <> 1 -> tm_atanh iter (cst v (0, 0)) = Throw OtherException).
  Proof. intros Hp. split; [apply acosh_throws; auto|]. intros N. apply (exact_atanh iter Hp v); auto. apply exact_cst. Qed.
  Lemma pow_dispatch (A : taylor_model R) F : f_bar_remainder_bounds iter A = Ok F -> forall n : Z,
    tm_pow iter A (IZR n) = tm_pow_int iter A n /\
    (n <> 0%Z -> n <> (-1)%Z -> tm_pow iter A (IZR n + 1 / 2) = rbind (tm_pow_int iter A (2 * n + 1)) (tm_sqrt iter)).
  Proof. intros E n. split; [apply (tm_pow_integer iter A F); auto|]. intros. apply (tm_pow_half_integer iter A F); auto. Qed.
End Bundles.
Lemma recip_case : exists (D : point -> Prop) A f T, represents D A f /\ simple A /\ (Z.of_nat (get_order (m_tpol A)) < 4294967296)%Z /\ permutes in_order /\
  ordered_on in_order (variables A) /\ within (m_rem A) 0 /\ positive_model A /\ tm_div_sg in_order 1 A = Ok T /\ nonzero (m_tpol T) /\ D (at_x 1).
Proof.
  set (A := var 3 2 (0, 0) (1, 3)). assert (RA : represents (on (1, 3)) A (fun x => x "x")) by (apply var_represents; try lra; try lia; unfold within; cbn; lra).
  assert (P : positive_model A) by (apply var_positive; cbn; lra).
  destruct (tm_recip_defined in_order A (proj1 RA)) as [T E]; auto.
  - cbn. lia.
  - apply var_simple.
  - apply in_order_permutes.
  - apply in_order_ordered.
  - unfold within. cbn. lra.
  - exists (on (1, 3)), A, (fun x => x "x"), T. split; auto. split; [apply var_simple|]. split; [cbn; lia|]. split; [apply in_order_permutes|]. split; [apply in_order_ordered|].
    split; [unfold within; cbn; lra|]. split; auto. split; auto. split; [|unfold on, within, at_x; cbn; lra].
    apply (recip_nonzero in_order 3 2 (1, 3) T); auto; try lra; try lia. unfold within; cbn; lra.
Qed.
Lemma pow_case : exists (D : point -> Prop) A f F, represents D A f /\ f_bar_remainder_bounds in_order A = Ok F /\ (1 <= get_order (m_tpol A) <= 31)%nat /\
  nonzero (m_tpol A) /\ truncation_seen (m_tpol A) (m_tpol A) /\ permutes in_order /\ ordered_on in_order (variables A) /\ D (at_x 1) /\
  iv_sound iv_std /\ 0 < fst (i_sqrt (IvFun:=iv_std) (1, 125 / 64)) /\ snd (i_sqrt (IvFun:=iv_std) (1, 125 / 64)) <= 2.
Proof.
  set (A := var0 1 1 (0, 0) (-1, 1)). assert (RA : represents (on (-1, 1)) A (fun x => 1 * x "x")) by (apply var0_represents; try lra; try lia; unfold within; cbn; lra).
  destruct (pow_bounds in_order A (proj1 RA)) as [F E]; [apply in_order_permutes|apply in_order_ordered|cbn; lia|].
  exists (on (-1, 1)), A, (fun x => 1 * x "x"), F. split; auto. split; auto. split; [cbn; lia|]. split; [discriminate|]. split; [apply x_seen; lia|].
  split; [apply in_order_permutes|]. split; [apply in_order_ordered|]. split; [unfold on, within, at_x; cbn; lra|]. split; [apply iv_std_sound|].
  split; [apply iv_std_sqrt; cbn; lra|apply iv_std_sqrt2].
Qed.
Lemma fun_case : exists (D : point -> Prop) A f, represents D A f /\ simple A /\ (Z.of_nat (get_order (m_tpol A)) <= 169)%Z /\ (1 <= get_order (m_tpol A) <= 17)%nat /\
  permutes in_order /\ ordered_on in_order (variables A) /\ iv_sound iv_std /\ (forall I, 0 < fst I -> fst I <= snd I -> 0 < fst (i_sqrt (IvFun:=iv_std) I)) /\
  snd (i_exp (IvFun:=iv_std) (-1, 1)) <= 20 /\ within (m_rem A) 0 /\ positive_model A /\ D (at_x 1) /\ psyms (gp (m_tpol A)) <> [].
Proof.
  set (A := var 3 2 (0, 0) (1, 3)). assert (RA : represents (on (1, 3)) A (fun x => x "x")) by (apply var_represents; try lra; try lia; unfold within; cbn; lra).
  exists (on (1, 3)), A, (fun x => x "x"). split; auto. split; [apply var_simple|]. split; [cbn; lia|]. split; [cbn; lia|]. split; [apply in_order_permutes|]. split; [apply in_order_ordered|].
  split; [apply iv_std_sound|]. split; [apply iv_std_sqrt|]. split; [apply iv_std_exp|]. split; [unfold within; cbn; lra|]. split; [apply var_positive; cbn; lra|].
  split; [unfold on, within, at_x; cbn; lra|discriminate].
Qed.
