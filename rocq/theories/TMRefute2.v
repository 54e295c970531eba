(** * More models on which the functions of audi are wrong (proof file) *)
From Coq Require Import String List Arith Bool ZArith Reals Permutation Lra Lia.
From Verif Require Import Ops Syms SymsFacts Poly PolyFacts Gdual GdualFacts Functions FunStruct Spec SpecTaylor CoefFacts CoreProofs CalcProofs ValueProofs MiscProofs ElemR FunAlg TayProofs Uni UniFun Interval TaylorModel TMFunctions SpecTM TMMaps TMArith TMMul Lagrange TMTaylor TMBounds TMPow TMMisc TMSamples TMFlat TMRefute TMExact.
Import ListNotations.
Local Open Scope string_scope.
Local Open Scope list_scope.
Local Open Scope R_scope.

Lemma imul_R (a b c d : R) : imul (a, b) (c, d) = (Rmin (Rmin (a * c) (a * d)) (Rmin (b * c) (b * d)), Rmax (Rmax (a * c) (a * d)) (Rmax (b * c) (b * d))).
Proof. unfold imul. cbn [fst snd]. rewrite !kmin_Rmin, !kmax_Rmax. reflexivity. Qed.
Lemma imul_below I J m : fst I * fst J <= m -> fst I * snd J <= m -> snd I * fst J <= m -> snd I * snd J <= m -> snd (imul I J) <= m.
Proof. unfold imul. cbn [fst snd]. rewrite !kmax_Rmax. intros. apply Rmax_lub; apply Rmax_lub; auto. Qed.
(** ** number / model: the remainder does not depend on the number *)
Lemma div_sg_rem iter v A T1 : tm_div_sg iter 1 A = Ok T1 -> well_formed A -> exists T, tm_div_sg iter v A = Ok T /\ m_rem T = m_rem T1 /\ m_tpol T = gdiv_sg v (m_tpol A) /\
  m_exp T = m_exp A.
Proof.
  unfold tm_div_sg. intros E W. destruct (tm_bounds iter A); cbn [rbind] in *; [|discriminate]. destruct (zero_in _); [discriminate|].
  destruct (f_bar_remainder_bounds iter A); cbn [rbind] in *; [|discriminate]. do 3 (destruct (idiv _ _); cbn [rbind] in *; [|discriminate]).
  assert (V := wf_poly _ W).
  assert (S := sto_div_sg _ _ v _ (sto_self _ (valid_gwf _ V) (proj2 (proj1 (valid_iff _) V)))).
  destruct (same_make A (gdiv_sg v (m_tpol A)) (imul a2 a3) W) as (T & ET & -> & _).
  - eapply valid_sto; exact S.
  - exact (sto_sym _ _ _ S).
  - exists (mkTM (gdiv_sg v (m_tpol A)) (get_order (gdiv_sg v (m_tpol A))) (get_symbol_set_size (gdiv_sg v (m_tpol A))) (imul a2 a3) (m_exp A) (m_domain A)).
    split; auto. apply make_fields in E. subst T1. auto.
Qed.
Lemma recip_value A v rho : flat A -> constant_cf (m_tpol A) <> 0 -> value (gdiv_sg v (m_tpol A)) rho = v / constant_cf (m_tpol A).
Proof.
  intros F N. assert (V := wf_poly _ (fl_wf _ F)).
  assert (S := sto_div_sg _ _ v _ (sto_self _ (valid_gwf _ V) (proj2 (proj1 (valid_iff _) V)))).
  assert (RA : represents (fun _ => False) A (fun _ => 0)) by (split; [apply F|intros x []]).
  rewrite (linear_value (m_tpol A) (gdiv_sg v (m_tpol A)) (fun i => v * (inv_d i (constant_cf (m_tpol A)) / INR (fact i)))); auto.
  - assert (O := fl_order _ F). unfold get_order in O. rewrite O, usum_0. unfold inv_d. cbn. field. auto.
  - apply S.
  - apply S.
  - apply S.
  - apply linear_degree, flat_linear; auto.
  - apply (gdiv_sg_psum A _ _ RA (flat_simple A F) v N).
Qed.
Lemma div_sg_wrong iter : permutes iter -> exists (D : point -> Prop) A f v T, represents D A f /\ simple A /\ (forall x, D x -> f x <> 0) /\
  tm_div_sg iter v A = Ok T /\ ~ encloses D T (fun x => v / f x).
Proof.
  intros Hp. set (A := cst 2 (-1, 1)). destruct (tm_recip_defined iter A) as [T1 E1]; auto.
  - apply wf_cst.
  - cbn. lia.
  - apply cst_linear.
  - rewrite (flat_variables A (flat_cst _ _)). apply no_vars; auto.
  - unfold within. cbn. lra.
  - left. intros x _. unfold A. cbn [cst m_tpol m_exp m_rem]. rewrite value_const. cbn. lra.
  - set (v := 2 * (Rabs (snd (m_rem T1)) + 1)). destruct (div_sg_rem iter v A T1 E1 (wf_cst _ _)) as (T & E & R & P & X).
    exists everywhere, A, (fun _ => 1), v, T. split; [apply cst_represents; intros; unfold within; cbn; lra|]. split; [apply cst_simple|]. split; [intros; lra|].
    split; auto. apply (fails _ _ (at_x 0)). rewrite R, P, recip_value; [|apply flat_cst|unfold A; rewrite cst_cf; lra]. unfold A. rewrite cst_cf. unfold within. cbn.
    intros [_ Q]. assert (Y := Rle_abs (snd (m_rem T1))). unfold v in Q. lra.
Qed.

(** ** exp of a model with a remainder, at an order above 0 *)
Lemma exp_wrong {iv : IvFun R} iter : permutes iter -> iv_sound iv -> snd (i_exp (-1, 1)) <= 20 -> exists (D : point -> Prop) A f T, represents D A f /\
  tm_exp iter A = Ok T /\ ~ encloses D T (fun x => exp (f x)).
Proof.
  intros Hp Hiv Hu. set (A := mkTM (mkG (mkPoly [] []) 3 : gdual R) 3 0 (-1, 1) [] []).
  assert (W : well_formed A).
  { constructor; cbn; auto; try constructor; try tauto; cbn; try tauto; try constructor. }
  assert (L : linear A) by (intros u []).
  assert (Oi : ordered_on iter (variables A)) by (apply no_vars; auto).
  assert (VA : forall rho, value (m_tpol A) rho = 0) by (intros; reflexivity).
  assert (C : constant_cf (m_tpol A) = 0) by (rewrite <- (value_zero _ (wf_poly _ W)); apply VA).
  assert (EF : f_bar_remainder_bounds iter A = Ok (-1, 1)).
  { destruct (f_bar_exact iter A W) as (lo & hi & x & y & E & _ & _ & Vx & Vy); auto; [cbn; lia|]. rewrite VA in Vx, Vy. rewrite E. f_equal. unfold iadd, A. cbn [fst snd m_rem].
    f_equal; cbn; rewrite C in *; lra. }
  set (r := imul (imul (ipt (e_exp (constant_cf (m_tpol A)) * (k1 / kfact (3 + 1)))%K) (ipow (-1, 1) (3 + 1))) (i_exp (imul (-1, 1) unit_interval))).
  assert (V := wf_poly _ W). assert (S := sto_exp _ _ _ (sto_self _ (valid_gwf _ V) (proj2 (proj1 (valid_iff _) V)))).
  destruct (same_make A (gexp (m_tpol A)) r W) as (T & ET & XT & _).
  { eapply valid_sto; exact S. } { exact (sto_sym _ _ _ S). }
  exists everywhere, A, (fun _ => 1), T. split.
  - split; auto. intros x _. split; [intros ? ? []|]. rewrite VA. unfold within. cbn. lra.
  - split; [unfold tm_exp; rewrite EF; exact ET|]. apply (fails _ _ (at_x 0)). subst T. cbn [m_rem m_tpol m_exp].
    rewrite (linear_value (m_tpol A) (gexp (m_tpol A)) (fun i => exp_d i (constant_cf (m_tpol A)) / INR (fact i))); auto; try apply S.
    2:{ rewrite (gexp_psum idR (gord (m_tpol A)) (m_tpol A) (valid_gwf _ V) (le_n _)).
        rewrite (psum_ext _ (fun i => exp_d i (constant_cf (m_tpol A)) / INR (fact i))); [reflexivity|]. intros i _. rewrite kfct_R. reflexivity. }
    rewrite VA, C. replace (0 - 0) with 0 by ring. change (gord (m_tpol A)) with 3%nat. rewrite !usum_S, usum_0. unfold exp_d. rewrite exp_0. cbn [pow fact].
    change (INR 1) with 1. intros [_ Q]. assert (E1 : 2 < exp 1) by (assert (X := exp_ineq1 1 ltac:(lra)); lra).
    assert (J : imul (-1, 1) unit_interval = (-1, 1)).
    { unfold unit_interval. change (@k0 R OpsR) with 0. change (@k1 R OpsR) with 1. rewrite imul_R.
      replace (-1 * 0) with 0 by ring. replace (-1 * 1) with (-1) by ring. replace (1 * 0) with 0 by ring. replace (1 * 1) with 1 by ring.
      rewrite (Rmin_right 0 (-1)), (Rmin_left 0 1), (Rmin_left (-1) 0), (Rmax_left 0 (-1)), (Rmax_right 0 1), (Rmax_right 0 1) by lra. auto. }
    assert (P : ipow (-1, 1) (3 + 1) = (0, 1)).
    { unfold ipow. cbn [Nat.even Nat.add fst snd]. replace (-1 <? k0)%K with true by (symmetry; apply Rltb_true; cbn; lra).
      replace (@kltb R OpsR k0 1) with true by (symmetry; apply Rltb_true; cbn; lra). cbn [negb]. rewrite kmax_Rmax. rewrite (kpow_pow (-1) 4). rewrite (kpow_pow 1 4).
      replace ((-1) ^ 4) with 1 by ring. replace (1 ^ 4) with 1 by ring. rewrite Rmax_left by lra. auto. }
    unfold r in Q. rewrite J, P, C in Q. change (@e_exp R ElemR 0) with (exp 0) in Q. rewrite exp_0, kfact_R in Q.
    assert (S1 := proj1 (s_exp _ Hiv (-1, 1) 0 ltac:(unfold within; cbn; lra))). rewrite exp_0 in S1. set (U := i_exp (-1, 1)) in *. clearbody U.
    assert (I1 : imul (ipt ((1 * (k1 / INR (fact (3 + 1))))%K : R)) (0, 1) = (0, / 24)).
    { assert (F24 : INR (fact (3 + 1)) = 24) by (cbn; lra). rewrite F24. unfold ipt. change (1 * (k1 / 24))%K with (1 * (1 / 24)). rewrite imul_R.
      replace (1 * (1 / 24) * 0) with 0 by ring. replace (1 * (1 / 24) * 1) with (/ 24) by field.
      rewrite (Rmin_left 0 (/ 24)), (Rmax_right 0 (/ 24)), Rmin_left, Rmax_left by lra. auto. }
    match type of Q with _ <= snd (imul ?X U) => assert (I2 : X = (0, / 24)) by exact I1; rewrite I2 in Q end.
    assert (B : snd (imul (0, / 24) U) <= 1).
    { apply imul_below; cbn [fst snd]; lra. }
    lra.
Qed.
