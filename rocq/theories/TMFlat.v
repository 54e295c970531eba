(** * Models without variables of order 0: what multiplication makes of them (proof file) *)
From Coq Require Import String List Arith Bool ZArith Reals Permutation Lra Lia.
From Verif Require Import Ops Syms SymsFacts Poly PolyFacts Gdual GdualFacts Functions FunStruct Spec CoefFacts CoreProofs CalcProofs ValueProofs MiscProofs ElemR FunAlg Interval TaylorModel TMFunctions SpecTM TMMaps TMArith TMMul TMTaylor TMBounds TMPow TMMisc TMSamples.
Import ListNotations.
Local Open Scope string_scope.
Local Open Scope list_scope.
Local Open Scope R_scope.

Record flat (t : taylor_model R) : Prop := mkFlat {
  fl_wf : well_formed t; fl_order : get_order (m_tpol t) = 0%nat; fl_syms : psyms (gp (m_tpol t)) = [] }.
Lemma flat_cst v r : flat (cst v r).
Proof. constructor; [apply wf_cst|reflexivity|reflexivity]. Qed.
Lemma no_keys {V} (m : list (string * V)) : (forall s, ~ In s (map fst m)) -> m = [].
Proof. destruct m as [|[s v] m]; auto. intros H. exfalso. apply (H s). left. auto. Qed.
Lemma flat_exp t : flat t -> m_exp t = [].
Proof. intros [W _ S]. apply no_keys. intros s H. apply (wf_exp_keys _ W) in H. rewrite S in H. destruct H. Qed.
Lemma flat_domain t : flat t -> m_domain t = [].
Proof. intros [W _ S]. apply no_keys. intros s H. apply (wf_dom_keys _ W) in H. rewrite S in H. destruct H. Qed.
Lemma flat_linear t : flat t -> linear t.
Proof.
  intros [W _ S] u Hu. assert (L := valid_length _ (wf_poly _ W) u Hu). rewrite S in L. destruct (fst u); [cbn; lia|discriminate].
Qed.
Lemma flat_simple t : flat t -> simple t.
Proof. intros F. split; [apply flat_linear; auto|left; apply F]. Qed.
Lemma flat_value t rho : flat t -> value (m_tpol t) rho = constant_cf (m_tpol t).
Proof.
  intros [W _ S]. rewrite <- (value_zero _ (wf_poly _ W)). apply value_ext. intros s Hs. rewrite S in Hs. destruct Hs.
Qed.
Lemma no_vars iter : permutes iter -> ordered_on iter [].
Proof.
  intros Hp box Nb Ib. destruct box as [|b l]; [|exfalso; apply (Ib (fst b)); left; auto].
  assert (X := Permutation_length (Hp [])). destruct (iter []); [reflexivity|discriminate].
Qed.
Lemma flat_variables t : flat t -> variables t = [].
Proof. intros F. unfold variables. rewrite (fl_syms _ F). reflexivity. Qed.
Lemma flat_bounds iter t : permutes iter -> flat t -> tm_bounds iter t = Ok (constant_cf (m_tpol t), constant_cf (m_tpol t)).
Proof.
  intros Hp F. destruct (tm_bounds_exact iter t) as (lo & hi & x & y & E & _ & _ & Vx & Vy); auto.
  - apply F.
  - rewrite (fl_order _ F). lia.
  - apply flat_linear; auto.
  - rewrite (flat_variables t F). apply no_vars; auto.
  - rewrite flat_value in Vx, Vy by auto. subst. auto.
Qed.
Lemma flat_f_bar iter t : permutes iter -> flat t -> f_bar_remainder_bounds iter t = Ok (m_rem t).
Proof.
  intros Hp F. destruct (f_bar_exact iter t) as (lo & hi & x & y & E & _ & _ & Vx & Vy); auto.
  - apply F.
  - rewrite (fl_order _ F). lia.
  - apply flat_linear; auto.
  - rewrite (flat_variables t F). apply no_vars; auto.
  - rewrite flat_value in Vx, Vy by auto. rewrite E. f_equal. unfold iadd. cbn [fst snd]. rewrite (surjective_pairing (m_rem t)) at 3.
    f_equal; cbn; lra.
Qed.
Lemma flat_make (p : gdual R) r : valid p -> get_order p = 0%nat -> psyms (gp p) = [] ->
  exists T, tm_make p r [] [] = Ok T /\ T = mkTM p (get_order p) (get_symbol_set_size p) r [] [] /\ flat T.
Proof.
  intros V O S. destruct (same_make (cst 0 r) p r (wf_cst 0 r) V S) as (T & E & ET & WT). exists T. split; auto. split; auto.
  subst T. constructor; auto.
Qed.

(** ** Products *)
Lemma add_term_zero : add_term [] (0 : R) [] = [].
Proof. unfold add_term. cbn. unfold Reqb. destruct (Req_EM_T 0 0); [reflexivity|congruence]. Qed.
Lemma temp_zero : gvar (0 : R) "temp" 0 = Ok (mkG (mkPoly ["dtemp"] []) 0).
Proof.
  unfold gvar. change (check_order 0) with (Ok tt). change (check_var_name "temp") with (Ok tt). cbn [rbind Nat.eqb].
  unfold pconst. rewrite add_term_zero. reflexivity.
Qed.
Lemma filter_none {V} (l : list V) : filter (fun _ => false) l = [].
Proof. induction l; auto. Qed.
Lemma increased_zero (p : gdual R) : get_increased_order p 0 = Ok (mkG (mkPoly [] []) 0).
Proof.
  unfold get_increased_order. change (@k0 R OpsR) with 0. rewrite temp_zero. cbn [rbind]. f_equal. unfold gsubs, ptrim. cbn. rewrite filter_none.
  reflexivity.
Qed.
Definition zero_gdual : gdual R := mkG (mkPoly [] []) 0.
Lemma zero_product : gmul zero_gdual zero_gdual = zero_gdual.
Proof. reflexivity. Qed.
Lemma const_zero_gdual : gconst (0 : R) = zero_gdual.
Proof. unfold gconst, pconst. rewrite add_term_zero. reflexivity. Qed.
Lemma zero_agreeable : agreeable zero_gdual 0 = Ok zero_gdual.
Proof. unfold agreeable. change (@k0 R OpsR) with 0. rewrite const_zero_gdual. reflexivity. Qed.
Lemma zero_is_zero : gis_zero zero_gdual (tol_zero : R) = true.
Proof. reflexivity. Qed.
Lemma flat_zero r : flat (mkTM zero_gdual 0 0 r [] []).
Proof. rewrite <- const_zero_gdual. apply (flat_cst 0 r). Qed.
Lemma flat_mul_run iter A B : permutes iter -> flat A -> flat B -> nonzero (m_tpol A) -> nonzero (m_tpol B) ->
  let a := constant_cf (m_tpol A) in let b := constant_cf (m_tpol B) in
  tm_mul iter A B = Ok (mkTM zero_gdual 0 0
    (iadd (iadd (iadd (0, 0) (imul (a, a) (m_rem B))) (imul (m_rem A) (b, b))) (imul (m_rem A) (m_rem B))) [] []).
Proof.
  intros Hp FA FB NA NB a b. unfold tm_mul.
  destruct (zero_check (m_tpol A)) as (z & Ez & Z1); [apply FA|]. destruct (zero_check (m_tpol B)) as (z' & Ez' & Z2); [apply FB|].
  change (@k0 R OpsR) with 0. rewrite Ez. rewrite Ez in Ez'. injection Ez' as <-. cbn [rbind].
  destruct (geqb (m_tpol A) z); [exfalso; apply NA, Z1; auto|]. destruct (geqb (m_tpol B) z); [exfalso; apply NB, Z2; auto|]. cbn [orb].
  unfold common_exp, common_domain. rewrite (flat_exp A FA), (flat_exp B FB), (flat_domain A FA), (flat_domain B FB).
  rewrite (fl_order A FA), (fl_order B FB). change (uadd 0 0) with 0%nat. rewrite !increased_zero.
  change (get_common_map scalar_equal [] []) with (Ok (@nil (string * R))). change (get_common_map interval_equal [] []) with (Ok (@nil (string * ivl))).
  cbn [rbind]. fold zero_gdual. rewrite zero_product. change (Nat.max 0 0) with 0%nat. rewrite zero_agreeable. cbn [rbind].
  change (get_symbol_set zero_gdual) with (@nil string). unfold trim_map. cbn [fold_left rbind]. unfold truncation_bounds.
  change (gis_zero (gsub zero_gdual zero_gdual) tol_zero) with true. cbn [rbind]. rewrite !flat_bounds by auto. cbn [rbind].
  reflexivity.
Qed.
Lemma imul_zero_l I : imul (0, 0) I = (0, 0).
Proof. unfold imul. cbn [fst snd]. rewrite !kmin_Rmin, !kmax_Rmax. cbn. rewrite !Rmult_0_l. rewrite !Rmin_left, !Rmax_left by lra. reflexivity. Qed.
Lemma imul_zero_r I : imul I (0, 0) = (0, 0).
Proof. unfold imul. cbn [fst snd]. rewrite !kmin_Rmin, !kmax_Rmax. cbn. rewrite !Rmult_0_r. rewrite !Rmin_left, !Rmax_left by lra. reflexivity. Qed.
Lemma iadd_zero : iadd ((0, 0) : ivl) (0, 0) = (0, 0).
Proof. unfold iadd. cbn. f_equal; lra. Qed.
Lemma flat_mul_exact iter A B : permutes iter -> flat A -> flat B -> m_rem A = (0, 0) -> m_rem B = (0, 0) ->
  tm_mul iter A B = Ok (tm_const 0).
Proof.
  intros Hp FA FB RA RB. destruct (pterms (gp (m_tpol A))) as [|ta la] eqn:EA.
  { apply tm_mul_zero; [apply FA|apply FB|]. left. intros N. apply N. auto. }
  destruct (pterms (gp (m_tpol B))) as [|tb lb] eqn:EB.
  { apply tm_mul_zero; [apply FA|apply FB|]. right. intros N. apply N. auto. }
  rewrite flat_mul_run; auto; [|intros C; rewrite C in EA; discriminate|intros C; rewrite C in EB; discriminate].
  rewrite RA, RB, !imul_zero_l, !imul_zero_r, !iadd_zero. f_equal. unfold tm_const. change (@k0 R OpsR) with 0. rewrite const_zero_gdual. reflexivity.
Qed.
