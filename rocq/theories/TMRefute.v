(** * Taylor models on which the operations of audi are wrong (proof file) *)
From Coq Require Import String List Arith Bool ZArith Reals Permutation Lra Lia.
From Verif Require Import Ops Syms SymsFacts Poly PolyFacts Gdual GdualFacts Functions FunStruct Spec CoefFacts CoreProofs CalcProofs ValueProofs MiscProofs ElemR FunAlg Interval TaylorModel TMFunctions SpecTM TMMaps TMArith TMMul TMTaylor TMBounds TMPow TMMisc TMSamples TMFlat.
Import ListNotations.
Local Open Scope string_scope.
Local Open Scope list_scope.
Local Open Scope R_scope.

Definition everywhere : point -> Prop := fun _ => True.
Lemma fails t (f : point -> R) x : ~ within (m_rem t) (f x - value (m_tpol t) (displacement (m_exp t) x)) -> ~ encloses everywhere t f.
Proof. intros H E. apply H. apply E. exact I. Qed.
Lemma cst_make v (p : gdual R) r : valid p -> psyms (gp p) = [] ->
  tm_make p r (m_exp (cst v r)) (m_domain (cst v r)) = Ok (mkTM p (get_order p) (get_symbol_set_size p) r [] []).
Proof. intros V S. destruct (same_make (cst v r) p r (wf_cst v r) V S) as (T & E & -> & _). exact E. Qed.
Lemma cst_make' (p : gdual R) r : valid p -> psyms (gp p) = [] -> tm_make p r [] [] = Ok (mkTM p (get_order p) (get_symbol_set_size p) r [] []).
Proof. exact (cst_make 0 p r). Qed.

(** ** Subtraction *)
Lemma sub_sg_wrong c : exists (D : point -> Prop) A f T, represents D A f /\ tm_sub_sg c A = Ok T /\ ~ encloses D T (fun x => c - f x).
Proof.
  exists everywhere, (cst 1 (0, 1)), (fun _ => 2). eexists. split; [apply cst_represents; intros; unfold within; cbn; lra|]. split.
  - unfold tm_sub_sg. cbn [cst m_tpol m_rem m_exp m_domain]. apply cst_make'; [apply valid_sub_sg, valid_const|exact (gsyms_gsub_sg c (gconst 1))].
  - apply (fails _ _ (at_x 0)). cbn [m_rem m_tpol m_exp]. rewrite value_sub_sg, value_const by apply valid_const. unfold within. cbn. lra.
Qed.
Lemma neg_wrong : exists (D : point -> Prop) A f T, represents D A f /\ tm_neg A = Ok T /\ ~ encloses D T (fun x => - f x).
Proof.
  destruct (sub_sg_wrong 0) as (D & A & f & T & R & E & N). exists D, A, f, T. split; auto. split; auto. intros H. apply N.
  intros x Hx. destruct (H x Hx). split; auto. replace (0 - f x) with (- f x) by ring. auto.
Qed.
Lemma sub_ig_wrong : exists (D : point -> Prop) A f I (h : point -> R) T, represents D A f /\ (forall x, D x -> within I (h x)) /\
  tm_sub_ig I A = Ok T /\ ~ encloses D T (fun x => h x - f x).
Proof.
  exists everywhere, (cst 1 (0, 0)), (fun _ => 1), (0, 0), (fun _ => 0). eexists. split; [apply cst_represents; intros; unfold within; cbn; lra|].
  split; [intros; unfold within; cbn; lra|]. split.
  - unfold tm_sub_ig. cbn [cst m_tpol m_rem m_exp m_domain]. apply cst_make'; [apply valid_const|reflexivity].
  - apply (fails _ _ (at_x 0)). cbn [m_rem m_tpol m_exp]. rewrite value_const. unfold within. cbn. lra.
Qed.

(** ** Centres that differ by less than ten epsilons *)
Lemma add_centers_wrong : exists (D : point -> Prop) A B f g T, (exists x, D x) /\ represents D A f /\ represents D B g /\
  tm_add A B = Ok T /\ ~ encloses D T (fun x => f x + g x).
Proof.
  set (c := 1 / 1000000000000000). set (I := (-1, 1)). assert (Hc : 0 < c <= 1) by (unfold c; lra).
  exists (on I), (var0 1 1 (0, 0) I), (var 1 c (0, 0) I), (fun x => 1 * x "x"), (fun x => x "x").
  assert (RA : represents (on I) (var0 1 1 (0, 0) I) (fun x => 1 * x "x")) by (apply var0_represents; try lia; unfold within; cbn; lra).
  assert (RB : represents (on I) (var 1 c (0, 0) I) (fun x => x "x")) by (apply var_represents; try lia; unfold within; cbn; lra).
  set (A := var0 1 1 (0, 0) I) in *. set (B := var 1 c (0, 0) I) in *. destruct RA as [WA RA], RB as [WB RB].
  unfold tm_add. set (p := gadd (m_tpol A) (m_tpol B)).
  assert (Vp : valid p) by (apply valid_add; apply wf_poly; auto).
  assert (Sp : forall s, In s (psyms (gp p)) -> In s (psyms (gp (m_tpol A))) \/ In s (psyms (gp (m_tpol B)))) by (intros s; apply add_syms).
  assert (Np : d_names p) by (apply (d_names_union _ _ _ Sp); [apply (wf_names _ WA)|apply (wf_names _ WB)]).
  destruct (merge_spec A B p WA WB Np Sp) as [(C1 & C2 & ce & cd & ne & nd & E1 & E2 & _ & _ & _ & _ & E3 & E4 & M)|[C E]].
  - destruct (merged_make A B p ne nd WA WB Vp Np Sp M (iadd (m_rem A) (m_rem B))) as (T & E & ET & WT).
    exists T. split; [exists (at_x 0); unfold on, within, I, at_x; cbn; lra|]. split; [split; auto|]. split; [split; auto|]. split.
    + rewrite E1, E2. cbn [rbind]. fold p. rewrite E3, E4. cbn [rbind]. exact E.
    + intros H. destruct (H (at_x 0)) as [_ X]; [unfold on, within, I, at_x; cbn; lra|]. subst T. cbn [m_rem m_tpol m_exp] in X.
      unfold p in X. rewrite value_add in X by (apply wf_poly; auto).
      assert (Q : center_of ne "x" = 0).
      { apply center_of_In; [apply M|]. apply (mg_exp _ _ _ _ _ M). split; [apply add_syms; left; left; reflexivity|left; left; reflexivity]. }
      assert (Q' : displacement ne (at_x 0) "dx" = 0) by (unfold displacement, at_x; change (undsym "dx") with "x"; rewrite Q; lra).
      cbn -[displacement] in X. unfold within in X. cbn -[displacement] in X. rewrite Q' in X. unfold at_x in X. lra.
  - exfalso. apply C. split.
    + intros s u v [Eu|[]] [Ev|[]]. injection Eu as <- <-. injection Ev as <-. unfold close. rewrite Rabs_left; unfold c; lra.
    + intros s u v [Eu|[]] [Ev|[]]. injection Eu as <- <-. injection Ev as <-. split; apply close_refl.
Qed.

(** ** Products *)
Lemma mul_zero_wrong iter : exists (D : point -> Prop) A B f g T, represents D A f /\ represents D B g /\ same_centers A B /\ close_domains A B /\
  tm_mul iter A B = Ok T /\ ~ encloses D T (fun x => f x * g x).
Proof.
  exists everywhere, (cst 0 (1, 1)), (cst 1 (0, 0)), (fun _ => 1), (fun _ => 1), (tm_const 0).
  split; [apply cst_represents; intros; unfold within; cbn; lra|]. split; [apply cst_represents; intros; unfold within; cbn; lra|].
  split; [intros ? ? ? []|]. split; [intros ? ? ? []|]. split.
  - apply tm_mul_zero; [apply wf_cst|apply wf_cst|]. left. intros N. apply N. cbn [cst m_tpol]. rewrite const_zero_gdual. reflexivity.
  - apply (fails _ _ (at_x 0)). cbn [tm_const m_rem m_tpol m_exp]. rewrite value_const. unfold within. cbn. lra.
Qed.
Lemma cst_cf v r : constant_cf (m_tpol (cst v r)) = v.
Proof. rewrite <- (value_zero (m_tpol (cst v r)) (valid_const v)). apply value_const. Qed.
Lemma mul_order_zero_wrong iter : permutes iter -> exists (D : point -> Prop) A B f g T, represents D A f /\ represents D B g /\ same_centers A B /\ close_domains A B /\
  nonzero (m_tpol A) /\ nonzero (m_tpol B) /\ truncation_seen (m_tpol A) (m_tpol B) /\ m_rem A = (0, 0) /\ m_rem B = (0, 0) /\
  tm_mul iter A B = Ok T /\ ~ encloses D T (fun x => f x * g x).
Proof.
  intros Hp. exists everywhere, (cst 2 (0, 0)), (cst 3 (0, 0)), (fun _ => 2), (fun _ => 3), (tm_const 0).
  split; [apply cst_represents; intros; unfold within; cbn; lra|]. split; [apply cst_represents; intros; unfold within; cbn; lra|].
  split; [intros ? ? ? []|]. split; [intros ? ? ? []|]. split; [apply cst_nonzero; lra|]. split; [apply cst_nonzero; lra|]. split.
  { left. intros W k HW Hk Hs. exact (product_high (gconst 2) (gconst 3) W k (valid_const _) (valid_const _) HW Hk Hs). }
  split; auto. split; auto. split; [apply flat_mul_exact; auto using flat_cst|].
  apply (fails _ _ (at_x 0)). cbn [tm_const m_rem m_tpol m_exp]. rewrite value_const. unfold within. cbn. lra.
Qed.
(** every product of two models without variables of order 0 has the polynomial 0 *)
Lemma mul_order_zero iter A B : permutes iter -> flat A -> flat B -> exists T, tm_mul iter A B = Ok T /\ forall rho, value (m_tpol T) rho = 0.
Proof.
  intros Hp FA FB. destruct (pterms (gp (m_tpol A))) as [|ta la] eqn:EA.
  { exists (tm_const 0). split; [|intros; apply value_const]. apply tm_mul_zero; [apply FA|apply FB|]. left. intros N. apply N. auto. }
  destruct (pterms (gp (m_tpol B))) as [|tb lb] eqn:EB.
  { exists (tm_const 0). split; [|intros; apply value_const]. apply tm_mul_zero; [apply FA|apply FB|]. right. intros N. apply N. auto. }
  eexists. split; [apply flat_mul_run; auto; [intros C; rewrite C in EA; discriminate|intros C; rewrite C in EB; discriminate]|]. intros rho. reflexivity.
Qed.

(** ** Intervals times and divided by a model *)
Lemma mul_ig_throws iter I A : well_formed A -> psyms (gp (m_tpol A)) <> [] -> tm_mul_ig iter I A = Throw InvalidArgument.
Proof.
  intros W N. unfold tm_mul_ig. assert (X := make_spec (gconst (k1 : R)) I (m_exp A) (m_domain A) (wf_exp _ W) (wf_dom _ W)).
  destruct (tm_make (gconst k1) I (m_exp A) (m_domain A)) as [T|x]; [|destruct X as [-> _]; reflexivity].
  exfalso. destruct X as [-> [_ _ C]]. cbn in C. destruct (psyms (gp (m_tpol A))) as [|s l] eqn:E; [congruence|].
  assert (Q : In (undsym s) (map fst (m_domain A))).
  { apply (wf_dom_keys _ W). rewrite (proj1 (d_names_iff (m_tpol A)) (wf_names _ W) s); rewrite E; left; auto. }
  destruct (m_domain A); [destruct Q|discriminate].
Qed.
Lemma div_ig_throws iter I A : well_formed A -> psyms (gp (m_tpol A)) <> [] -> tm_div_ig iter I A = Throw InvalidArgument.
Proof. exact (mul_ig_throws iter I A). Qed.
Lemma mul_gi_throws iter I A : well_formed A -> length (psyms (gp (m_tpol A))) <> 1%nat -> tm_mul_gi iter A I = Throw InvalidArgument.
Proof.
  intros W N. unfold tm_mul_gi. assert (G := gvar_spec (k1 : R) "x" 0). assert (GS := gvar_syms (k1 : R) "x" 0). destruct (gvar k1 "x" 0) as [g|x].
  2:{ exfalso. destruct x; try contradiction; try discriminate G. destruct G as [G|[r G]]; [lia|discriminate]. }
  cbn [rbind]. assert (X := make_spec g I (m_exp A) (m_domain A) (wf_exp _ W) (wf_dom _ W)).
  destruct (tm_make g I (m_exp A) (m_domain A)) as [T|x]; [|destruct X as [-> _]; reflexivity].
  exfalso. destruct X as [-> [_ _ C]]. cbn [m_domain m_tpol] in C. rewrite (GS g eq_refl) in C. apply N. cbn in C. rewrite <- C.
  rewrite <- (map_length undsym (psyms _)), <- (map_length fst (m_domain A)). apply Permutation_length.
  apply NoDup_Permutation; [exact (NoDup_symbol_set _ (wf_poly _ W) (wf_names _ W))|apply W|].
  intros s. rewrite (wf_dom_keys _ W). apply (In_get_symbol_set _ s (wf_names _ W)).
Qed.
Lemma div_gi_throws iter I A : well_formed A -> length (psyms (gp (m_tpol A))) <> 1%nat -> tm_div_gi iter A I = Throw InvalidArgument.
Proof. exact (mul_gi_throws iter I A). Qed.

(** 6 / 2 = 12 *)
Lemma div_ig_wrong iter : permutes iter -> exists (D : point -> Prop) A f I (h : point -> R) T, represents D A f /\ (forall x, D x -> within I (h x)) /\
  (forall x, D x -> f x <> 0) /\ tm_div_ig iter I A = Ok T /\ ~ encloses D T (fun x => h x / f x).
Proof.
  intros Hp. exists everywhere, (cst 2 (0, 0)), (fun _ => 2), (6, 6), (fun _ => 6). eexists.
  split; [apply cst_represents; intros; unfold within; cbn; lra|]. split; [intros; unfold within; cbn; lra|]. split; [intros; lra|]. split.
  - unfold tm_div_ig. cbn [cst m_exp m_domain]. rewrite cst_make' by (try apply valid_const; reflexivity). cbn [rbind].
    change (mkTM (gconst k1) _ _ (6, 6) [] []) with (cst k1 (6, 6)). apply (flat_mul_run iter (cst k1 (6, 6)) (cst 2 (0, 0))); auto using flat_cst; apply cst_nonzero; cbn; lra.
  - apply (fails _ _ (at_x 0)). cbn [m_rem m_tpol m_exp]. rewrite imul_zero_r, imul_zero_r, !cst_cf. cbn [cst m_rem]. change (value zero_gdual _) with 0.
    unfold within. unfold imul, iadd. cbn [fst snd]. rewrite !kmin_Rmin, !kmax_Rmax. cbn. rewrite !Rmin_left, !Rmax_left by lra. lra.
Qed.
Lemma mul_ig_wrong iter : permutes iter -> exists (D : point -> Prop) A f I (h : point -> R) T, represents D A f /\ (forall x, D x -> within I (h x)) /\
  tm_mul_ig iter I A = Ok T /\ ~ encloses D T (fun x => h x * f x).
Proof.
  intros Hp. exists everywhere, (cst 0 (1, 1)), (fun _ => 1), (1, 1), (fun _ => 1), (tm_const 0).
  split; [apply cst_represents; intros; unfold within; cbn; lra|]. split; [intros; unfold within; cbn; lra|]. split.
  - unfold tm_mul_ig. cbn [cst m_exp m_domain]. rewrite cst_make' by (try apply valid_const; reflexivity). cbn [rbind].
    change (mkTM (gconst k1) _ _ (1, 1) [] []) with (cst k1 (1, 1)). apply tm_mul_zero; [apply wf_cst|apply wf_cst|]. right. intros N. apply N.
    cbn [cst m_tpol]. rewrite const_zero_gdual. reflexivity.
  - apply (fails _ _ (at_x 0)). cbn [tm_const m_rem m_tpol m_exp]. rewrite value_const. unfold within. cbn. lra.
Qed.

(** ** Powers *)
Lemma pow_zero_wrong iter : exists (D : point -> Prop) A f T, represents D A f /\ (forall x, D x -> f x <> 0) /\
  tm_pow_int iter A 0 = Ok T /\ ~ encloses D T (fun x => f x ^ 0).
Proof.
  exists everywhere, (cst 0 (1, 2)), (fun _ => 1). eexists. split; [apply cst_represents; intros; unfold within; cbn; lra|]. split; [intros; lra|].
  split; [reflexivity|]. apply (fails _ _ (at_x 0)). cbn [tm_identity_with m_rem m_tpol m_exp cst]. rewrite value_const. unfold within. cbn. lra.
Qed.
Lemma pow_zero_inconsistent iter A T : well_formed A -> psyms (gp (m_tpol A)) <> [] -> tm_pow_int iter A 0 = Ok T ->
  m_ndim T <> length (m_domain T) /\ check_input_validity T = Throw InvalidArgument.
Proof.
  intros W N E. injection E as <-. cbn [tm_identity_with m_ndim m_domain].
  assert (Q : length (m_domain A) <> 0%nat).
  { destruct (psyms (gp (m_tpol A))) as [|s l] eqn:E; [congruence|].
    assert (Q : In (undsym s) (map fst (m_domain A))).
    { apply (wf_dom_keys _ W). rewrite (proj1 (d_names_iff (m_tpol A)) (wf_names _ W) s); rewrite E; left; auto. }
    destruct (m_domain A); [destruct Q|discriminate]. }
  split; [congruence|]. unfold check_input_validity. cbn [tm_identity_with m_ndim m_domain m_exp]. destruct (negb _); auto. destruct (negb _); auto.
  destruct (Nat.eqb_spec (length (m_domain A)) 0); [contradiction|reflexivity].
Qed.
Lemma pow_near_three {iv : IvFun R} iter A F : f_bar_remainder_bounds iter A = Ok F ->
  tm_pow iter A (3 - 4 / 10000000000000000) = tm_pow_int iter A 2.
Proof.
  intros E. replace (3 - _) with (IZR 3 + - (4 / 10000000000000000)) by lra.
  rewrite (tm_pow_near iter A F 3 _ E) by (rewrite Rabs_left by lra; lra). f_equal.
  replace (_ + _) with (IZR 2 + (1 - 4 / 10000000000000000)) by lra. apply rtoint_shift; lra.
Qed.
