(** * A Taylor model times or divided by an interval (proof file) *)
From Coq Require Import String List Arith Bool ZArith Reals Permutation Lra Lia.
From Verif Require Import Ops Syms SymsFacts Poly PolyFacts Gdual GdualFacts Functions FunStruct Spec CoefFacts CoreProofs CalcProofs ValueProofs MiscProofs ElemR FunAlg Interval TaylorModel TMFunctions SpecTM TMMaps TMArith TMMul TMTaylor TMBounds TMPow TMMisc TMSamples TMFlat TMRefute TMExact TMRefute2 TMRefute3 TMRefute4 TMClass TMInst TMGlue.
From Verif Require Bounding.
Import ListNotations.
Local Open Scope string_scope.
Local Open Scope list_scope.
Local Open Scope R_scope.

(** the polynomial 1 of the code, with the symbol of "x" *)
Definition one_x : gdual R := mkG (mkPoly ["dx"] [([0%nat], 1)]) 0.
Lemma gvar_one : gvar (k1 : R) "x" 0 = Ok one_x.
Proof.
  unfold gvar, one_x. cbn [check_order check_var_name rbind Nat.eqb]. unfold padd, pconst. cbn. unfold Reqb. destruct (Req_EM_T 1 0) as [C|N]; [exfalso; lra|]. cbn. unfold Reqb. destruct (Req_EM_T 1 0); [contradiction|]. reflexivity.
Qed.
Lemma valid_one : valid one_x.
Proof.
  constructor; cbn [one_x gp psyms pterms gord].
  - constructor; constructor.
  - intros t [<-|[]]; reflexivity.
  - constructor; [intros []|constructor].
  - intros t [<-|[]]; apply nz; cbn; lra.
  - intros t [<-|[]]; unfold list_sum; cbn; lia.
Qed.
Lemma value_one rho : value one_x rho = 1.
Proof. cbn. ring. Qed.

Lemma singleton_dom A s : well_formed A -> variables A = [s] ->
  psyms (gp (m_tpol A)) = [dsym s] /\ (exists c, m_exp A = [(s, c)]) /\ exists I, m_domain A = [(s, I)].
Proof.
  intros W E. assert (S : psyms (gp (m_tpol A)) = [dsym s]).
  { rewrite (wf_names _ W). unfold variables in E. rewrite E. reflexivity. }
  assert (X : forall V (m : list (string * V)), distinct_keys m -> (forall t, In t (map fst m) <-> In (dsym t) (psyms (gp (m_tpol A)))) -> exists v, m = [(s, v)]).
  { intros V m Nm H. assert (K : forall t, In t (map fst m) <-> t = s).
    { intros t. rewrite H, S. cbn. split; [intros [Q|[]]; injection Q; auto|intros ->; auto]. }
    destruct m as [|[a v] [|[b w] m]].
    - exfalso. apply (proj2 (K s) eq_refl).
    - assert (Q : a = s) by (apply K; left; auto). subst. exists v. auto.
    - exfalso. assert (Qa : a = s) by (apply K; left; auto). assert (Qb : b = s) by (apply K; right; left; auto). subst.
      inversion Nm as [|? ? N _]. apply N. left. auto. }
  split; auto. split; apply X; try apply W.
Qed.
Lemma one_ordered iter (s : string) l : permutes iter -> (forall t, In t l -> t = s) -> ordered_on iter l.
Proof.
  intros Hp Hl box N I. assert (P := Hp box). destruct box as [|b [|b' box]].
  - apply Permutation_sym, Permutation_nil in P. rewrite P. auto.
  - apply Permutation_sym, Permutation_length_1_inv in P. rewrite P. auto.
  - exfalso. inversion N as [|? ? Q _]. apply Q. left. rewrite (Hl (fst b)), (Hl (fst b')); auto; apply I; [right; left|left]; auto.
Qed.

Section One.
  Variables (iter : list (string * (R * R)) -> list (string * (R * R))) (A : taylor_model R) (J : R * R).
  Hypothesis W : well_formed A.
  Definition one_model : taylor_model R := mkTM one_x 0 1 J (m_exp A) (m_domain A).
  Lemma mul_gi_unfold s : variables A = [s] -> tm_mul_gi iter A J = tm_mul iter A one_model.
  Proof.
    intros E. destruct (singleton_dom A s W E) as (S & (c & Ec) & (I & EI)). unfold tm_mul_gi. rewrite gvar_one. cbn [rbind].
    assert (X := make_spec one_x J (m_exp A) (m_domain A) (wf_exp _ W) (wf_dom _ W)).
    destruct (tm_make one_x J (m_exp A) (m_domain A)) as [T|x]; [destruct X as [-> _]; reflexivity|].
    exfalso. destruct X as [_ X]. apply X. destruct (well_formed_consistent A W) as [C1 C2 C3].
    constructor; cbn [m_exp m_domain m_tpol]; auto. rewrite EI. reflexivity.
  Qed.
  Lemma one_wf : variables A = ["x"] -> well_formed one_model.
  Proof.
    intros E. destruct (singleton_dom A "x" W E) as (S & _ & _). change (dsym "x") with "dx" in S.
    assert (W' := W). destruct W' as [_ _ _ _ w1 w2 w3 w4 w5].
    constructor; unfold one_model; cbn [m_tpol m_order m_ndim m_exp m_domain]; auto; try reflexivity; [apply valid_one| |];
      intros s; rewrite ?w3, ?w4, S; reflexivity.
  Qed.
  (** "A * I" encloses f * (1 + h), h being in I *)
  Lemma times_one (D : point -> Prop) f h : variables A = ["x"] -> represents D A f -> (forall x, D x -> within J (h x)) ->
    nonzero (m_tpol A) -> (1 <= get_order (m_tpol A) <= 62)%nat -> permutes iter ->
    exists T, tm_mul_gi iter A J = Ok T /\ represents D T (fun x => f x * (1 + h x)).
  Proof.
    intros E RA HJ NA O Hp. rewrite (mul_gi_unfold "x") by auto. assert (W1 := one_wf E).
    apply tm_mul_ok; auto.
    - split; auto. intros x Hx. split; [apply (proj2 RA x Hx)|]. cbn [one_model m_rem m_tpol m_exp]. rewrite value_one.
      replace (1 + h x - 1) with (h x) by ring. auto.
    - intros s c c' H H'. exact (distinct_In s c c' _ (wf_exp _ W) H H').
    - exact (close_domains_refl A W).
    - discriminate.
    - cbn. unfold get_order in *. lia.
    - left. intros V k HV Hk L. rewrite (product_coef_value _ _ (m_tpol A)); auto; try apply W; try apply valid_one.
      + apply (coef_above (o:=OpsR) (m_tpol A) V k (valid_gwf _ (wf_poly _ W)) HV Hk). unfold get_order in L. lia.
      + intros rho. cbn [one_model m_tpol]. rewrite value_one. ring.
    - apply (one_ordered iter "x"); auto. unfold variables in *. intros t H. apply in_app_iff in H. rewrite E in H. cbn in H. intuition.
  Qed.
  (** any other variable *)
  Lemma other_throws s T : variables A = [s] -> s <> "x" -> nonzero (m_tpol A) -> tm_mul_gi iter A J <> Ok T.
  Proof.
    intros E N NA. rewrite (mul_gi_unfold s) by auto. destruct (singleton_dom A s W E) as (_ & (c & Ec) & (I & EI)).
    assert (B : exists e, tm_bounds iter one_model = Throw e).
    { unfold tm_bounds, Bounding.get_bounds, one_model. cbn [m_tpol m_exp m_domain]. rewrite Ec, EI. cbn.
      destruct (String.eqb_spec s "x"); [contradiction|]. unfold Reqb. destruct (Req_EM_T 1 0) as [C|_]; [exfalso; lra|]. cbn. eauto. }
    destruct B as [e B]. unfold tm_mul. destruct (zero_check (m_tpol A) (wf_poly _ W)) as (z & Ez & ZA). destruct (zero_check one_x valid_one) as (z' & Ez' & ZB).
    change (@k0 R OpsR) with 0. rewrite Ez in Ez'. injection Ez' as <-. rewrite Ez. cbn [rbind].
    replace (geqb (m_tpol A) z) with false by (symmetry; apply not_true_iff_false; rewrite ZA; auto).
    replace (geqb (m_tpol one_model) z) with false by (symmetry; apply not_true_iff_false; cbn [one_model m_tpol]; rewrite ZB; discriminate). cbn [orb].
    intros H. repeat match type of H with rbind ?a _ = Ok _ => let Q := fresh in destruct a eqn:Q; cbn [rbind] in H; [|discriminate] end.
    congruence.
  Qed.
  Lemma zero_times s : variables A = [s] -> ~ nonzero (m_tpol A) -> tm_mul_gi iter A J = Ok (tm_const 0).
  Proof.
    intros E NA. rewrite (mul_gi_unfold s) by auto. unfold tm_mul. destruct (zero_check (m_tpol A) (wf_poly _ W)) as (z & Ez & ZA).
    change (@k0 R OpsR) with 0. rewrite Ez. cbn [rbind]. replace (geqb (m_tpol A) z) with true; auto.
    symmetry. apply ZA. destruct (pterms (gp (m_tpol A))) eqn:Q; auto. exfalso. apply NA. unfold nonzero. rewrite Q. discriminate.
  Qed.
End One.

(** x in [1, 3] times (or divided by) the interval [1, 1]: the remainder is [1, 3] *)
Lemma var_gi_rem iter : permutes iter -> exists T, tm_mul_gi iter (var 1 2 (0, 0) (1, 3)) (1, 1) = Ok T /\
  (forall x, on (1, 3) x -> value (m_tpol T) (displacement (m_exp T) x) = x "x") /\ 1 <= fst (m_rem T).
Proof.
  intros Hp. set (A := var 1 2 (0, 0) (1, 3)). assert (W : well_formed A) by (apply wf_var; try lra; try lia; unfold within; cbn; lra).
  assert (W1 := one_wf A (1, 1) W eq_refl). rewrite (mul_gi_unfold iter A (1, 1) W "x") by reflexivity.
  assert (OO : ordered_on iter (variables A ++ variables (one_model A (1, 1)))).
  { apply (one_ordered iter "x"); auto. intros t H. cbn in H. intuition. }
  destruct (tm_mul_run iter A (one_model A (1, 1))) as (T & be & b1 & b2 & E & WT & PT & ER & Hbe & H1 & H2 & HT & HV); auto.
  - intros s c c' H H'. exact (distinct_In s c c' _ (wf_exp _ W) H H').
  - exact (close_domains_refl A W).
  - discriminate.
  - discriminate.
  - cbn. lia.
  - assert (PC : forall V k, NoDup V -> length k = length V -> (1 < list_sum k)%nat -> product_coef (m_tpol A) (m_tpol (one_model A (1, 1))) V k = 0).
    { intros V k HV' Hk L. rewrite (product_coef_value _ _ (m_tpol A)); auto; try apply W; try apply valid_one.
      - exact (coef_above (o:=OpsR) (m_tpol A) V k (valid_gwf _ (wf_poly _ W)) HV' Hk L).
      - intros rho. cbn [one_model m_tpol]. rewrite value_one. ring. }
    assert (TS : truncation_small A (one_model A (1, 1))).
    { intros V k HV' Hk L. rewrite PC, Rabs_R0; auto; lra. }
    exists T. split; auto. split.
    + intros x Hx. assert (Bx : in_box (m_domain A) x) by (apply on_box; auto). rewrite <- HV; auto.
      * unfold A at 1 2. rewrite var_value. cbn [one_model m_tpol]. rewrite value_one. ring.
      * left. intros V k HV' Hk L. apply PC; auto.
    + destruct Hbe as [[_ ->]|[C _]]; [|contradiction].
      assert (Lb : 1 <= fst b1 <= snd b1).
      { destruct (tm_bounds_exact iter A) as (lo & hi & x & y & EB & Bx & By & Vx & Vy); auto.
        - cbn. lia.
        - apply var_simple.
        - apply (ordered_incl _ _ (variables A ++ variables (one_model A (1, 1)))); auto. apply incl_appl, incl_refl.
        - destruct H1 as [H1 H1']. rewrite EB in H1. injection H1 as <-. cbn [fst snd].
          assert (Q := H1' x Bx). unfold A in Vx, Q. rewrite var_value in Vx, Q. assert (Q2 := Bx "x" (1, 3) (or_introl eq_refl)). unfold within in *. cbn in *. lra. }
      rewrite ER. cbn [one_model m_rem]. change (m_rem A) with (0, 0). rewrite !imul_zero_l. unfold iadd, imul. cbn [fst snd]. rewrite !kmin_Rmin.
      change (@kmul R OpsR) with Rmult. change (@kadd R OpsR) with Rplus. rewrite !Rmult_1_r.
      repeat apply Rmin_case; lra.
Qed.
Lemma mul_gi_wrong iter : permutes iter -> exists (D : point -> Prop) A f I (h : point -> R) T, represents D A f /\ variables A = ["x"] /\ m_rem A = (0, 0) /\
  (1 <= get_order (m_tpol A) <= 62)%nat /\ (forall x, D x -> within I (h x)) /\ tm_mul_gi iter A I = Ok T /\ ~ encloses D T (fun x => f x * h x).
Proof.
  intros Hp. destruct (var_gi_rem iter Hp) as (T & E & V & L). exists (on (1, 3)), (var 1 2 (0, 0) (1, 3)), (fun x => x "x"), (1, 1), (fun _ => 1), T.
  split; [apply var_represents; try lra; try lia; unfold within; cbn; lra|]. split; [reflexivity|]. split; [reflexivity|]. split; [cbn; lia|].
  split; [intros; unfold within; cbn; lra|]. split; auto. intros C. assert (H2 : on (1, 3) (at_x 2)) by (unfold on, within, at_x; cbn; lra).
  destruct (C _ H2) as [_ C']. rewrite V in C' by auto. unfold within in C'. lra.
Qed.
Lemma div_gi_wrong iter : permutes iter -> exists (D : point -> Prop) A f I (h : point -> R) T, represents D A f /\ variables A = ["x"] /\ m_rem A = (0, 0) /\
  (1 <= get_order (m_tpol A) <= 62)%nat /\ (forall x, D x -> within I (h x)) /\ (forall v, within I v -> v <> 0) /\ tm_div_gi iter A I = Ok T /\ ~ encloses D T (fun x => f x / h x).
Proof.
  intros Hp. destruct (var_gi_rem iter Hp) as (T & E & V & L). exists (on (1, 3)), (var 1 2 (0, 0) (1, 3)), (fun x => x "x"), (1, 1), (fun _ => 1), T.
  split; [apply var_represents; try lra; try lia; unfold within; cbn; lra|]. split; [reflexivity|]. split; [reflexivity|]. split; [cbn; lia|].
  split; [intros; unfold within; cbn; lra|]. split; [intros v [Q1 Q2]; cbn in *; lra|]. split; auto. intros C. assert (H2 : on (1, 3) (at_x 2)) by (unfold on, within, at_x; cbn; lra).
  destruct (C _ H2) as [_ C']. rewrite V in C' by auto. unfold within in C'. lra.
Qed.
(** The result in all cases, for a product and for a quotient. *)
Theorem interval_right iter A J (D : point -> Prop) f h : variables A = ["x"] -> represents D A f -> (forall x, D x -> within J (h x)) ->
  nonzero (m_tpol A) -> (1 <= get_order (m_tpol A) <= 62)%nat -> permutes iter ->
  exists T, tm_mul_gi iter A J = Ok T /\ tm_div_gi iter A J = Ok T /\ represents D T (fun x => f x * (1 + h x)).
Proof. intros E RA. intros. destruct (times_one iter A J (proj1 RA) D f h) as (T & E1 & E2); auto. exists T. auto. Qed.
Theorem interval_other iter A J s T : well_formed A -> variables A = [s] ->
  (s <> "x" -> nonzero (m_tpol A) -> tm_mul_gi iter A J <> Ok T /\ tm_div_gi iter A J <> Ok T) /\
  (~ nonzero (m_tpol A) -> tm_mul_gi iter A J = Ok (tm_const 0) /\ tm_div_gi iter A J = Ok (tm_const 0)).
Proof.
  intros W E. split.
  - intros N NA. split; apply (other_throws iter A J W s T E N NA).
  - intros NA. split; apply (zero_times iter A J W s E NA).
Qed.

(** ** number - A is right exactly for symmetric remainders *)
Lemma a_point A : well_formed A -> exists x, in_box (m_domain A) x.
Proof.
  intros W. exists (center_of (m_exp A)). intros s J HJ. assert (Ks : In s (map fst (m_exp A))).
  { apply (wf_exp_keys _ W), (wf_dom_keys _ W). apply (in_map fst) in HJ. exact HJ. }
  apply key_In in Ks. destruct Ks as [v Hv]. rewrite (center_of_In _ _ _ (wf_exp _ W) Hv). apply (wf_inside _ W s v J); auto.
Qed.
Lemma sub_sg_sound_inv A c : well_formed A -> fst (m_rem A) <= snd (m_rem A) ->
  (forall (D : point -> Prop) f, represents D A f -> exists T, tm_sub_sg c A = Ok T /\ encloses D T (fun x => c - f x)) -> fst (m_rem A) = - snd (m_rem A).
Proof.
  intros W N H. destruct (a_point A W) as [x0 B0]. set (p := fun x => value (m_tpol A) (displacement (m_exp A) x)).
  assert (X : forall r, within (m_rem A) r -> within (m_rem A) (- r)).
  { intros r Hr. destruct (H (fun x => x = x0) (fun x => p x + r)) as (T & E & R).
    - split; auto. intros x ->. split; auto. fold (p x0). replace (p x0 + r - p x0) with r by ring. auto.
    - assert (M := make_spec (gsub_sg c (m_tpol A)) (m_rem A) (m_exp A) (m_domain A) (wf_exp _ W) (wf_dom _ W)). unfold tm_sub_sg in E. rewrite E in M.
      destruct M as [-> _]. destruct (R x0 eq_refl) as [_ R']. cbn [m_rem m_tpol m_exp] in R'. rewrite value_sub_sg in R' by apply W. fold (p x0) in R'.
      replace (c - (p x0 + r) - (c - p x0)) with (- r) in R' by ring. auto. }
  assert (X1 := X (fst (m_rem A))). assert (X2 := X (snd (m_rem A))). unfold within in *. lra.
Qed.
Theorem sub_sg_iff A c : well_formed A -> fst (m_rem A) <= snd (m_rem A) ->
  (fst (m_rem A) = - snd (m_rem A) <->
   forall (D : point -> Prop) f, represents D A f -> exists T, tm_sub_sg c A = Ok T /\ represents D T (fun x => c - f x)).
Proof.
  intros W N. split.
  - intros E D f R. apply tm_sub_sg_ok; auto.
  - intros H. apply (sub_sg_sound_inv A c W N). intros D f R. destruct (H D f R) as (T & E & _ & R'). exists T. auto.
Qed.
Theorem neg_iff A : well_formed A -> fst (m_rem A) <= snd (m_rem A) ->
  (fst (m_rem A) = - snd (m_rem A) <->
   forall (D : point -> Prop) f, represents D A f -> exists T, tm_neg A = Ok T /\ represents D T (fun x => - f x)).
Proof.
  intros W N. split.
  - intros E D f R. apply tm_neg_ok; auto.
  - intros H. apply (sub_sg_sound_inv A 0 W N). intros D f R. destruct (H D f R) as (T & E & _ & R'). exists T. split; auto.
    intros x Hx. destruct (R' x Hx) as [B X]. split; auto. replace (0 - f x) with (- f x) by ring. auto.
Qed.
