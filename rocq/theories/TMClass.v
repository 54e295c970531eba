(** * The class invariant of taylor_model: constructors, setters, extend_symbol_set (proof file) *)
From Coq Require Import String List Arith Bool ZArith Reals Permutation Lra Lia.
From Verif Require Import Ops Syms SymsFacts Poly PolyFacts Gdual GdualFacts Functions FunStruct Spec CoefFacts CoreProofs CalcProofs ValueProofs MiscProofs InvertProofs ElemR FunAlg Interval TaylorModel TMFunctions SpecTM TMMaps TMArith TMMul TMTaylor TMBounds TMPow TMMisc TMSamples TMFlat TMRefute.
Import ListNotations.
Local Open Scope string_scope.
Local Open Scope list_scope.

Section Setters.
  Context {K : Type} {o : Ops K}.
  (** A setter leaves the object consistent, or throws and leaves it inconsistent. *)
  Definition checks (t : taylor_model K) (after : taylor_model K * res unit) : Prop :=
    match snd after with
    | Ok _ => consistent (fst after)
    | Throw x => x = InvalidArgument /\ ~ consistent (fst after)
    end.
  Lemma set_tpol_spec p (t : taylor_model K) : distinct_keys (m_exp t) -> distinct_keys (m_domain t) -> checks t (set_tpol p t).
  Proof. intros A B. unfold checks, set_tpol, checked. cbn [fst snd]. apply check_spec; auto. Qed.
  Lemma set_exp_spec e (t : taylor_model K) : distinct_keys e -> distinct_keys (m_domain t) -> m_ndim t = length (psyms (gp (m_tpol t))) -> checks t (set_exp e t).
  Proof. intros A B C. unfold checks, set_exp, checked. cbn [fst snd]. apply check_spec; auto. Qed.
  Lemma set_dom_spec d (t : taylor_model K) : distinct_keys (m_exp t) -> distinct_keys d -> m_ndim t = length (psyms (gp (m_tpol t))) -> checks t (set_dom d t).
  Proof. intros A B C. unfold checks, set_dom, checked. cbn [fst snd]. apply check_spec; auto. Qed.
  Lemma default_invalid n : (n <> 0)%nat -> @check_input_validity K o (tm_default n) = Throw InvalidArgument.
  Proof. intros H. unfold check_input_validity. cbn [tm_default m_domain m_exp m_ndim map forallb negb andb length]. destruct n; [congruence|reflexivity]. Qed.
  Lemma identity_consistent rem ex dom : consistent (@tm_identity_with K o rem ex dom) <-> ex = [] /\ dom = [].
  Proof.
    split.
    - intros [A _ C]. cbn in C. destruct dom; [|discriminate]. destruct ex as [|[s v] l]; auto. exfalso. apply (A s). left. auto.
    - intros [-> ->]. constructor; cbn; try tauto.
  Qed.
End Setters.

(** ** extend_symbol_set *)
Section Extend.
  Variables (e : list (string * R)) (d : list (string * (R * R))).
  Definition add_var (v : string) (t : taylor_model R) : taylor_model R * res unit :=
    match dfind v e with
    | None => (t, Throw OtherException)
    | Some c =>
        let t := mkTM (m_tpol t) (m_order t) (m_ndim t) (m_rem t) (insert v c (m_exp t)) (m_domain t) in
        match dfind v d with
        | None => (t, Throw OtherException)
        | Some J => (mkTM (m_tpol t) (m_order t) (m_ndim t) (m_rem t) (m_exp t) (insert v J (m_domain t)), Ok tt)
        end
    end.
  Definition add_vars (l : list string) (t : taylor_model R) (r : res unit) :=
    fold_left (fun '(t, r) v => match r with Throw x => (t, Throw x) | Ok _ => add_var v t end) l (t, r).
  Lemma extend_unfold l t : tm_extend_symbol_set l e d t =
    let '(t, r) := add_vars l t (Ok tt) in
    match r with
    | Throw x => (t, Throw x)
    | Ok _ => match extend_symbol_set (map dsym l) (m_tpol t) with
              | Throw x => (t, Throw x)
              | Ok g => checked (mkTM g (m_order t) (get_symbol_set_size g) (m_rem t) (m_exp t) (m_domain t))
              end
    end.
  Proof. reflexivity. Qed.
  Lemma add_vars_throw l t x : add_vars l t (Throw x) = (t, Throw x).
  Proof. unfold add_vars. induction l; cbn [fold_left]; auto. Qed.
  Lemma add_vars_spec l : forall t t' r, add_vars l t (Ok tt) = (t', r) -> distinct_keys (m_exp t) -> distinct_keys (m_domain t) ->
    m_tpol t' = m_tpol t /\ m_order t' = m_order t /\ m_ndim t' = m_ndim t /\ m_rem t' = m_rem t /\ distinct_keys (m_exp t') /\ distinct_keys (m_domain t') /\
    match r with
    | Ok _ =>
        (forall s, In s l -> In s (map fst e) /\ In s (map fst d)) /\
        (forall s c, In (s, c) (m_exp t') <-> In (s, c) (m_exp t) \/ (~ In s (map fst (m_exp t)) /\ In s l /\ dfind s e = Some c)) /\
        (forall s I, In (s, I) (m_domain t') <-> In (s, I) (m_domain t) \/ (~ In s (map fst (m_domain t)) /\ In s l /\ dfind s d = Some I))
    | Throw x => x = OtherException /\ exists s, In s l /\ (~ In s (map fst e) \/ ~ In s (map fst d))
    end.
  Proof.
    induction l as [|v l IH]; intros t t' r E De Dd.
    - injection E as <- <-. do 6 (split; [auto|]). split; [intros s []|]. split; intros s' v'; (split; [auto|]); intros [H|(_ & [] & _)]; auto.
    - unfold add_vars in E. cbn [fold_left] in E. fold (add_vars l) in E. unfold add_var in E.
      destruct (dfind v e) as [c|] eqn:Ec.
      2:{ change (add_vars l t (Throw OtherException) = (t', r)) in E. rewrite add_vars_throw in E. injection E as <- <-. do 6 (split; [auto|]). split; auto. exists v. split; [left; auto|]. left. apply dfind_None. auto. }
      destruct (dfind v d) as [I|] eqn:EI; cbn [m_tpol m_order m_ndim m_rem m_exp m_domain] in E.
      2:{ match type of E with fold_left _ _ (?T, _) = _ => change (add_vars l T (Throw OtherException) = (t', r)) in E end.
          rewrite add_vars_throw in E. injection E as <- <-. cbn [m_tpol m_order m_ndim m_rem m_exp m_domain]. do 6 (split; [auto using insert_distinct|]).
          split; auto. exists v. split; [left; auto|]. right. apply dfind_None. auto. }
      match type of E with fold_left _ _ (?T, _) = _ => change (add_vars l T (Ok tt) = (t', r)) in E; set (t1 := T) in * end.
      destruct (IH t1 t' r E) as (A1 & A2 & A3 & A4 & A5 & A6 & A7); [cbn; apply insert_distinct; auto|cbn; apply insert_distinct; auto|].
      do 6 (split; [auto|]). destruct r as [u|x].
      + destruct A7 as (B1 & B2 & B3). split; [intros s [<-|Hs]; auto; split; apply key_In; eexists; apply dfind_In; eauto|].
        assert (G : forall {V} (m m' : list (string * V)) (f : list (string * V)) y, dfind v f = Some y ->
          (forall s w, In (s, w) m' <-> In (s, w) (insert v y m) \/ (~ In s (map fst (insert v y m)) /\ In s l /\ dfind s f = Some w)) ->
          forall s w, In (s, w) m' <-> In (s, w) m \/ (~ In s (map fst m) /\ In s (v :: l) /\ dfind s f = Some w)).
        { intros V m m' f y Ey H s w. rewrite H. rewrite insert_In. assert (KI : forall s, In s (map fst (insert v y m)) <-> In s (map fst m) \/ (~ In v (map fst m) /\ s = v)).
          { intros s'. rewrite !key_In. split.
            - intros [u' Hu]. apply insert_In in Hu. destruct Hu as [Hu|(N & -> & _)]; [left; eauto|right; rewrite <- key_In; auto].
            - intros [[u' Hu]|[N ->]]; [exists u'|exists y]; apply insert_In; auto. right. rewrite key_In in *. auto. }
          rewrite KI. cbn [In]. split.
          - intros [[X1|(X1 & Xs & Xw)]|(X1 & X2 & X3)]; auto.
            + right. subst. auto.
            + right. split; [intros C; apply X1; auto|auto].
          - intros [X1|(X1 & [X2|X2] & X3)]; auto.
            + left. right. subst. split; auto. split; auto. congruence.
            + destruct (string_dec s v) as [->|Nv]; [left; right; split; auto; split; auto; congruence|]. right. split; auto. intros [C|[_ C]]; auto. }
        split; [apply (G _ (m_exp t) (m_exp t') e c Ec B2)|apply (G _ (m_domain t) (m_domain t') d I EI B3)].
      + destruct A7 as (B1 & s & Hs & B2). split; auto. exists s. split; [right|]; auto.
  Qed.
  Local Open Scope R_scope.
  (** the intervals for the new variables contain their expansion points *)
  Definition new_ok (l : list string) (t : taylor_model R) : Prop :=
    forall s c I, In s l -> ~ In s (map fst (m_exp t)) -> dfind s e = Some c -> dfind s d = Some I -> within I c.
  Lemma extend_cases l t (D : point -> Prop) f : represents D t f ->
    (forall x s I, D x -> In s l -> dfind s d = Some I -> within I (x s)) ->
    match tm_extend_symbol_set l e d t with
    | (t', Ok _) => represents D t' f /\ m_rem t' = m_rem t /\
                    (forall s, In s (map fst (m_domain t')) <-> In s (map fst (m_domain t)) \/ In s l) /\ new_ok l t /\
                    (forall s, In s l -> In s (map fst e) /\ In s (map fst d))
    | (t', Throw x) => (x = OtherException /\ exists s, In s l /\ (~ In s (map fst e) \/ ~ In s (map fst d))) \/
                       (x = InvalidArgument /\ ~ new_ok l t)
    end.
  Proof.
    intros [W H] HD. rewrite extend_unfold. destruct (add_vars l t (Ok tt)) as [t1 r] eqn:E.
    destruct (add_vars_spec l t t1 r E (wf_exp _ W) (wf_dom _ W)) as (P1 & P2 & P3 & P4 & P5 & P6 & P7).
    destruct r as [u|x]; [|left; exact P7]. destruct P7 as (Q1 & Q2 & Q3). rewrite P1.
    destruct (extend_ok l (m_tpol t)) as [g Eg]. rewrite Eg. destruct (extend_den _ _ _ (wf_poly _ W) Eg) as (Vg & Og & Sg & Dg).
    set (t2 := mkTM g (m_order t1) (get_symbol_set_size g) (m_rem t1) (m_exp t1) (m_domain t1)). unfold checked.
    assert (C := check_spec t2 P5 P6 eq_refl).
    assert (Sy : forall s, In s (psyms (gp g)) <-> In s (psyms (gp (m_tpol t))) \/ In s (map dsym l)).
    { intros s. change (psyms (gp g)) with (gsyms g). rewrite Sg, sunion_In, sset_In. reflexivity. }
    assert (Dn : forall s, In s (map dsym l) <-> exists v, s = dsym v /\ In v l) by (intros s; rewrite in_map_iff; split; intros (v & A & B); exists v; auto).
    assert (Ds : forall s, In (dsym s) (map dsym l) <-> In s l).
    { intros s. rewrite Dn. split; [|eauto]. intros (v & A & B). unfold dsym in A. injection A as ->. auto. }
    assert (Ke : forall s, In s (map fst (m_exp t1)) <-> In s (map fst (m_exp t)) \/ In s l).
    { intros s. rewrite !key_In. split.
      - intros [c Hc]. apply Q2 in Hc. destruct Hc as [Hc|(_ & Hc & _)]; eauto.
      - intros [[c Hc]|Hs]; [exists c; apply Q2; auto|]. destruct (in_dec string_dec s (map fst (m_exp t))) as [I|I].
        + apply key_In in I. destruct I as [c Hc]. exists c. apply Q2. auto.
        + destruct (dfind_key s e) as [c Ec]; [apply Q1; auto|]. exists c. apply Q2. auto. }
    assert (Kd : forall s, In s (map fst (m_domain t1)) <-> In s (map fst (m_domain t)) \/ In s l).
    { intros s. rewrite !key_In. split.
      - intros [c Hc]. apply Q3 in Hc. destruct Hc as [Hc|(_ & Hc & _)]; eauto.
      - intros [[c Hc]|Hs]; [exists c; apply Q3; auto|]. destruct (in_dec string_dec s (map fst (m_domain t))) as [I|I].
        + apply key_In in I. destruct I as [c Hc]. exists c. apply Q3. auto.
        + destruct (dfind_key s d) as [c Ec]; [apply Q1; auto|]. exists c. apply Q3. auto. }
    assert (KK : forall s, In s (map fst (m_exp t)) <-> In s (map fst (m_domain t))) by (intros s; rewrite (wf_exp_keys _ W), (wf_dom_keys _ W); tauto).
    assert (IN : new_ok l t <-> (forall s c I, In (s, c) (m_exp t1) -> In (s, I) (m_domain t1) -> within I c)).
    { split.
      - intros N s c I Hc HI. apply Q2 in Hc. apply Q3 in HI. destruct Hc as [Hc|(N1 & L1 & F1)], HI as [HI|(N2 & L2 & F2)].
        + exact (wf_inside _ W s c I Hc HI).
        + exfalso. apply N2, KK. apply key_In. eauto.
        + exfalso. apply N1, KK. apply key_In. eauto.
        + apply (N s c I); auto.
      - intros N s c I Hs Hn Ec EI. apply (N s); [apply Q2|apply Q3]; right; split; auto. rewrite <- KK. auto. }
    assert (W2 : new_ok l t -> well_formed t2).
    { intros N. constructor; cbn [t2 m_tpol m_order m_ndim m_exp m_domain]; auto.
      - rewrite P2, (wf_order _ W). symmetry. exact Og.
      - apply d_names_iff. intros s Hs. apply Sy in Hs. destruct Hs as [Hs|Hs]; [apply (proj1 (d_names_iff (m_tpol t)) (wf_names _ W)); auto|].
        apply Dn in Hs. destruct Hs as (v & -> & _). reflexivity.
      - intros s. rewrite Ke, Sy, (wf_exp_keys _ W), Ds. tauto.
      - intros s. rewrite Kd, Sy, (wf_dom_keys _ W), Ds. tauto.
      - apply IN. auto. }
    assert (CN : consistent t2 <-> new_ok l t).
    { split.
      - intros [_ X _]. apply IN. intros s c I Hc HI. destruct (X s c I Hc HI) as [X1 X2]. apply Rltb_false in X1, X2. split; auto.
      - intros N. specialize (W2 N). constructor; cbn [t2 m_tpol m_exp m_domain].
        + intros s. rewrite Ke, Kd, KK. tauto.
        + intros s c I Hc HI. assert (X := proj1 IN N s c I Hc HI). split; apply Rltb_false; apply X.
        + rewrite <- (map_length fst (m_domain t1)). rewrite <- (map_length undsym (psyms (gp g))). apply Permutation_length. symmetry.
          apply NoDup_Permutation; [exact (NoDup_symbol_set _ Vg (wf_names _ W2))|exact P6|].
          intros s. rewrite (In_get_symbol_set g s (wf_names _ W2)). symmetry. apply (wf_dom_keys _ W2). }
    destruct (check_input_validity t2) as [[]|x]; [|right; split; [apply C|rewrite <- CN; apply C]].
    assert (N : new_ok l t) by (apply CN; auto). specialize (W2 N). split; [|split; [exact P4|split; [exact Kd|split; [exact N|exact Q1]]]].
    split; auto. intros x Hx. destruct (H x Hx) as [B1 B2]. split.
    - intros s I HI. cbn [t2 m_domain] in HI. apply Q3 in HI. destruct HI as [HI|(_ & L1 & F1)]; [apply (B1 s I HI)|apply (HD x s I Hx L1 F1)].
    - cbn [t2 m_rem m_tpol m_exp]. rewrite P4. replace (value g (displacement (m_exp t1) x)) with (value (m_tpol t) (displacement (m_exp t) x)); auto.
      assert (EV : forall rho, value g rho = value (m_tpol t) rho).
      { intros rho. assert (NG := ssorted_NoDup _ (gsyms_sorted _ (valid_gwf _ Vg))).
        rewrite (value_seqv g _ (gsyms g) rho (valid_gwf _ Vg) NG (incl_refl _) Dg). symmetry. apply value_Lf; auto; [apply valid_gwf, W|]. rewrite Sg. apply sunion_incl1. }
      rewrite EV. apply value_ext. intros s Hs. unfold displacement. f_equal.
      assert (Hu : In (undsym s) (map fst (m_exp t))).
      { apply (wf_exp_keys _ W). rewrite (proj1 (d_names_iff (m_tpol t)) (wf_names _ W) s) by auto. auto. }
      apply key_In in Hu. destruct Hu as [c Hc]. rewrite (center_of_In (m_exp t) _ c); auto; [|apply W].
      symmetry. apply center_of_In; auto. apply Q2. auto.
  Qed.
End Extend.
