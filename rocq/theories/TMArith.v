(** * Enclosure for the linear operations on Taylor models *)
From Coq Require Import String List Arith Bool ZArith Reals Permutation Lra Lia.
From Verif Require Import Ops Syms SymsFacts Poly PolyFacts Gdual GdualFacts Functions Spec CoefFacts CoreProofs ValueProofs MiscProofs TaylorModel Interval SpecTM TMMaps Bounding SpecBounding BoundSamples.
Import ListNotations.
Local Open Scope R_scope.

Definition d_names (g : gdual R) : Prop := psyms (gp g) = map dsym (map undsym (psyms (gp g))).
Lemma d_names_iff g : d_names g <-> forall s, In s (psyms (gp g)) -> dsym (undsym s) = s.
Proof.
  unfold d_names. rewrite map_map. split.
  - intros E s Hs. induction (psyms (gp g)) as [|t l IH]; [destruct Hs|]. injection E as E1 E2. destruct Hs as [<-|Hs]; auto.
  - intros H. rewrite <- (map_id (psyms (gp g))) at 1. apply map_ext_in. intros s Hs. symmetry. auto.
Qed.
Lemma In_get_symbol_set g s : d_names g -> In s (get_symbol_set g) <-> In (dsym s) (psyms (gp g)).
Proof.
  unfold d_names. intros H. unfold get_symbol_set. rewrite H at 2. rewrite !in_map_iff. split.
  - intros (t & <- & Ht). exists (undsym t). split; auto. apply in_map. auto.
  - intros (t & E & Ht). injection E as ->. apply in_map_iff in Ht. destruct Ht as (u & <- & Hu). eauto.
Qed.
Lemma NoDup_symbol_set g : valid g -> d_names g -> NoDup (get_symbol_set g).
Proof.
  unfold d_names. intros Hg H. unfold get_symbol_set. apply (NoDup_map_inv dsym). rewrite <- H. apply (swf_NoDup _ (gwf_swf _ (valid_gwf g Hg))).
Qed.

(** ** Bounds of a polynomial *)
Lemma bounds_enclose iter (g : gdual R) ex dom : valid g -> d_names g -> (Z.of_nat (get_order g) < 4294967296)%Z ->
  (forall t, In t (pterms (gp g)) -> (list_sum (fst t) <= 62)%nat) -> distinct_keys ex -> distinct_keys dom ->
  (forall s, In s (get_symbol_set g) -> In s (map fst ex) /\ In s (map fst dom)) -> permutes iter -> ordered_on iter (get_symbol_set g) ->
  exists b, get_bounds iter g ex dom = Ok b /\ forall x, in_box dom x -> within b (value g (displacement ex x)).
Proof.
  intros Hg Hn Ho H62 Ne Nd Hk Hp Hi. set (V := get_symbol_set g) in *. set (I := fun s => get_or (0, 0) s dom). set (e := fun s => get_or 0 s ex).
  assert (Hl : forall s, In s V -> In (s, I s) dom /\ In (s, e s) ex).
  { intros s Hs. destruct (Hk s Hs) as [K1 K2]. apply key_In in K1, K2. destruct K1 as [c Hc], K2 as [J HJ]. unfold I, e.
    rewrite (get_or_In _ _ _ _ Nd HJ), (get_or_In (0 : R) _ _ _ Ne Hc). auto. }
  destruct (enclose_same g V ex dom I e iter) as (lo & hi & E & B); auto.
  - apply Hi.
    + unfold relative_box. rewrite map_map. cbn [fst]. rewrite map_id. apply NoDup_symbol_set; auto.
    + unfold relative_box. rewrite map_map. cbn [fst]. rewrite map_id. apply incl_refl.
  - exists (lo, hi). split; auto. intros x Hx. unfold within. cbn [fst snd]. apply (B x).
    + intros s Hs. apply (Hx s (I s)). apply Hl; auto.
    + intros s Hs. unfold displacement. cbn [undsym dsym]. rewrite center_of_dfind. reflexivity.
Qed.
Lemma tm_bounds_enclose iter t : well_formed t -> (Z.of_nat (get_order (m_tpol t)) < 4294967296)%Z ->
  (forall u, In u (pterms (gp (m_tpol t))) -> (list_sum (fst u) <= 62)%nat) -> permutes iter -> ordered_on iter (variables t) ->
  exists b, tm_bounds iter t = Ok b /\ forall x, in_box (m_domain t) x -> within b (value (m_tpol t) (displacement (m_exp t) x)).
Proof.
  intros [Hv _ _ Hn Ne Nd Ke Kd _] Ho H62 Hp Hi. apply bounds_enclose; auto. intros s Hs. apply In_get_symbol_set in Hs; auto.
  rewrite Ke, Kd. auto.
Qed.

(** ** The constructor on the maps of a model *)
Lemma names_sub (p : gdual R) (P : string -> Prop) : (forall s, P s -> dsym (undsym s) = s) -> (forall s, In s (psyms (gp p)) -> P s) -> d_names p.
Proof. intros H1 H2. apply d_names_iff. auto. Qed.
Lemma same_make t p r : well_formed t -> valid p -> psyms (gp p) = psyms (gp (m_tpol t)) ->
  exists T, tm_make p r (m_exp t) (m_domain t) = Ok T /\ T = mkTM p (get_order p) (get_symbol_set_size p) r (m_exp t) (m_domain t) /\ well_formed T.
Proof.
  intros [Hv H1 H2 Hn Ne Nd Ke Kd Hi] Vp Hs. assert (X := make_spec p r _ _ Ne Nd). destruct (tm_make p r (m_exp t) (m_domain t)) as [T|x].
  - exists T. destruct X as [-> C]. split; auto. split; auto. constructor; cbn [m_tpol m_order m_ndim m_exp m_domain]; auto; rewrite Hs; auto.
  - exfalso. destruct X as [_ C]. apply C. constructor; cbn [m_tpol m_order m_ndim m_exp m_domain].
    + intros s. rewrite Ke, Kd. tauto.
    + intros s c I Hc HI. assert (W := Hi s c I Hc HI). unfold within in W. split; apply Rltb_false; lra.
    + rewrite Hs, <- (map_length fst (m_domain t)), <- (map_length undsym (psyms _)).
      apply Permutation_length. apply NoDup_Permutation; auto; [apply (NoDup_symbol_set _ Hv Hn)|].
      intros s. rewrite Kd. symmetry. apply (In_get_symbol_set _ s Hn).
Qed.

(** ** Values of the scalar operations *)
Lemma degree_const (c : R) : gdegree (gconst c) = 0%nat.
Proof. assert (X := gdegree_le (gconst c) (valid_gwf _ (valid_const c))). cbn [gord gconst] in X. lia. Qed.
Section Scalar.
  Variables (c : R) (g : gdual R).
  Hypothesis Hg : valid g.
  Let S := sto_valid g Hg.
  Let Vc : valid (gconst c) := valid_const c.
  Lemma valid_add_sg : valid (gadd_sg c g). Proof. eapply valid_sto; eauto 4 with sto. Qed.
  Lemma valid_add_gs : valid (gadd_gs g c). Proof. eapply valid_sto; eauto 4 with sto. Qed.
  Lemma valid_sub_sg : valid (gsub_sg c g). Proof. eapply valid_sto; eauto 4 with sto. Qed.
  Lemma valid_sub_gs : valid (gsub_gs g c). Proof. eapply valid_sto; eauto 4 with sto. Qed.
  Lemma valid_mul_sg' : valid (gmul_sg c g). Proof. eapply valid_sto; eauto 4 with sto. Qed.
  Lemma valid_mul_gs : valid (gmul_gs g c). Proof. eapply valid_sto; eauto 4 with sto. Qed.
  Lemma valid_div_gs : valid (gdiv_gs g c). Proof. eapply valid_sto; eauto 4 with sto. Qed.
  Lemma value_add_sg rho : value (gadd_sg c g) rho = c + value g rho.
  Proof.
    destruct (scalar_ops c g Hg) as [[E _] _]. rewrite (proj1 (value_eq_iff _ _ valid_add_sg (valid_add _ _ Vc Hg)) E).
    rewrite value_add, value_const; auto.
  Qed.
  Lemma value_add_gs rho : value (gadd_gs g c) rho = value g rho + c.
  Proof.
    destruct (scalar_ops c g Hg) as (_ & [E _] & _). rewrite (proj1 (value_eq_iff _ _ valid_add_gs (valid_add _ _ Hg Vc)) E).
    rewrite value_add, value_const; auto.
  Qed.
  Lemma value_sub_sg rho : value (gsub_sg c g) rho = c - value g rho.
  Proof.
    destruct (scalar_ops c g Hg) as (_ & _ & [E _] & _). rewrite (proj1 (value_eq_iff _ _ valid_sub_sg (valid_sub _ _ Vc Hg)) E).
    rewrite value_sub, value_const; auto.
  Qed.
  Lemma value_sub_gs rho : value (gsub_gs g c) rho = value g rho - c.
  Proof.
    destruct (scalar_ops c g Hg) as (_ & _ & _ & [E _] & _). rewrite (proj1 (value_eq_iff _ _ valid_sub_gs (valid_sub _ _ Hg Vc)) E).
    rewrite value_sub, value_const; auto.
  Qed.
  Lemma value_mul_gs rho : value (gmul_gs g c) rho = value g rho * c.
  Proof.
    destruct (scalar_ops c g Hg) as (_ & _ & _ & _ & [E _] & [E' _] & _). 
    rewrite (proj1 (value_eq_iff _ _ valid_mul_gs (valid_mul _ _ Hg Vc)) E').
    assert (D : (gdegree g + gdegree (gconst c) <= Nat.max (gord g) (gord (gconst c)))%nat).
    { rewrite degree_const. cbn [gord gconst]. rewrite Nat.max_0_r, Nat.add_0_r. exact (gdegree_le g (valid_gwf g Hg)). }
    rewrite (value_mul g (gconst c) rho Hg Vc D), value_const. reflexivity.
  Qed.
End Scalar.
Lemma value_div_gs (c : R) g rho : valid g -> value (gdiv_gs g c) rho = value g rho / c.
Proof. intros Hg. unfold gdiv_gs. rewrite (value_mul_gs (1 / c)) by auto. unfold Rdiv. ring. Qed.

(** ** Changing the maps *)
Lemma value_displacement (g : gdual R) ex ex' x : d_names g -> (forall s, In (dsym s) (psyms (gp g)) -> center_of ex s = center_of ex' s) ->
  value g (displacement ex x) = value g (displacement ex' x).
Proof.
  intros Hn H. apply value_ext. intros s Hs. unfold displacement. f_equal. apply H. rewrite (proj1 (d_names_iff g) Hn); auto.
Qed.

(** Merging the maps of two models and restricting the result to the symbols of [p]. *)
Record merged (A B : taylor_model R) (p : gdual R) (ne : list (string * R)) (nd : list (string * (R * R))) : Prop := mkMerged {
  mg_exp : forall s c, In (s, c) ne <-> In (dsym s) (psyms (gp p)) /\ (In (s, c) (m_exp A) \/ (In (s, c) (m_exp B) /\ ~ In s (map fst (m_exp A))));
  mg_dom : forall s I, In (s, I) nd <-> In (dsym s) (psyms (gp p)) /\ (In (s, I) (m_domain A) \/ (In (s, I) (m_domain B) /\ ~ In s (map fst (m_domain A))));
  mg_ne : distinct_keys ne;
  mg_nd : distinct_keys nd
}.
Lemma scalar_equal_spec (a b : R) : scalar_equal a b = true <-> close a b.
Proof. unfold scalar_equal, close. cbn. apply Rltb_true. Qed.
Lemma interval_equal_spec (a b : R * R) : interval_equal a b = true <-> close (fst a) (fst b) /\ close (snd a) (snd b).
Proof. unfold interval_equal. rewrite andb_true_iff, !scalar_equal_spec. tauto. Qed.

Lemma merge_spec A B p : well_formed A -> well_formed B -> d_names p ->
  (forall s, In s (psyms (gp p)) -> In s (psyms (gp (m_tpol A))) \/ In s (psyms (gp (m_tpol B)))) ->
  (close_centers A B /\ close_domains A B /\ exists ce cd ne nd, common_exp A B = Ok ce /\ common_domain A B = Ok cd /\
     (forall s c, In (s, c) ce <-> In (s, c) (m_exp A) \/ (In (s, c) (m_exp B) /\ ~ In s (map fst (m_exp A)))) /\
     (forall s c, In (s, c) cd <-> In (s, c) (m_domain A) \/ (In (s, c) (m_domain B) /\ ~ In s (map fst (m_domain A)))) /\
     distinct_keys ce /\ distinct_keys cd /\
     trim_map (get_symbol_set p) ce = Ok ne /\ trim_map (get_symbol_set p) cd = Ok nd /\ merged A B p ne nd) \/
  (~ (close_centers A B /\ close_domains A B) /\ forall (T : Type) (f : list (string * R) -> list (string * (R * R)) -> res T),
     (ce <- common_exp A B;; cd <- common_domain A B;; f ce cd) = Throw RuntimeError).
Proof.
  intros WA WB Hn Hs. unfold common_exp, common_domain.
  assert (X := common_spec scalar_equal (m_exp A) (m_exp B) (wf_exp _ WA) (wf_exp _ WB)).
  assert (Y := common_spec interval_equal (m_domain A) (m_domain B) (wf_dom _ WA) (wf_dom _ WB)).
  destruct (get_common_map scalar_equal _ _) as [ce|x].
  2:{ right. destruct X as (-> & s & v & w & H1 & H2 & E). split; auto. intros [C _]. assert (Z := C s v w H1 H2). apply scalar_equal_spec in Z. congruence. }
  destruct (get_common_map interval_equal _ _) as [cd|x].
  2:{ right. destruct Y as (-> & s & v & w & H1 & H2 & E). split; auto. intros [_ C]. assert (Z := C s v w H1 H2). apply interval_equal_spec in Z. congruence. }
  left. destruct X as (N1 & E1 & M1), Y as (N2 & E2 & M2). split; [intros s c c' H H'; apply scalar_equal_spec; eauto|].
  split; [intros s c c' H H'; apply interval_equal_spec; eauto|]. exists ce, cd.
  assert (X := trim_spec (get_symbol_set p) ce N1). assert (Y := trim_spec (get_symbol_set p) cd N2).
  assert (D : forall s, In s (get_symbol_set p) -> In (dsym s) (psyms (gp (m_tpol A))) \/ In (dsym s) (psyms (gp (m_tpol B)))).
  { intros s Q. apply In_get_symbol_set in Q; auto. }
  destruct (trim_map (get_symbol_set p) ce) as [ne|x].
  2:{ exfalso. destruct X as (_ & s & Q & E). apply E. apply key_In. destruct (in_dec string_dec s (map fst (m_exp A))) as [I|I].
      - apply key_In in I. destruct I as [c I]. exists c. apply M1. auto.
      - destruct (D s Q) as [Q'|Q']; [apply (wf_exp_keys _ WA) in Q'; tauto|]. apply (wf_exp_keys _ WB) in Q'. apply key_In in Q'.
        destruct Q' as [c Q']. exists c. apply M1. auto. }
  destruct (trim_map (get_symbol_set p) cd) as [nd|x].
  2:{ exfalso. destruct Y as (_ & s & Q & E). apply E. apply key_In. destruct (in_dec string_dec s (map fst (m_domain A))) as [I|I].
      - apply key_In in I. destruct I as [c I]. exists c. apply M2. auto.
      - destruct (D s Q) as [Q'|Q']; [apply (wf_dom_keys _ WA) in Q'; tauto|]. apply (wf_dom_keys _ WB) in Q'. apply key_In in Q'.
        destruct Q' as [c Q']. exists c. apply M2. auto. }
  exists ne, nd. destruct X as (N3 & _ & M3), Y as (N4 & _ & M4). do 8 (split; [solve [auto]|]). constructor; auto.
  - intros s c. rewrite M3, M1, In_get_symbol_set by auto. tauto.
  - intros s c. rewrite M4, M2, In_get_symbol_set by auto. tauto.
Qed.

Section Merged.
  Variables (A B : taylor_model R) (p : gdual R) (ne : list (string * R)) (nd : list (string * (R * R))).
  Hypothesis WA : well_formed A.
  Hypothesis WB : well_formed B.
  Hypothesis Vp : valid p.
  Hypothesis Np : d_names p.
  Hypothesis Hs : forall s, In s (psyms (gp p)) -> In s (psyms (gp (m_tpol A))) \/ In s (psyms (gp (m_tpol B))).
  Hypothesis M : merged A B p ne nd.

  Lemma merged_exp_keys s : In s (map fst ne) <-> In (dsym s) (psyms (gp p)).
  Proof.
    rewrite key_In. split.
    - intros [c H]. apply (mg_exp _ _ _ _ _ M) in H. tauto.
    - intros H. destruct (in_dec string_dec s (map fst (m_exp A))) as [I|I].
      + apply key_In in I. destruct I as [c I]. exists c. apply (mg_exp _ _ _ _ _ M). auto.
      + destruct (Hs _ H) as [Q|Q]; [apply (wf_exp_keys _ WA) in Q; tauto|]. apply (wf_exp_keys _ WB) in Q. apply key_In in Q.
        destruct Q as [c Q]. exists c. apply (mg_exp _ _ _ _ _ M). auto.
  Qed.
  Lemma merged_dom_keys s : In s (map fst nd) <-> In (dsym s) (psyms (gp p)).
  Proof.
    rewrite key_In. split.
    - intros [c H]. apply (mg_dom _ _ _ _ _ M) in H. tauto.
    - intros H. destruct (in_dec string_dec s (map fst (m_domain A))) as [I|I].
      + apply key_In in I. destruct I as [c I]. exists c. apply (mg_dom _ _ _ _ _ M). auto.
      + destruct (Hs _ H) as [Q|Q]; [apply (wf_dom_keys _ WA) in Q; tauto|]. apply (wf_dom_keys _ WB) in Q. apply key_In in Q.
        destruct Q as [c Q]. exists c. apply (mg_dom _ _ _ _ _ M). auto.
  Qed.
  Lemma merged_inside s c I : In (s, c) ne -> In (s, I) nd -> within I c.
  Proof.
    intros Hc HI. apply (mg_exp _ _ _ _ _ M) in Hc. apply (mg_dom _ _ _ _ _ M) in HI.
    assert (KA : In s (map fst (m_exp A)) <-> In s (map fst (m_domain A))) by (rewrite (wf_exp_keys _ WA), (wf_dom_keys _ WA); tauto).
    destruct Hc as [_ [Hc|[Hc Nc]]], HI as [_ [HI|[HI NI]]].
    - apply (wf_inside _ WA s); auto.
    - exfalso. apply NI, KA, key_In. eauto.
    - exfalso. apply Nc, KA, key_In. eauto.
    - apply (wf_inside _ WB s); auto.
  Qed.
  Lemma merged_make r : exists T, tm_make p r ne nd = Ok T /\ T = mkTM p (get_order p) (get_symbol_set_size p) r ne nd /\ well_formed T.
  Proof.
    assert (X := make_spec p r _ _ (mg_ne _ _ _ _ _ M) (mg_nd _ _ _ _ _ M)).
    destruct (tm_make p r ne nd) as [T|x].
    - exists T. destruct X as [-> C]. split; auto. split; auto. constructor; cbn [m_tpol m_order m_ndim m_exp m_domain]; auto.
      + apply M.
      + apply M.
      + apply merged_exp_keys.
      + apply merged_dom_keys.
      + apply merged_inside.
    - exfalso. destruct X as [_ C]. apply C. constructor; cbn [m_tpol m_order m_ndim m_exp m_domain].
      + intros s. rewrite merged_exp_keys, merged_dom_keys. tauto.
      + intros s c I Hc HI. assert (W := merged_inside s c I Hc HI). unfold within in W. split; apply Rltb_false; lra.
      + rewrite <- (map_length fst nd), <- (map_length undsym (psyms _)).
        apply Permutation_length. apply NoDup_Permutation; [apply M|apply (NoDup_symbol_set _ Vp Np)|].
        intros s. rewrite merged_dom_keys. symmetry. apply (In_get_symbol_set _ s Np).
  Qed.
  Lemma merged_box x : in_box (m_domain A) x -> in_box (m_domain B) x -> in_box nd x.
  Proof.
    intros HA HB s I H. apply (mg_dom _ _ _ _ _ M) in H. destruct H as [_ [H|[H _]]]; [apply HA|apply HB]; auto.
  Qed.
  Hypothesis SC : same_centers A B.
  Lemma merged_center_l s : In (dsym s) (psyms (gp p)) -> In (dsym s) (psyms (gp (m_tpol A))) -> center_of ne s = center_of (m_exp A) s.
  Proof.
    intros Hp H. apply (wf_exp_keys _ WA) in H. apply key_In in H. destruct H as [c H].
    rewrite (center_of_In (m_exp A) s c) by (auto; apply WA). apply center_of_In; [apply M|]. apply (mg_exp _ _ _ _ _ M). auto.
  Qed.
  Lemma merged_center_r s : In (dsym s) (psyms (gp p)) -> In (dsym s) (psyms (gp (m_tpol B))) -> center_of ne s = center_of (m_exp B) s.
  Proof.
    intros Hp H. apply (wf_exp_keys _ WB) in H. apply key_In in H. destruct H as [c H].
    rewrite (center_of_In (m_exp B) s c) by (auto; apply WB). apply center_of_In; [apply M|]. apply (mg_exp _ _ _ _ _ M). split; auto.
    destruct (in_dec string_dec s (map fst (m_exp A))) as [I|I]; auto. left. apply key_In in I. destruct I as [c' I].
    rewrite <- (SC s c' c); auto.
  Qed.
  Lemma merged_value_l (g : gdual R) x : (forall s, In s (psyms (gp g)) -> In s (psyms (gp p)) /\ In s (psyms (gp (m_tpol A)))) ->
    value g (displacement ne x) = value g (displacement (m_exp A) x).
  Proof.
    intros H. apply value_displacement.
    - apply d_names_iff. intros s I. apply (proj1 (d_names_iff p) Np). apply H; auto.
    - intros s I. apply merged_center_l; apply H; auto.
  Qed.
  Lemma merged_value_r (g : gdual R) x : (forall s, In s (psyms (gp g)) -> In s (psyms (gp p)) /\ In s (psyms (gp (m_tpol B)))) ->
    value g (displacement ne x) = value g (displacement (m_exp B) x).
  Proof.
    intros H. apply value_displacement.
    - apply d_names_iff. intros s I. apply (proj1 (d_names_iff p) Np). apply H; auto.
    - intros s I. apply merged_center_r; apply H; auto.
  Qed.
End Merged.

(** ** Addition and subtraction *)
Lemma d_names_union (p a b : gdual R) : (forall s, In s (psyms (gp p)) -> In s (psyms (gp a)) \/ In s (psyms (gp b))) -> d_names a -> d_names b -> d_names p.
Proof. intros H Ha Hb. apply d_names_iff. intros s Hs. destruct (H s Hs); [apply (proj1 (d_names_iff a) Ha)|apply (proj1 (d_names_iff b) Hb)]; auto. Qed.
Lemma add_syms (a b : gdual R) s : In s (psyms (gp (gadd a b))) <-> In s (psyms (gp a)) \/ In s (psyms (gp b)).
Proof. change (psyms (gp (gadd a b))) with (gsyms (gadd a b)). rewrite gsyms_add. apply sunion_In. Qed.
Lemma sub_syms (a b : gdual R) s : In s (psyms (gp (gsub a b))) <-> In s (psyms (gp a)) \/ In s (psyms (gp b)).
Proof. change (psyms (gp (gsub a b))) with (gsyms (gsub a b)). rewrite gsyms_sub. apply sunion_In. Qed.

Lemma tm_add_cases A B : well_formed A -> well_formed B ->
  (close_centers A B /\ close_domains A B -> exists T, tm_add A B = Ok T) /\
  (~ (close_centers A B /\ close_domains A B) -> tm_add A B = Throw RuntimeError) /\
  forall T D f g, tm_add A B = Ok T -> same_centers A B -> encloses D A f -> encloses D B g -> represents D T (fun x => f x + g x).
Proof.
  intros WA WB. unfold tm_add. set (p := gadd (m_tpol A) (m_tpol B)).
  assert (Vp : valid p) by (apply valid_add; apply wf_poly; auto).
  assert (Sp : forall s, In s (psyms (gp p)) -> In s (psyms (gp (m_tpol A))) \/ In s (psyms (gp (m_tpol B)))) by (intros s; apply add_syms).
  assert (Np : d_names p) by (apply (d_names_union _ _ _ Sp); [apply (wf_names _ WA)|apply (wf_names _ WB)]).
  destruct (merge_spec A B p WA WB Np Sp) as [(C1 & C2 & ce & cd & ne & nd & E1 & E2 & _ & _ & _ & _ & E3 & E4 & M)|[C E]].
  - rewrite E1, E2. cbn [rbind]. fold p. rewrite E3, E4. cbn [rbind].
    destruct (merged_make A B p ne nd WA WB Vp Np Sp M (iadd (m_rem A) (m_rem B))) as (T & E & ET & WT). rewrite E.
    split; [eauto|]. split; [tauto|]. intros T' D f g E' SC HA HB. injection E' as <-. split; auto. intros x Hx. subst T. cbn [m_domain m_rem m_tpol m_exp].
    destruct (HA x Hx) as [BA RA], (HB x Hx) as [BB RB]. split; [eapply merged_box; eauto|].
    unfold p at 1. rewrite value_add by (apply wf_poly; auto).
    rewrite (merged_value_l A B p ne nd WA Np M (m_tpol A)), (merged_value_r A B p ne nd WB Np M SC (m_tpol B)).
    + replace (_ - _) with ((f x - value (m_tpol A) (displacement (m_exp A) x)) + (g x - value (m_tpol B) (displacement (m_exp B) x))) by (cbn; ring).
      apply within_add; auto.
    + intros s I. split; auto. apply add_syms. auto.
    + intros s I. split; auto. apply add_syms. auto.
  - split; [tauto|]. split; [intros _; apply E|]. intros T D f g. rewrite E. discriminate.
Qed.
Lemma tm_sub_cases A B : well_formed A -> well_formed B ->
  (close_centers A B /\ close_domains A B -> exists T, tm_sub A B = Ok T) /\
  (~ (close_centers A B /\ close_domains A B) -> tm_sub A B = Throw RuntimeError) /\
  forall T D f g, tm_sub A B = Ok T -> same_centers A B -> encloses D A f -> encloses D B g -> represents D T (fun x => f x - g x).
Proof.
  intros WA WB. unfold tm_sub. set (p := gsub (m_tpol A) (m_tpol B)).
  assert (Vp : valid p) by (apply valid_sub; apply wf_poly; auto).
  assert (Sp : forall s, In s (psyms (gp p)) -> In s (psyms (gp (m_tpol A))) \/ In s (psyms (gp (m_tpol B)))) by (intros s; apply sub_syms).
  assert (Np : d_names p) by (apply (d_names_union _ _ _ Sp); [apply (wf_names _ WA)|apply (wf_names _ WB)]).
  destruct (merge_spec A B p WA WB Np Sp) as [(C1 & C2 & ce & cd & ne & nd & E1 & E2 & _ & _ & _ & _ & E3 & E4 & M)|[C E]].
  - rewrite E1, E2. cbn [rbind]. fold p. rewrite E3, E4. cbn [rbind].
    destruct (merged_make A B p ne nd WA WB Vp Np Sp M (isub (m_rem A) (m_rem B))) as (T & E & ET & WT). rewrite E.
    split; [eauto|]. split; [tauto|]. intros T' D f g E' SC HA HB. injection E' as <-. split; auto. intros x Hx. subst T. cbn [m_domain m_rem m_tpol m_exp].
    destruct (HA x Hx) as [BA RA], (HB x Hx) as [BB RB]. split; [eapply merged_box; eauto|].
    unfold p at 1. rewrite value_sub by (apply wf_poly; auto).
    rewrite (merged_value_l A B p ne nd WA Np M (m_tpol A)), (merged_value_r A B p ne nd WB Np M SC (m_tpol B)).
    + replace (_ - _) with ((f x - value (m_tpol A) (displacement (m_exp A) x)) - (g x - value (m_tpol B) (displacement (m_exp B) x))) by (cbn; ring).
      apply within_sub; auto.
    + intros s I. split; auto. apply sub_syms. auto.
    + intros s I. split; auto. apply sub_syms. auto.
  - split; [tauto|]. split; [intros _; apply E|]. intros T D f g. rewrite E. discriminate.
Qed.

(** ** Operations with a number or an interval *)
Lemma represent_same A p r D f (h : point -> R) : well_formed A -> valid p -> psyms (gp p) = psyms (gp (m_tpol A)) ->
  encloses D A f -> (forall x, D x -> within (m_rem A) (f x - value (m_tpol A) (displacement (m_exp A) x)) ->
    within r (h x - value p (displacement (m_exp A) x))) ->
  exists T, tm_make p r (m_exp A) (m_domain A) = Ok T /\ represents D T h.
Proof.
  intros WA Vp Hs HA H. destruct (same_make A p r WA Vp Hs) as (T & E & ET & WT). exists T. split; auto. split; auto.
  intros x Hx. destruct (HA x Hx) as [BA RA]. subst T. cbn [m_domain m_rem m_tpol m_exp]. split; auto.
Qed.
Section Mixed.
  Variables (A : taylor_model R) (D : point -> Prop) (f : point -> R).
  Hypothesis RA : represents D A f.
  Let W := proj1 RA.
  Let Wf : gwf (m_tpol A) := valid_gwf _ (wf_poly _ W).
  Let H := proj2 RA.
  Lemma tm_add_sg_ok c : exists T, tm_add_sg c A = Ok T /\ represents D T (fun x => c + f x).
  Proof.
    apply (represent_same A _ _ D f); [exact W|apply valid_add_sg; apply W|exact (gsyms_gadd_sg c (m_tpol A))|exact H|].
    intros x _ X. rewrite value_add_sg by apply W. unfold within in *. lra.
  Qed.
  Lemma tm_add_gs_ok c : exists T, tm_add_gs A c = Ok T /\ represents D T (fun x => f x + c).
  Proof.
    apply (represent_same A _ _ D f); [exact W|apply valid_add_gs; apply W|exact (gsyms_gadd_gs c (m_tpol A))|exact H|].
    intros x _ X. rewrite value_add_gs by apply W. unfold within in *. lra.
  Qed.
  Lemma tm_sub_gs_ok c : exists T, tm_sub_gs A c = Ok T /\ represents D T (fun x => f x - c).
  Proof.
    apply (represent_same A _ _ D f); [exact W|apply valid_sub_gs; apply W|exact (gsyms_gsub_gs (m_tpol A) c Wf)|exact H|].
    intros x _ X. rewrite value_sub_gs by apply W. unfold within in *. lra.
  Qed.
  (** sound only when the remainder is symmetric *)
  Lemma tm_sub_sg_ok c : fst (m_rem A) = - snd (m_rem A) -> exists T, tm_sub_sg c A = Ok T /\ represents D T (fun x => c - f x).
  Proof.
    intros E. apply (represent_same A _ _ D f); [exact W|apply valid_sub_sg; apply W|exact (gsyms_gsub_sg c (m_tpol A))|exact H|].
    intros x _ X. rewrite value_sub_sg by apply W. unfold within in *. lra.
  Qed.
  Lemma tm_neg_ok : fst (m_rem A) = - snd (m_rem A) -> exists T, tm_neg A = Ok T /\ represents D T (fun x => - f x).
  Proof.
    intros E. unfold tm_neg. destruct (tm_sub_sg_ok 0 E) as (T & ET & WT & RT). exists T. split; auto. split; auto. intros x Hx.
    destruct (RT x Hx) as [B X]. split; auto. unfold within in *. lra.
  Qed.
  Lemma tm_mul_sg_ok c : exists T, tm_mul_sg c A = Ok T /\ represents D T (fun x => c * f x).
  Proof.
    apply (represent_same A _ _ D f); [exact W|apply valid_mul_sg'; apply W|exact (gsyms_gmul_sg c (m_tpol A))|exact H|].
    intros x _ X. rewrite value_mul_sg by apply W. replace (_ - _) with (c * (f x - value (m_tpol A) (displacement (m_exp A) x))) by (cbn; ring).
    apply within_mul; auto using within_ipt.
  Qed.
  Lemma tm_mul_gs_ok c : exists T, tm_mul_gs A c = Ok T /\ represents D T (fun x => f x * c).
  Proof.
    apply (represent_same A _ _ D f); [exact W|apply valid_mul_gs; apply W|exact (gsyms_gmul_gs (m_tpol A) c Wf)|exact H|].
    intros x _ X. rewrite value_mul_gs by apply W. replace (_ - _) with ((f x - value (m_tpol A) (displacement (m_exp A) x)) * c) by (cbn; ring).
    apply within_mul; auto using within_ipt.
  Qed.
  Lemma tm_div_gs_ok c : c <> 0 -> exists T, tm_div_gs A c = Ok T /\ represents D T (fun x => f x / c).
  Proof.
    intros Hc. unfold tm_div_gs. destruct (idiv_Ok (m_rem A) (ipt c)) as [r E].
    { cbn. lra. }
    rewrite E. cbn [rbind]. apply (represent_same A _ _ D f); [exact W|apply valid_div_gs; apply W|exact (gsyms_gdiv_gs (m_tpol A) c Wf)|exact H|].
    intros x _ X. rewrite value_div_gs by apply W. replace (_ - _) with ((f x - value (m_tpol A) (displacement (m_exp A) x)) / c) by (unfold Rdiv; cbn; ring).
    eapply within_div; eauto. apply within_ipt.
  Qed.
  Lemma tm_div_gs_zero : tm_div_gs A 0 = Throw OtherException.
  Proof.
    unfold tm_div_gs, idiv. replace (zero_in (ipt 0)) with true; auto. symmetry. apply zero_in_spec. unfold within, ipt. cbn. lra.
  Qed.
  (** [h] is any function whose values lie in the interval *)
  Lemma tm_add_ig_ok I (h : point -> R) : (forall x, D x -> within I (h x)) -> exists T, tm_add_ig I A = Ok T /\ represents D T (fun x => h x + f x).
  Proof.
    intros HI. apply (represent_same A _ _ D f); [exact W|apply W|reflexivity|exact H|].
    intros x Dx X. replace (_ - _) with (h x + (f x - value (m_tpol A) (displacement (m_exp A) x))) by ring. apply within_add; auto.
  Qed.
  Lemma tm_add_gi_ok I (h : point -> R) : (forall x, D x -> within I (h x)) -> exists T, tm_add_gi A I = Ok T /\ represents D T (fun x => f x + h x).
  Proof.
    intros HI. apply (represent_same A _ _ D f); [exact W|apply W|reflexivity|exact H|].
    intros x Dx X. replace (_ - _) with ((f x - value (m_tpol A) (displacement (m_exp A) x)) + h x) by ring. apply within_add; auto.
  Qed.
  Lemma tm_sub_gi_ok I (h : point -> R) : (forall x, D x -> within I (h x)) -> exists T, tm_sub_gi A I = Ok T /\ represents D T (fun x => f x - h x).
  Proof.
    intros HI. apply (represent_same A _ _ D f); [exact W|apply W|reflexivity|exact H|].
    intros x Dx X. replace (_ - _) with ((f x - value (m_tpol A) (displacement (m_exp A) x)) - h x) by ring. apply within_sub; auto.
  Qed.
End Mixed.
