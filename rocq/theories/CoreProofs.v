(** * Proofs of the core properties C01-C08 (proof file) *)

From Coq Require FinFun.
From Coq Require Import String Ascii List Arith Bool Lia ZArith Sorting.Sorted Setoid Morphisms Ring Field.
From Verif Require Import Ops Syms SymsFacts Poly PolyFacts Sem Den Gdual GdualFacts Functions FunStruct Spec CoefFacts.
Import ListNotations.

(** ** C01-C03: law-free structural facts *)
Section Structure.
  Context {K : Type} {o : Ops K} {e : Elem K}.
  #[local] Hint Resolve (@valid_gwf K o) (@valid_gnz K o) : gwf.

  Lemma reach_degree (neg_nz : forall c : K, keqb c k0 = false -> keqb (kopp c) k0 = false) (g : gdual K) :
    reach g -> valid g /\ gdegree g <= get_order g.
  Proof.
    intros H. assert (V := reach_valid neg_nz g H). split; auto. apply gdegree_le. auto with gwf.
  Qed.

  Lemma ord_binary (a b : gdual K) : valid a -> valid b ->
    get_order (gadd a b) = Nat.max (get_order a) (get_order b) /\
    get_order (gsub a b) = Nat.max (get_order a) (get_order b) /\
    get_order (gmul a b) = Nat.max (get_order a) (get_order b) /\
    get_order (gdiv a b) = Nat.max (get_order a) (get_order b) /\
    get_order (gpow a b) = Nat.max (get_order a) (get_order b).
  Proof.
    intros Ha Hb. unfold get_order. conjs; auto.
    - apply gdiv_ord; auto with gwf.
    - pose proof (sto_pow _ _ _ _ _ _ (sto_valid a Ha) (sto_valid b Hb)) as [_ _ O _]. rewrite O. apply Nat.max_comm.
  Qed.
  Lemma ord_unary (a : gdual K) v : valid a ->
    get_order (gadd_sg v a) = get_order a /\ get_order (gadd_gs a v) = get_order a /\
    get_order (gsub_sg v a) = get_order a /\ get_order (gsub_gs a v) = get_order a /\
    get_order (gmul_sg v a) = get_order a /\ get_order (gmul_gs a v) = get_order a /\
    get_order (gdiv_sg v a) = get_order a /\ get_order (gdiv_gs a v) = get_order a /\
    get_order (gneg a) = get_order a /\
    (forall s g, gintegrate a s = Ok g -> get_order g = get_order a) /\
    (forall s g, gpartial a s = Ok g -> get_order g = get_order a) /\
    (forall s, get_order (gsubs_val a s v) = get_order a) /\
    (forall s b, get_order (gsubs a s b) = get_order a) /\
    (forall eps g, gtrim a eps = Ok g -> get_order g = get_order a) /\
    (forall l g, extend_symbol_set l a = Ok g -> get_order g = get_order a) /\
    (forall n g, extract_terms a n = Ok g -> get_order g = n).
  Proof.
    intros Ha. assert (W := valid_gwf a Ha). unfold get_order. conjs; auto.
    - apply gmul_sg_ord.
    - apply gmul_gs_ord.
    - apply gdiv_sg_ord; auto.
    - apply gdiv_gs_ord.
    - intros s g E. eapply gintegrate_gwf; eauto.
    - intros s g E. eapply gpartial_gwf; eauto.
    - intros eps g E. eapply gtrim_gwf; eauto.
    - intros l g E. eapply extend_gwf; eauto.
    - intros n g E. eapply extract_terms_gwf; eauto.
  Qed.

  Lemma atan0_ord (d : gdual K) : gord d = 0 -> gord (gatan d) = 0.
  Proof. intros E. unfold gatan. rewrite E. reflexivity. Qed.
  Lemma atanh0_ord (d : gdual K) : gord d = 0 -> gord (gatanh d) = 0.
  Proof. intros E. unfold gatanh. rewrite E. reflexivity. Qed.

  (** Order and symbols of [run1]; the functions based on atan and atanh lose
      the symbols at order 0. *)
  Definition series_atan (f : fun1) : bool :=
    match f with Fatan | Fatanh | Fasin | Facos => true | _ => false end.
  Lemma run1_sto f (d : gdual K) (neg_nz : forall c : K, keqb c k0 = false -> keqb (kopp c) k0 = false) :
    valid d -> (series_atan f = true -> gord d <> 0) -> sto (gsyms d) (gord d) (run1 f d).
  Proof.
    intros H Hn. pose proof (sto_valid d H) as S. apply valid_iff in H. destruct H as [W N].
    destruct f; cbn [run1 series_atan] in *; try (auto with sto; fail).
    - apply (gsin_sto d W N).
    - apply (gcos_sto d W N).
    - apply (gtan_sto d W N).
    - apply (gsinh_sto d W N).
    - apply (gcosh_sto d W N).
    - apply (gtanh_sto d W N).
    - apply sto_atan; auto.
    - apply sto_atanh; auto.
    - apply sto_asin; auto.
    - apply sto_acos; auto.
    - apply sto_asinh; auto.
    - apply sto_acosh; auto.
    - unfold gabs. destruct (_ || _); auto. constructor; auto using gneg_nz with gwf.
    - apply (gtan_quad_sto d W N).
    - apply (gtanh_quad_sto d W N).
    - unfold glog10. auto 4 with sto.
    - unfold glog2. auto 4 with sto.
    - unfold glog1p. auto 4 with sto.
    - unfold gexpm1. auto 4 with sto.
  Qed.
  Lemma run1_ord f (d : gdual K) : valid d -> get_order (run1 f d) = get_order d.
  Proof.
    intros H. unfold get_order.
    assert (R : series_atan f = false \/ gord d <> 0 -> gord (run1 f d) = gord d).
    { intros Hf. pose proof (sto_valid d H) as S. apply valid_iff in H. destruct H as [W N].
      destruct f; cbn [run1 series_atan] in *;
        try (match goal with |- gord ?x = _ => assert (T : sto (gsyms d) (gord d) x) by auto with sto; apply T end; fail).
      - apply (gsin_sto d W N).
      - apply (gcos_sto d W N).
      - apply (gtan_sto d W N).
      - apply (gsinh_sto d W N).
      - apply (gcosh_sto d W N).
      - apply (gtanh_sto d W N).
      - eapply sto_atan; eauto. destruct Hf; [discriminate|auto].
      - eapply sto_atanh; eauto. destruct Hf; [discriminate|auto].
      - eapply sto_asin; eauto. destruct Hf; [discriminate|auto].
      - eapply sto_acos; eauto. destruct Hf; [discriminate|auto].
      - eapply sto_asinh; eauto.
      - eapply sto_acosh; eauto.
      - unfold gabs. destruct (_ || _); auto.
      - apply (gtan_quad_sto d W N).
      - apply (gtanh_quad_sto d W N).
      - unfold glog10. assert (T : sto (gsyms d) (gord d) (gdiv_gs (glog d) (e_log (kofZ 10)))) by auto 4 with sto. apply T.
      - unfold glog2. assert (T : sto (gsyms d) (gord d) (gdiv_gs (glog d) (e_log (kofZ 2)))) by auto 4 with sto. apply T.
      - unfold glog1p. assert (T : sto (gsyms d) (gord d) (glog (gadd_gs d k1))) by auto 4 with sto. apply T.
      - unfold gexpm1. assert (T : sto (gsyms d) (gord d) (gsub_gs (gexp d) k1)) by auto 4 with sto. apply T. }
    destruct (Nat.eq_dec (gord d) 0) as [E|E]; [|apply R; auto].
    destruct (series_atan f) eqn:Ef; [|apply R; auto].
    rewrite E. pose proof (sto_valid d H) as S.
    destruct f; try discriminate; cbn [run1].
    - apply atan0_ord; auto.
    - apply atanh0_ord; auto.
    - unfold gasin. apply atan0_ord.
      assert (T : sto (gsyms d) (gord d) (gdiv d (gsqrt (gsub_sg k1 (gmul d d))))) by auto 8 with sto.
      rewrite <- E. apply T.
    - unfold gacos. cbn. unfold gasin. apply atan0_ord.
      assert (T : sto (gsyms d) (gord d) (gdiv d (gsqrt (gsub_sg k1 (gmul d d))))) by auto 8 with sto.
      rewrite <- E. apply T.
  Qed.
  Lemma ord_pow (d : gdual K) : valid d ->
    (forall alpha, get_order (gpow_real d alpha) = get_order d) /\
    (forall n, get_order (gpow_int d n) = get_order d) /\
    (forall b, gdegree d <> 0 -> get_order (gpow_sg b d) = get_order d).
  Proof.
    intros H. pose proof (sto_valid d H) as S. unfold get_order. conjs.
    - intros al. eapply sto_pow_real; eauto.
    - intros n. eapply sto_pow_int; eauto.
    - intros b Hd. apply valid_iff in H. destruct H. eapply (gpow_sg_sto d); auto.
  Qed.

  (** *** Symbols *)
  Lemma In_map_union {A B} (f : A -> B) l a b s : (forall x, In x l <-> In x a \/ In x b) ->
    In s (map f l) <-> In s (map f a) \/ In s (map f b).
  Proof.
    intros H. rewrite !in_map_iff. split.
    - intros (x & E & Hx). apply H in Hx. destruct Hx; [left|right]; eauto.
    - intros [(x & E & Hx)|(x & E & Hx)]; exists x; split; auto; apply H; auto.
  Qed.
  Lemma syms_binary (a b : gdual K) s : valid a -> valid b ->
    (In s (get_symbol_set (gadd a b)) <-> In s (get_symbol_set a) \/ In s (get_symbol_set b)) /\
    (In s (get_symbol_set (gsub a b)) <-> In s (get_symbol_set a) \/ In s (get_symbol_set b)) /\
    (In s (get_symbol_set (gmul a b)) <-> In s (get_symbol_set a) \/ In s (get_symbol_set b)) /\
    (In s (get_symbol_set (gdiv a b)) <-> In s (get_symbol_set a) \/ In s (get_symbol_set b)) /\
    (In s (get_symbol_set (gpow a b)) <-> In s (get_symbol_set a) \/ In s (get_symbol_set b)).
  Proof.
    intros Ha Hb. unfold get_symbol_set.
    change (psyms (gp ?g)) with (gsyms g).
    conjs; apply In_map_union; intros x; change (psyms (gp ?g)) with (gsyms g).
    - rewrite gsyms_add. apply sunion_In.
    - rewrite gsyms_sub. apply sunion_In.
    - rewrite gsyms_mul. apply sunion_In.
    - change (psyms (gp (gdiv a b))) with (gsyms (gdiv a b)). rewrite gsyms_gdiv by auto with gwf. apply sunion_In.
    - pose proof (sto_pow _ _ _ _ _ _ (sto_valid a Ha) (sto_valid b Hb)) as [_ _ _ S].
      change (psyms (gp (gpow a b))) with (gsyms (gpow a b)). rewrite S. rewrite sunion_In. unfold gsyms. tauto.
  Qed.

  (** All symbols of a reachable gdual start with the letter d. *)
  Definition dnames (g : gdual K) : Prop := forall s, In s (psyms (gp g)) -> dname s.
  Lemma dnames_sto V n (g : gdual K) : (forall s, In s V -> dname s) -> sto V n g -> dnames g.
  Proof. intros H [_ _ _ S] s Hs. apply H. rewrite <- S. exact Hs. Qed.
  Lemma dnames_union (a b : gdual K) V : dnames a -> dnames b -> V = sunion (gsyms a) (gsyms b) ->
    forall s, In s V -> dname s.
  Proof. intros Ha Hb -> s Hs. apply sunion_In in Hs. destruct Hs; auto. Qed.
  Lemma dnames_nil (g : gdual K) : gsyms g = [] -> dnames g.
  Proof. intros E s Hs. unfold gsyms in E. rewrite E in Hs. contradiction. Qed.
  Lemma dname_dsym s : dname (dsym s).
  Proof. exists s. reflexivity. Qed.
  Lemma dnames_weak V n (g : gdual K) : (forall s, In s V -> dname s) -> weak V n g -> dnames g.
  Proof. intros H [S|S]; [eapply dnames_sto; [|exact S]; contradiction|eapply dnames_sto; eauto]. Qed.

  Lemma check_all_d_In l s : check_all_d l = Ok tt -> In s l -> dname s.
  Proof.
    induction l as [|x l IH]; simpl; [contradiction|].
    destruct x as [|c r]; simpl; [discriminate|].
    destruct (Ascii.eqb_spec c "d"); simpl; [|discriminate]. subst c. intros E [<-|Hs]; [apply dname_dsym|auto].
  Qed.
  Lemma psubs_poly_syms s (q p : poly K) x : In x (psyms (psubs_poly s q p)) -> In x (psyms p) \/ In x (psyms q).
  Proof.
    unfold psubs_poly. set (I := fun r : poly K => forall x, In x (psyms r) -> In x (psyms p) \/ In x (psyms q)).
    revert x. change (I (fold_left (fun acc t => padd acc
           (pmul (mkPoly (psyms p) (add_term (kset (psyms p) (fst t) s 0) (snd t) []))
                 (ppow q (expo (psyms p) (fst t) s)))) (pterms p) (mkPoly (sunion (psyms p) (psyms q)) []))).
    apply fold_left_inv.
    - intros x. simpl. apply sunion_In.
    - intros r t Hr Ht x. cbn [padd psyms]. rewrite sunion_In. intros [H|H]; auto.
      cbn [pmul pmul_if psyms] in H. apply sunion_In in H. destruct H as [H|H]; auto.
      right. clear - H. induction (expo (psyms p) (fst t) s) as [|n IH]; simpl in H; [contradiction|].
      apply sunion_In in H. destruct H; auto.
  Qed.
  Lemma compose_syms (f dg : gdual K) v0 r : dnames f -> dnames dg -> compose_from_derivative f dg v0 = Ok r -> dnames r.
  Proof.
    intros Hf Hd E. unfold compose_from_derivative in E.
    assert (P : forall (a : gdual K) s x, gpartial a s = Ok x -> dnames a -> dnames x).
    { intros a s x Ex Ha. unfold gpartial in Ex. destruct (check_var_name s); cbn [rbind] in Ex; inversion Ex. exact Ha. }
    assert (G : forall (a : gdual K) s x, gintegrate a s = Ok x -> dnames a -> dnames x).
    { intros a s x Ex Ha. unfold gintegrate in Ex. destruct (check_var_name s); cbn [rbind] in Ex; inversion Ex.
      intros y Hy. simpl in Hy. apply sinsert_In in Hy. destruct Hy as [->|Hy]; [apply dname_dsym|auto]. }
    assert (M : forall a b : gdual K, dnames a -> dnames b -> dnames (gmul a b)).
    { intros a b Ha Hb. intros y Hy. eapply (dnames_union a b); eauto. }
    assert (A : forall a b : gdual K, dnames a -> dnames b -> dnames (gadd a b)).
    { intros a b Ha Hb. intros y Hy. eapply (dnames_union a b); eauto. }
    assert (L : forall ss prev (f dg t r : gdual K), dnames f -> dnames dg -> dnames t ->
                  compose_loop prev ss f dg t = Ok r -> dnames r).
    { induction ss as [|s ss IH]; intros prev f1 dg1 t1 r1 H1 H2 H3 E1; simpl in E1.
      - inversion E1; subst; auto.
      - destruct (gpartial _ s) as [df|] eqn:E2; cbn [rbind] in E1; [|discriminate].
        destruct (gintegrate _ s) as [t2|] eqn:E3; cbn [rbind] in E1; [|discriminate].
        eapply IH; [| | |exact E1]; auto. apply A; eauto. }
    destruct (get_symbol_set f) as [|s ss].
    - inversion E. apply dnames_nil. apply gsyms_gconst.
    - destruct (gpartial f s) as [df|] eqn:E2; cbn [rbind] in E; [|discriminate].
      destruct (gintegrate _ s) as [t2|] eqn:E3; cbn [rbind] in E; [|discriminate].
      destruct (compose_loop s ss f dg t2) as [r1|] eqn:E4; cbn [rbind] in E; [|discriminate].
      inversion E. intros y Hy. change (psyms (gp (gadd_sg v0 r1))) with (gsyms (gadd_sg v0 r1)) in Hy.
      rewrite gsyms_gadd_sg in Hy. eapply L; [| | |exact E4|exact Hy]; auto.
      eapply G; [exact E3|]. apply M; auto. eapply P; eauto.
  Qed.

  Lemma reach_dnames (neg_nz : forall c : K, keqb c k0 = false -> keqb (kopp c) k0 = false) (g : gdual K) :
    reach g -> dnames g.
  Proof.
    assert (Dself : forall a : gdual K, dnames a -> forall s, In s (gsyms a) -> dname s) by auto.
    assert (R1 : forall f (a : gdual K), valid a -> dnames a -> dnames (run1 f a)).
    { intros f a Va Da. pose proof (sto_valid a Va) as S.
      destruct (series_atan f) eqn:Ef.
      - apply (dnames_weak (gsyms a) (gord a)); auto. destruct f; try discriminate; cbn [run1].
        + apply weak_atan; auto.
        + apply weak_atanh; auto.
        + apply weak_asin; auto.
        + apply weak_acos; auto.
      - apply (dnames_sto (gsyms a) (gord a)); auto. apply run1_sto; auto. congruence. }
    induction 1 as [ | v | v s n g E | a b Ra Ha Rb Hb | v a Ra Ha | a v Ra Ha | a b Ra Ha Rb Hb | v a Ra Ha | a v Ra Ha
      | a Ra Ha | a b Ra Ha Rb Hb | v a Ra Ha | a v Ra Ha | a b Ra Ha Rb Hb | v a Ra Ha | a v Ra Ha
      | l a g Ra Ha E | a s g Ra Ha E | a s g Ra Ha E | a s v Ra Ha | a s b Ra Ha Rb Hb | a eps g Ra Ha E | a n g Ra Ha E
      | f a Ra Ha | f a g Ra Ha E | b a Ra Ha | a al Ra Ha | a z Ra Ha | a b Ra Ha Rb Hb | a Ra Ha | a Ra Ha | a Ra Ha | a Ra Ha ];
      try (apply (reach_valid neg_nz) in Ra; pose proof (sto_valid a Ra) as Sa);
      try (apply (reach_valid neg_nz) in Rb; pose proof (sto_valid b Rb) as Sb);
      try (eapply dnames_sto; [apply (Dself a Ha)|]; eauto 4 with sto; fail).
    - apply dnames_nil. reflexivity.
    - apply dnames_nil. apply gsyms_gconst.
    - unfold gvar in E. destruct (check_order n) as [[]|]; cbn [rbind] in E; [|discriminate].
      destruct (check_var_name s) as [[]|]; cbn [rbind] in E; [|discriminate].
      intros x Hx.
      destruct (Nat.eqb n 0); inversion E; subst g; simpl in Hx; destruct Hx as [<-|[]]; apply dname_dsym.
    - eapply dnames_sto; [|apply sto_add2; eauto]. apply (dnames_union a b); auto.
    - eapply dnames_sto; [|apply sto_sub2; eauto]. apply (dnames_union a b); auto.
    - exact Ha.
    - eapply dnames_sto; [|apply sto_mul2; eauto]. apply (dnames_union a b); auto.
    - eapply dnames_sto; [|apply sto_div2; eauto]. apply (dnames_union a b); auto.
    - unfold extend_symbol_set in E. destruct (check_all_d l) as [[]|] eqn:El; cbn [rbind] in E; [|discriminate].
      inversion E. intros x Hx. simpl in Hx. apply sunion_In in Hx. destruct Hx as [Hx|Hx]; auto.
      apply (proj1 (sset_In _ _)) in Hx. eapply check_all_d_In; eauto.
    - unfold gintegrate in E. destruct (check_var_name s); cbn [rbind] in E; inversion E.
      intros y Hy. simpl in Hy. apply sinsert_In in Hy. destruct Hy as [->|Hy]; [apply dname_dsym|auto].
    - unfold gpartial in E. destruct (check_var_name s); cbn [rbind] in E; inversion E. exact Ha.
    - exact Ha.
    - intros x Hx. apply usyms_incl in Hx. simpl in Hx. apply psubs_poly_syms in Hx. destruct Hx; auto.
    - unfold gtrim in E. destruct (kltb eps k0); inversion E. exact Ha.
    - unfold extract_terms in E. destruct (Nat.ltb (gord a) n); inversion E. exact Ha.
    - apply R1; auto.
    - assert (C : forall x v0 r, sto (gsyms a) (gord a) x -> compose_from_derivative a x v0 = Ok r -> dnames r).
      { intros x v0 r Sx. apply compose_syms; auto. eapply dnames_sto; [|exact Sx]. auto. }
      assert (Cerf : forall r, gerf a = Ok r -> dnames r).
      { intros r Er. unfold gerf in Er. eapply compose_syms; [| |exact Er]; auto.
        assert (W := valid_gwf a Ra).
        assert (Sm : sto (gsyms a) (gord a) (gmul (gneg a) a)).
        { constructor; auto with gwf.
          - apply gmul_nz.
          - simpl. apply Nat.max_id.
          - rewrite gsyms_mul, gsyms_neg. apply sunion_idem, gsyms_sorted; auto. }
        apply (dnames_sto (gsyms a) (gord a)); [exact (Dself a Ha)|]. apply sto_mul_sg, sto_exp, Sm. }
      destruct f; cbn [runD] in E; try (eapply C; [|exact E]; auto 10 with sto; fail); auto.
      unfold gerfc in E. destruct (gerf a) as [r|] eqn:Er; cbn [rbind] in E; [|discriminate]. inversion E.
      intros y Hy. change (psyms (gp (gsub_sg k1 r))) with (gsyms (gsub_sg k1 r)) in Hy.
      rewrite gsyms_gsub_sg in Hy. apply (Cerf r); auto.
    - unfold gpow_sg. destruct (Nat.eqb_spec (gdegree a) 0).
      + apply dnames_nil, gsyms_gconst.
      + apply (dnames_sto (gsyms a) (gord a)); [exact (Dself a Ha)|]. auto with sto.
    - eapply dnames_sto; [|apply sto_pow; eauto]. apply (dnames_union b a); auto.
    - apply (R1 Fsin); auto.
    - apply (R1 Fcos); auto.
    - apply (R1 Fsinh); auto.
    - apply (R1 Fcosh); auto.
  Qed.

  Lemma compare_dsym a b : String.compare (dsym a) (dsym b) = String.compare a b.
  Proof. reflexivity. Qed.
  Lemma dnames_names (g : gdual K) : valid g -> dnames g ->
    StronglySorted (fun a b => String.compare a b = Lt) (get_symbol_set g) /\
    map dsym (get_symbol_set g) = psyms (gp g).
  Proof.
    intros [H _ _ _ _] D. unfold get_symbol_set, dnames in *. induction H as [|x l H IH HF]; simpl; auto.
    - split; auto. constructor.
    - destruct IH as [I1 I2]; [intros s Hs; apply D; right; auto|].
      assert (Ex := dname_inv x (D x (or_introl eq_refl))). split.
      + constructor; auto. rewrite Forall_map. rewrite Forall_forall in *. intros y Hy.
        assert (Ey := dname_inv y (D y (or_intror Hy))). specialize (HF y Hy). simpl in HF.
        rewrite <- Ex, <- Ey in HF. exact HF.
      + rewrite Ex, I2. reflexivity.
  Qed.
  Lemma reach_names (neg_nz : forall c : K, keqb c k0 = false -> keqb (kopp c) k0 = false) (g : gdual K) : reach g ->
    StronglySorted (fun a b => String.compare a b = Lt) (get_symbol_set g) /\
    map dsym (get_symbol_set g) = psyms (gp g).
  Proof. intros H. apply dnames_names; [apply reach_valid|apply reach_dnames]; auto. Qed.

  Lemma run1_syms f (d : gdual K) (neg_nz : forall c : K, keqb c k0 = false -> keqb (kopp c) k0 = false) :
    valid d -> (get_order d <> 0 \/ ~ In f [Fatan; Fatanh; Fasin; Facos]) ->
    get_symbol_set (run1 f d) = get_symbol_set d.
  Proof.
    intros V H. unfold get_symbol_set. f_equal. apply run1_sto; auto.
    intros E. destruct H as [H|H]; auto. exfalso. apply H. destruct f; try discriminate; simpl; auto.
  Qed.
  Lemma pow_syms (d : gdual K) : valid d ->
    (forall alpha, get_symbol_set (gpow_real d alpha) = get_symbol_set d) /\
    (forall n, get_symbol_set (gpow_int d n) = get_symbol_set d) /\
    (forall b, gdegree d <> 0 -> get_symbol_set (gpow_sg b d) = get_symbol_set d).
  Proof.
    intros H. pose proof (sto_valid d H) as S. unfold get_symbol_set. conjs.
    - intros al. f_equal. eapply sto_pow_real; eauto.
    - intros n. f_equal. eapply sto_pow_int; eauto.
    - intros b Hd. f_equal. apply valid_iff in H. destruct H. eapply (gpow_sg_sto d); auto.
  Qed.
  (** Order and symbols of the functions computed by quadrature. *)
  Lemma runD_sto f (d g : gdual K) : valid d -> dnames d -> psyms (gp d) <> [] -> runD f d = Ok g ->
    get_symbol_set g = get_symbol_set d /\ get_order g = get_order d.
  Proof.
    intros V D N E. pose proof (sto_valid d V) as S.
    assert (C : forall x v0 r, sto (gsyms d) (gord d) x -> compose_from_derivative d x v0 = Ok r -> sto (gsyms d) (gord d) r).
    { intros x v0 r Sx Er. eapply compose_sto; [| | |exact Sx|exact Er]; auto. }
    assert (Cerf : forall r, gerf d = Ok r -> sto (gsyms d) (gord d) r).
    { intros r Er. unfold gerf in Er. eapply C; [|exact Er]. assert (W := valid_gwf d V).
      assert (Sm : sto (gsyms d) (gord d) (gmul (gneg d) d)).
      { constructor; auto with gwf.
        - apply gmul_nz.
        - simpl. apply Nat.max_id.
        - rewrite gsyms_mul, gsyms_neg. apply sunion_idem, gsyms_sorted; auto. }
      auto with sto. }
    assert (T : sto (gsyms d) (gord d) g).
    { destruct f; cbn [runD] in E; try (eapply C; [|exact E]; auto 10 with sto; fail); auto.
      unfold gerfc in E. destruct (gerf d) as [r|] eqn:Er; cbn [rbind] in E; [|discriminate]. inversion E.
      auto with sto. }
    destruct T as [_ _ O Sy]. split; [unfold get_symbol_set; f_equal; exact Sy|exact O].
  Qed.
  Lemma runD_ok f (d : gdual K) : valid d -> (forall s, In s (gsyms d) -> good_name s) -> exists g, runD f d = Ok g.
  Proof.
    intros V H. destruct f; cbn [runD]; try (apply compose_ok; auto; fail).
    unfold gerfc, gerf. match goal with |- context [compose_from_derivative ?a ?b ?c] =>
      destruct (compose_ok a b c H) as [r Er]; rewrite Er end. cbn [rbind]. eauto.
  Qed.
End Structure.

(** ** C04 without any law of arithmetic: each coefficient of a sum is
    obtained by one coefficient addition. *)
Section Stored.
  Context {K : Type} {o : Ops K}.
  Local Open Scope K_scope.
  #[local] Hint Resolve (@valid_gwf K o) (@valid_gnz K o) : gwf.

  Lemma tfind_add_term k c (l : list (term K)) k' : kdist l ->
    tfind k' (add_term k c l) =
    if key_eqb k k' then
      match tfind k l with
      | Some c' => if c' + c =? 0 then None else Some (c' + c)
      | None => if c =? 0 then None else Some c
      end
    else tfind k' l.
  Proof.
    intros Hl. induction l as [|[x y] l IH]; cbn [add_term tfind].
    - destruct (c =? 0) eqn:E; destruct (key_eqb k k') eqn:E'; cbn [tfind]; rewrite ?E'; auto.
    - inversion Hl as [|? ? Hx Hl']; subst. destruct (key_eqb x k) eqn:Ex.
      + apply key_eqb_spec in Ex. subst x. destruct (y + c =? 0) eqn:Es.
        * destruct (key_eqb k k') eqn:E'; auto. apply key_eqb_spec in E'. subst k'.
          apply tfind_None. exact Hx.
        * cbn [tfind]. destruct (key_eqb k k'); auto.
      + cbn [tfind]. rewrite IH by exact Hl'. destruct (key_eqb k k') eqn:E'; auto.
        apply key_eqb_spec in E'. subst k'. rewrite Ex. reflexivity.
  Qed.
  Lemma tfind_add_terms (ts acc : list (term K)) k : kdist acc -> kdist ts ->
    tfind k (add_terms ts acc) =
    match tfind k acc, tfind k ts with
    | Some x, Some y => if x + y =? 0 then None else Some (x + y)
    | Some x, None => Some x
    | None, Some y => if y =? 0 then None else Some y
    | None, None => None
    end.
  Proof.
    revert acc. induction ts as [|[x y] ts IH]; intros acc Ha Ht; cbn [add_terms fold_left tfind].
    - destruct (tfind k acc); auto.
    - inversion Ht as [|? ? Hx Ht']; subst. change (fold_left _ ts _) with (add_terms ts (add_term x y acc)).
      rewrite IH by (auto using add_term_dist). rewrite tfind_add_term by exact Ha. cbn [fst snd].
      destruct (key_eqb x k) eqn:E; auto. apply key_eqb_spec in E. subst x.
      assert (N : tfind k ts = None) by (apply tfind_None; exact Hx). rewrite N.
      destruct (tfind k acc); [destruct (_ =? 0)|destruct (y =? 0)]; auto.
  Qed.

  Definition fits (W : list string) (k : key) (U : list string) : bool :=
    forallb (fun s => str_in s U || Nat.eqb (expo W k s) 0) W.
  Lemma same_mono_ext V kt W k U : NoDup V -> NoDup U -> incl V U -> length kt = length V ->
    same_mono V kt W k = fits W k U && key_eqb (rekey V U kt) (map (expo W k) U).
  Proof.
    intros HV HU HI Hl. apply eq_true_iff_eq. rewrite andb_true_iff, key_eqb_spec. unfold fits.
    rewrite forallb_forall. unfold same_mono. rewrite forallb_forall.
    assert (Ho : forall s, ~ In s U -> expo V kt s = 0%nat) by (intros; apply expo_not_In; auto).
    split.
    - intros H.
      assert (H' : forall s, expo V kt s = expo W k s).
      { intros s. destruct (in_dec string_dec s (V ++ W)) as [i|i].
        - apply Nat.eqb_eq, H; auto.
        - rewrite !expo_not_In; auto; intros Hs; apply i, in_or_app; auto. }
      split.
      + intros s Hs. apply orb_true_iff. destruct (in_dec string_dec s U).
        * left. apply str_in_spec; auto.
        * right. apply Nat.eqb_eq. rewrite <- H'. auto.
      + unfold rekey. apply map_ext_in. auto.
    - intros [H1 H2] s Hs. apply Nat.eqb_eq.
      assert (HUs : forall s, In s U -> expo V kt s = expo W k s).
      { intros x Hx. unfold rekey in H2.
        rewrite <- (expo_map U (expo V kt) x Hx), H2. apply expo_map; auto. }
      destruct (in_dec string_dec s U); auto. rewrite Ho by auto.
      apply in_app_or in Hs. destruct Hs as [Hs|Hs]; [exfalso; auto|].
      specialize (H1 s Hs). apply orb_true_iff in H1. destruct H1 as [H1|H1].
      + apply str_in_spec in H1. contradiction.
      + apply Nat.eqb_eq in H1. auto.
  Qed.
  Lemma stored_tfind (g : gdual K) W k U : gwf g -> NoDup U -> incl (gsyms g) U ->
    stored g W k = if fits W k U then tfind (K:=K) (map (expo W k) U) (pterms (pext U (gp g))) else None.
  Proof.
    intros [[Hs Hl _] _] HU HI. unfold stored, pext. cbn [pterms]. unfold klen in Hl. unfold gsyms in HI.
    induction (pterms (gp g)) as [|[kt c] ts IH]; cbn [find map tfind fst snd].
    - destruct (fits W k U); auto.
    - inversion Hl; subst. cbn [fst] in *. rewrite (same_mono_ext _ _ _ _ U) by (auto using ssorted_NoDup).
      destruct (fits W k U); cbn [andb]; auto.
      destruct (key_eqb _ _); auto.
  Qed.
  Lemma stored_add (a b : gdual K) W k : valid a -> valid b ->
    stored (gadd a b) W k =
    match stored a W k, stored b W k with
    | Some x, Some y => if x + y =? 0 then None else Some (x + y)
    | Some x, None => Some x
    | None, Some y => Some y
    | None, None => None
    end.
  Proof.
    intros Va Vb. set (U := sunion (gsyms a) (gsyms b)).
    assert (Wa := valid_gwf a Va). assert (Wb := valid_gwf b Vb).
    assert (HUs : ssorted U) by (apply sunion_sorted, gsyms_sorted; auto).
    assert (HU : NoDup U) by (apply ssorted_NoDup; auto).
    assert (I1 : incl (gsyms (gadd a b)) U) by (rewrite gsyms_add; apply incl_refl).
    assert (I2 : incl (gsyms a) U) by apply sunion_incl1. assert (I3 : incl (gsyms b) U) by apply sunion_incl2.
    rewrite (stored_tfind (gadd a b) W k U), (stored_tfind a W k U), (stored_tfind b W k U) by auto with gwf.
    destruct (fits W k U); auto.
    assert (E : pterms (pext U (gp (gadd a b))) = pterms (gp (gadd a b))).
    { unfold pext. cbn [pterms]. change (psyms (gp (gadd a b))) with U.
      destruct (gadd_gwf a b Wa Wb) as [[_ Hl _] _]. change (psyms (gp (gadd a b))) with U in Hl. unfold klen in Hl.
      rewrite Forall_forall in Hl. etransitivity; [|apply map_id]. apply map_ext_in. intros [kt c] Ht.
      cbn [fst snd]. rewrite rekey_same; auto. apply (Hl _ Ht). }
    rewrite E. cbn [gadd gp padd pterms]. fold U.
    assert (Da : kdist (pterms (pext U (gp a)))) by (apply pext_dist; [apply Wa|apply sunion_incl1]).
    assert (Db : kdist (pterms (pext U (gp b)))) by (apply pext_dist; [apply Wb|apply sunion_incl2]).
    change (psyms (gp a)) with (gsyms a). change (psyms (gp b)) with (gsyms b). fold U.
    rewrite tfind_add_terms by auto.
    destruct (tfind _ (pterms (pext U (gp a)))); auto.
    destruct (tfind _ (pterms (pext U (gp b)))) as [y|] eqn:Ey; auto.
    apply tfind_In in Ey. assert (N : nz (pterms (pext U (gp b)))) by (apply pext_nz; apply (valid_gnz b Vb)).
    unfold nz in N. rewrite Forall_forall in N. specialize (N _ Ey). cbn [snd] in N. rewrite N. reflexivity.
  Qed.
  Lemma stored_neg (a : gdual K) W k : stored (gneg a) W k = option_map kopp (stored a W k).
  Proof.
    unfold stored. cbn [gneg gp pneg psyms pterms]. induction (pterms (gp a)) as [|t ts IH]; cbn [map find fst snd]; auto.
    destruct (same_mono _ _ _ _); auto.
  Qed.
End Stored.

(** ** C04-C08: exact arithmetic *)
Section Algebra.
  Context {K : Type} {o : Ops K} {fl : FieldLaws o}.
  #[local] Hint Resolve (@valid_gwf K o) (@valid_gnz K o) : gwf.
  Local Open Scope K_scope.
  Add Field Kfield : (fl_field (K:=K)).
  Notation idK := (fun x : K => x).
  Notation gd := (gden idK).

  Lemma neg_nz_field (c : K) : (c =? 0) = false -> (- c =? 0) = false.
  Proof.
    rewrite !keqb_false. intros H E. apply H. transitivity (- - c); [ring|]. rewrite E. ring.
  Qed.

  Lemma valid_add (a b : gdual K) : valid a -> valid b -> valid (gadd a b).
  Proof. intros Ha Hb. eapply valid_sto, sto_add2; apply sto_valid; auto. Qed.
  Lemma valid_sub (a b : gdual K) : valid a -> valid b -> valid (gsub a b).
  Proof. intros Ha Hb. eapply valid_sto, sto_sub2; apply sto_valid; auto. Qed.
  Lemma valid_mul (a b : gdual K) : valid a -> valid b -> valid (gmul a b).
  Proof. intros Ha Hb. eapply valid_sto, sto_mul2; apply sto_valid; auto. Qed.
  Lemma valid_div (a b : gdual K) : valid a -> valid b -> valid (gdiv a b).
  Proof. intros Ha Hb. eapply valid_sto, sto_div2; apply sto_valid; auto. Qed.
  Lemma valid_neg (a : gdual K) : valid a -> valid (gneg a).
  Proof.
    intros Ha. apply valid_iff in Ha. destruct Ha. apply valid_iff. split; auto with gwf.
    apply gneg_nz; auto using neg_nz_field.
  Qed.
  Lemma valid_const v : valid (gconst v).
  Proof. eapply valid_sto, sto_const. Qed.
  Lemma valid_div_sg v (a : gdual K) : valid a -> valid (gdiv_sg v a).
  Proof. intros Ha. eapply valid_sto, sto_div_sg. apply sto_valid; auto. Qed.

  Lemma geqb_iff (a b : gdual K) : valid a -> valid b -> geqb a b = true <-> seqv None (gd a) (gd b).
  Proof. intros Ha Hb. apply geqb_seqv; auto with gwf. Qed.
  (** Equality is decided by the coefficients up to the larger order. *)
  Lemma geqb_ord (a b : gdual K) n : valid a -> valid b -> (gord a <= n)%nat -> (gord b <= n)%nat ->
    seqv (Some n) (gd a) (gd b) -> geqb a b = true.
  Proof.
    intros Ha Hb La Lb E. apply geqb_iff; auto. eapply seqv_bounded; [| |exact E].
    - apply den_sdle. apply gwf_dle_le; auto with gwf.
    - apply den_sdle. apply gwf_dle_le; auto with gwf.
  Qed.

  #[local] Hint Resolve valid_add valid_sub valid_mul valid_div valid_neg valid_const valid_div_sg : gwf.
  Ltac den := repeat first [rewrite (gden_add idK) by auto with gwf | rewrite (gden_sub idK) by auto with gwf | rewrite (gden_neg idK)
    | rewrite (gden_const idK) | rewrite scon_0].

  (** *** C04 *)
  Section Laws.
    Variable tr : option nat.
    Add Ring spring : (sp_ring_theory (K:=K) tr) (setoid (seqv_equiv tr) (sp_ring_ext tr)).
    Lemma sadd_laws (x y z : sp K) :
      seqv tr (sadd x y) (sadd y x) /\ seqv tr (sadd (sadd x y) z) (sadd x (sadd y z)) /\
      seqv tr (ssub x y) (sadd x (sopp y)) /\ seqv tr (ssub x x) s0 /\ seqv tr (sadd x s0) x.
    Proof. conjs; ring. Qed.
    Lemma smul_laws (x y z : sp K) :
      seqv tr (smul x y) (smul y x) /\ seqv tr (smul (smul x y) z) (smul x (smul y z)) /\
      seqv tr (smul x (sadd y z)) (sadd (smul x y) (smul x z)) /\
      seqv tr (smul x s1) x /\ seqv tr (smul x s0) s0.
    Proof. conjs; ring. Qed.
  End Laws.

  Lemma add_laws (a b c : gdual K) : valid a -> valid b -> valid c ->
    geqb (gadd a b) (gadd b a) = true /\
    geqb (gadd (gadd a b) c) (gadd a (gadd b c)) = true /\
    geqb (gsub a b) (gadd a (gneg b)) = true /\
    geqb (gsub a a) (gconst 0) = true /\
    geqb (gadd a (gconst 0)) a = true.
  Proof.
    intros Ha Hb Hc. destruct (sadd_laws None (gd a) (gd b) (gd c)) as (L1 & L2 & L3 & L4 & L5).
    conjs; apply geqb_iff; auto with gwf; den; auto.
  Qed.

  (** *** C06 *)
  Lemma mul_laws (a b c : gdual K) : valid a -> valid b -> valid c ->
    gord a = gord b -> gord b = gord c ->
    geqb (gmul (gmul a b) c) (gmul a (gmul b c)) = true /\
    geqb (gmul a (gadd b c)) (gadd (gmul a b) (gmul a c)) = true.
  Proof.
    intros Ha Hb Hc E1 E2. destruct (smul_laws (Some (gord a)) (gd a) (gd b) (gd c)) as (L1 & L2 & L3 & L4 & L5).
    split; apply (geqb_ord _ _ (gord a)); auto with gwf; simpl; try lia.
    - rewrite !(gden_mul idK (gord a)) by (auto with gwf; simpl; lia). exact L2.
    - rewrite (gden_mul idK (gord a)), (gden_add idK), (gden_add idK), !(gden_mul idK (gord a)) by (auto with gwf; simpl; lia). exact L3.
  Qed.
  Lemma mul_laws_mixed (a b c : gdual K) : valid a -> valid b -> valid c ->
    geqb (gmul a b) (gmul b a) = true /\
    geqb (gmul a (gconst 1)) a = true /\
    geqb (gmul a (gconst 0)) (gconst 0) = true /\
    agree (Nat.min (Nat.max (gord a) (gord b)) (Nat.max (gord b) (gord c))) (gmul (gmul a b) c) (gmul a (gmul b c)) /\
    agree (Nat.min (Nat.max (gord a) (gord b)) (Nat.max (gord a) (gord c))) (gmul a (gadd b c)) (gadd (gmul a b) (gmul a c)).
  Proof.
    intros Ha Hb Hc.
    assert (L : forall n, seqv (Some n) (smul (gd a) (gd b)) (smul (gd b) (gd a)) /\ _) by (intros n; apply (smul_laws (Some n) (gd a) (gd b) (gd c))).
    conjs.
    - apply (geqb_ord _ _ (Nat.max (gord a) (gord b))); auto with gwf; simpl; try lia.
      rewrite !(gden_mul idK (Nat.max (gord a) (gord b))) by (auto with gwf; lia). apply L.
    - apply (geqb_ord _ _ (gord a)); auto with gwf; simpl; try lia.
      rewrite (gden_mul idK (gord a)), (gden_const idK) by (auto with gwf; simpl; lia).
      change (scon 1) with (s1 (K:=K)). apply (L (gord a)).
    - apply (geqb_ord _ _ (gord a)); auto with gwf; simpl; try lia.
      rewrite (gden_mul idK (gord a)), !(gden_const idK) by (auto with gwf; simpl; lia). rewrite scon_0. apply (L (gord a)).
    - set (n := Nat.min _ _). apply seqv_agree; auto with gwf.
      rewrite !(gden_mul idK n) by (auto with gwf; simpl; lia). apply L.
    - set (n := Nat.min _ _). apply seqv_agree; auto with gwf.
      rewrite (gden_mul idK n), (gden_add idK), (gden_add idK), !(gden_mul idK n) by (auto with gwf; simpl; lia). apply L.
  Qed.

  Lemma gmul_ord (a b : gdual K) : gord (gmul a b) = Nat.max (gord a) (gord b).
  Proof. reflexivity. Qed.
  Lemma gconst_ord0 (v : K) : gord (gconst v) = 0%nat.
  Proof. reflexivity. Qed.

  (** *** C07 *)
  Lemma div_mul (a b : gdual K) : valid a -> valid b -> constant_cf b <> 0 ->
    agree (gord b) (gmul (gdiv a b) b) a.
  Proof.
    intros Ha Hb H0. apply seqv_agree; auto with gwf.
    rewrite (gden_mul idK (gord b)) by (auto with gwf; lia).
    apply (gden_div_mul idK); auto with gwf.
  Qed.
  Lemma div_mul_eq (a b : gdual K) : valid a -> valid b -> constant_cf b <> 0 -> (gord a <= gord b)%nat ->
    geqb (gmul (gdiv a b) b) a = true.
  Proof.
    intros Ha Hb H0 Hle. apply (geqb_ord _ _ (gord b)); auto with gwf.
    - rewrite gmul_ord, gdiv_ord by auto with gwf. lia.
    - apply agree_iff; auto with gwf. apply div_mul; auto.
  Qed.
  Lemma recip_unique (b : gdual K) : valid b -> constant_cf b <> 0 ->
    geqb (gmul (gdiv_sg 1 b) b) (gconst 1) = true /\ gord (gdiv_sg 1 b) = gord b /\
    forall c, valid c -> (gord c <= gord b)%nat -> geqb (gmul c b) (gconst 1) = true -> geqb c (gdiv_sg 1 b) = true.
  Proof.
    intros Hb H0.
    assert (R : seqv (Some (gord b)) (smul (gd (gdiv_sg 1 b)) (gd b)) s1).
    { rewrite (gden_div_sg_mul idK) by auto with gwf. reflexivity. }
    conjs.
    - apply (geqb_ord _ _ (gord b)); auto with gwf.
      + rewrite gmul_ord, gdiv_sg_ord by auto with gwf. lia.
      + simpl. lia.
      + rewrite (gden_mul idK (gord b)), (gden_const idK) by (auto with gwf; lia). exact R.
    - apply gdiv_sg_ord. auto with gwf.
    - intros c Hc Hle E. apply (geqb_ord _ _ (gord b)); auto with gwf.
      + rewrite gdiv_sg_ord by auto with gwf. lia.
      + apply geqb_iff in E; auto with gwf. apply (seqv_full (Some (gord b))) in E.
        rewrite (gden_mul idK (gord b)), (gden_const idK) in E by (auto with gwf; lia).
        apply (smul_cancel _ _ _ (gd b) (gd (gdiv_sg 1 b))).
        * rewrite smul_comm. exact R.
        * rewrite E, R. reflexivity.
  Qed.

  (** *** C08 *)
  Lemma scalar_ops (v : K) (d : gdual K) : valid d ->
    (geqb (gadd_sg v d) (gadd (gconst v) d) = true /\ gord (gadd_sg v d) = gord (gadd (gconst v) d)) /\
    (geqb (gadd_gs d v) (gadd d (gconst v)) = true /\ gord (gadd_gs d v) = gord (gadd d (gconst v))) /\
    (geqb (gsub_sg v d) (gsub (gconst v) d) = true /\ gord (gsub_sg v d) = gord (gsub (gconst v) d)) /\
    (geqb (gsub_gs d v) (gsub d (gconst v)) = true /\ gord (gsub_gs d v) = gord (gsub d (gconst v))) /\
    (geqb (gmul_sg v d) (gmul (gconst v) d) = true /\ gord (gmul_sg v d) = gord (gmul (gconst v) d)) /\
    (geqb (gmul_gs d v) (gmul d (gconst v)) = true /\ gord (gmul_gs d v) = gord (gmul d (gconst v))) /\
    (geqb (gdiv_sg v d) (gdiv (gconst v) d) = true /\ gord (gdiv_sg v d) = gord (gdiv (gconst v) d)) /\
    (geqb (gdiv_gs d v) (gdiv d (gconst v)) = true /\ gord (gdiv_gs d v) = gord (gdiv d (gconst v))).
  Proof.
    intros Hd. pose proof (sto_valid d Hd) as S.
    assert (V1 : valid (gadd_sg v d)) by (eapply valid_sto; eauto 4 with sto).
    assert (V2 : valid (gadd_gs d v)) by (eapply valid_sto; eauto 4 with sto).
    assert (V3 : valid (gsub_sg v d)) by (eapply valid_sto; eauto 4 with sto).
    assert (V4 : valid (gsub_gs d v)) by (eapply valid_sto; eauto 4 with sto).
    assert (V5 : valid (gmul_sg v d)) by (eapply valid_sto; eauto 4 with sto).
    assert (V6 : valid (gmul_gs d v)) by (eapply valid_sto; eauto 4 with sto).
    assert (V8 : valid (gdiv_gs d v)) by (eapply valid_sto; eauto 4 with sto).
    conjs; try (simpl; rewrite ?Nat.max_0_r, ?Nat.max_id; reflexivity).
    - apply geqb_iff; auto with gwf. rewrite (gden_add_sg idK), (gden_add idK), (gden_const idK) by auto with gwf. reflexivity.
    - apply geqb_iff; auto with gwf. rewrite (gden_add_gs idK), (gden_add idK), (gden_const idK) by auto with gwf. apply sadd_laws; exact s0.
    - apply geqb_iff; auto with gwf. rewrite (gden_sub_sg idK), (gden_sub idK), (gden_const idK) by auto with gwf. reflexivity.
    - apply geqb_iff; auto with gwf. rewrite (gden_sub_gs idK), (gden_sub idK), (gden_const idK) by auto with gwf. reflexivity.
    - apply (geqb_ord _ _ (gord d)); auto with gwf; try (simpl; lia).
      rewrite (gden_mul_sg idK), (gden_mul idK (gord d)), (gden_const idK) by (auto with gwf; simpl; lia). reflexivity.
    - apply (geqb_ord _ _ (gord d)); auto with gwf; try (simpl; lia).
      rewrite (gden_mul_gs idK), (gden_mul idK (gord d)), (gden_const idK) by (auto with gwf; simpl; lia). apply smul_comm.
    - assert (Wr : gwf (grecip_loop d)) by (apply grecip_gwf; auto with gwf).
      assert (Or : gord (grecip_loop d) = gord d) by (apply grecip_gwf; auto with gwf).
      apply (geqb_ord _ _ (gord d)); auto with gwf.
      + rewrite gdiv_sg_ord by auto with gwf. lia.
      + rewrite gdiv_ord by auto with gwf. simpl. lia.
      + unfold gdiv_sg, gdiv. rewrite !(gden_div_gs idK) by auto with gwf.
        rewrite (gden_mul_sg idK), (gden_mul idK (gord d)), (gden_const idK) by (auto with gwf; simpl; lia). reflexivity.
    - apply (geqb_ord _ _ (gord d)); auto with gwf; try (simpl; lia).
      unfold gdiv. assert (Wr : gwf (grecip_loop (gconst v))) by (apply grecip_gwf; auto with gwf).
      rewrite !(gden_div_gs idK) by auto with gwf. rewrite (gden_mul idK (gord d)) by (auto with gwf; lia).
      assert (Ec : constant_cf (gconst v) = v).
      { rewrite (constant_cf_scc (fun x : K => x)) by auto with gwf. rewrite (scc_eqv None _ (scon v)).
        - apply scc_scon.
        - apply (gden_const idK). }
      rewrite Ec.
      assert (Er : seqv (Some (gord d)) (gd (grecip_loop (gconst v))) s1).
      { unfold grecip_loop. rewrite Ec. cbn [gord gconst Nat.sub seq fold_left].
        rewrite (gden_sub idK), (gden_div_gs idK), (gden_sub_gs idK), !(gden_const idK) by auto with gwf.
        change (scon 1) with (s1 (K:=K)). destruct (sadd_laws (Some (gord d)) (scon v) s0 s0) as (_ & _ & _ & L4 & _).
        rewrite L4. destruct (smul_laws (Some (gord d)) (scon (1 / v)) s0 s0) as (_ & _ & _ & _ & L0). rewrite L0.
        constructor. intros F _. rewrite Lf_ssub, Lf_s0. ring. }
      rewrite Er. destruct (smul_laws (Some (gord d)) (gd d) s0 s0) as (_ & _ & _ & L1 & _). rewrite L1. reflexivity.
  Qed.

  Lemma coef_linear (a b : gdual K) W k : valid a -> valid b -> NoDup W -> length k = length W ->
    coef (gadd a b) W k = coef a W k + coef b W k /\
    coef (gsub a b) W k = coef a W k - coef b W k /\
    coef (gneg a) W k = - coef a W k.
  Proof. intros. conjs; [apply coef_add|apply coef_sub|apply coef_neg]; auto with gwf. Qed.
  Lemma coef_mul_all (a b : gdual K) W k : valid a -> valid b -> NoDup W -> length k = length W ->
    coef (gmul a b) W k =
    if Nat.leb (list_sum k) (Nat.max (gord a) (gord b))
    then sum_list (fun ij => coef a W (fst ij) * coef b W (snd ij)) (splits k)
    else 0.
  Proof.
    intros Ha Hb HW Hk. destruct (Nat.leb_spec (list_sum k) (Nat.max (gord a) (gord b))).
    - apply coef_mul; auto with gwf.
    - apply coef_above; auto with gwf.
  Qed.
End Algebra.

(** *** [splits] *)
Lemma splits_spec (k i j : key) : In (i, j) (splits k) <->
  (length i = length k /\ length j = length k /\ forall n, (nth n i 0 + nth n j 0 = nth n k 0)%nat).
Proof.
  revert i j. induction k as [|e k IH]; intros i j; cbn [splits].
  - split.
    + intros [E|[]]. inversion E. simpl. conjs; auto. intros [|]; auto.
    + intros (H1 & H2 & _). destruct i, j; try discriminate. left; auto.
  - rewrite in_flat_map. split.
    + intros (a & Ha & H). apply in_seq in Ha. apply in_map_iff in H. destruct H as ([i' j'] & E & H).
      inversion E; subst. apply IH in H. destruct H as (L1 & L2 & L3). cbn [length fst snd]. conjs; auto.
      intros [|n]; cbn [nth]; [lia|apply L3].
    + intros (L1 & L2 & L3). destruct i as [|a i], j as [|b j]; try discriminate.
      exists a. split.
      * apply in_seq. specialize (L3 0%nat). cbn [nth] in L3. lia.
      * apply in_map_iff. exists (i, j). cbn [fst snd]. split.
        -- specialize (L3 0%nat). cbn [nth] in L3. replace (e - a)%nat with b by lia. reflexivity.
        -- apply IH. cbn [length] in *. conjs; [lia|lia|]. intros n. apply (L3 (S n)).
Qed.
Lemma splits_NoDup (k : key) : NoDup (splits k).
Proof.
  induction k as [|e k IH]; cbn [splits].
  - constructor; [intros []|constructor].
  - generalize (seq_NoDup (S e) 0). generalize (seq 0 (S e)) as l.
    induction l as [|a l IHl]; intros HN; cbn [flat_map]; [constructor|].
    inversion HN as [|? ? Ha Hl]; subst.
    assert (Hm : forall x (T : list (key * key)), In x (map (fun ij => (a :: fst ij, (e - a)%nat :: snd ij)) T) -> exists r, fst x = a :: r).
    { intros x T Hx. apply in_map_iff in Hx. destruct Hx as (ij & <- & _). eexists; reflexivity. }
    assert (G : forall A (l1 l2 : list A), NoDup l1 -> NoDup l2 -> (forall x, In x l1 -> ~ In x l2) -> NoDup (l1 ++ l2)).
    { intros A l1 l2 N1 N2 Hd. induction l1 as [|x l1 IH1]; auto. inversion N1; subst. simpl. constructor.
      - intros Hx. apply in_app_or in Hx. destruct Hx as [Hx|Hx]; auto. apply (Hd x); auto. left; auto.
      - apply IH1; auto. intros y Hy. apply Hd. right; auto. }
    apply G.
    + apply FinFun.Injective_map_NoDup; auto. intros [i j] [i' j'] E. cbn [fst snd] in E. congruence.
    + apply IHl; auto.
    + intros x Hx Hy. destruct (Hm _ _ Hx) as [r Hr]. apply in_flat_map in Hy. destruct Hy as (a' & Ha' & Hy).
      apply in_map_iff in Hy. destruct Hy as (ij & E & _). subst x. cbn [fst] in Hr. inversion Hr; subst. contradiction.
Qed.
