(** * Coefficient-level facts, reachability and equality (proof file) *)

From Coq Require Import String Ascii List Arith Bool Lia ZArith Sorting.Sorted Setoid Morphisms Ring Field FunctionalExtensionality.
From Verif Require Import Ops Syms SymsFacts Poly PolyFacts Sem Den Gdual GdualFacts Functions FunStruct Spec.
Import ListNotations.

Lemma list_sum_kdeg k : list_sum k = kdeg k.
Proof. reflexivity. Qed.

Section Valid.
  Context {K : Type} {o : Ops K}.

  Lemma valid_iff g : valid g <-> gwf g /\ gnz g.
  Proof.
    split.
    - intros [H1 H2 H3 H4 H5]. split; [constructor; [constructor|]|].
      + exact H1.
      + apply Forall_forall. exact H2.
      + exact H3.
      + apply Forall_forall. exact H5.
      + apply Forall_forall. exact H4.
    - intros [[[H1 H2 H3] H4] H5]. constructor; auto; apply Forall_forall; auto.
  Qed.
  Lemma valid_gwf g : valid g -> gwf g.
  Proof. intros H. apply valid_iff in H. tauto. Qed.
  Lemma valid_gnz g : valid g -> gnz g.
  Proof. intros H. apply valid_iff in H. tauto. Qed.
  Lemma valid_sto V n g : sto V n g -> valid g.
  Proof. intros [W N _ _]. apply valid_iff. auto. Qed.
  Lemma sto_valid g : valid g -> sto (gsyms g) (gord g) g.
  Proof. intros H. apply valid_iff in H. apply sto_self; tauto. Qed.
  Lemma valid_weak V n g : weak V n g -> valid g.
  Proof. intros [H|H]; eapply valid_sto; eauto. Qed.
End Valid.
#[global] Hint Resolve valid_gwf valid_gnz : gwf.

Section Reachable.
  Context {K : Type} {o : Ops K} {e : Elem K}.
  (** The one law used: negation maps non-zero to non-zero. *)
  Hypothesis neg_nz : forall c : K, keqb c k0 = false -> keqb (kopp c) k0 = false.

  Lemma gneg_nz (g : gdual K) : gnz g -> gnz (gneg g).
  Proof.
    unfold gnz, nz. cbn [gneg gp pneg pterms]. rewrite Forall_map. apply Forall_impl. simpl. auto.
  Qed.
  Lemma run1_valid f (d : gdual K) : valid d -> valid (run1 f d).
  Proof.
    intros H. pose proof (sto_valid d H) as S. apply valid_iff in H. destruct H as [W N].
    destruct f; cbn [run1];
      try (apply (valid_sto (gsyms d) (gord d)); auto with sto; fail).
    - apply (valid_sto _ _ _ (gsin_sto d W N)).
    - apply (valid_sto _ _ _ (gcos_sto d W N)).
    - apply (valid_sto _ _ _ (gtan_sto d W N)).
    - apply (valid_sto _ _ _ (gsinh_sto d W N)).
    - apply (valid_sto _ _ _ (gcosh_sto d W N)).
    - apply (valid_sto _ _ _ (gtanh_sto d W N)).
    - apply (valid_weak _ _ _ (weak_atan _ _ d S)).
    - apply (valid_weak _ _ _ (weak_atanh _ _ d S)).
    - apply (valid_weak _ _ _ (weak_asin _ _ d S)).
    - apply (valid_weak _ _ _ (weak_acos _ _ d S)).
    - apply (valid_sto _ _ _ (sto_asinh _ _ d S)).
    - apply (valid_sto _ _ _ (sto_acosh _ _ d S)).
    - unfold gabs. destruct (_ || _); apply valid_iff; auto with gwf. split; auto using gneg_nz with gwf.
    - apply (valid_sto _ _ _ (gtan_quad_sto d W N)).
    - apply (valid_sto _ _ _ (gtanh_quad_sto d W N)).
    - unfold glog10. eapply valid_sto; eauto 4 with sto.
    - unfold glog2. eapply valid_sto; eauto 4 with sto.
    - unfold glog1p. eapply valid_sto; eauto 4 with sto.
    - unfold gexpm1. eapply valid_sto; eauto 4 with sto.
  Qed.
  Lemma gexp_gwf (d : gdual K) : gwf d -> gnz d -> gwf (gexp d).
  Proof. intros W N. apply (gexp_sto d W N). Qed.
  Lemma runD_valid f (d g : gdual K) : valid d -> runD f d = Ok g -> valid g.
  Proof.
    intros H E. pose proof (sto_valid d H) as S. apply valid_iff in H. destruct H as [W N].
    assert (Hq : forall x, sto (gsyms d) (gord d) x -> gwf x) by (intros x []; auto).
    destruct f; cbn [runD] in E.
    all: try (eapply (fun Wd => compose_inv d _ _ _ W Wd E) ; fail).
    all: try (apply valid_iff; eapply compose_inv; [| |exact E]; auto; apply Hq; auto 10 with sto; fail).
    - apply valid_iff; eapply compose_inv; [| |exact E]; auto.
      assert (Hm : gwf (gmul (gneg d) d) /\ gnz (gmul (gneg d) d)) by (split; [auto with gwf|apply gmul_nz]).
      destruct Hm as [Wm Nm]. apply gmul_sg_gwf, gexp_gwf; auto.
    - unfold gerfc in E. destruct (gerf d) as [r|] eqn:Er; cbn [rbind] in E; [|discriminate].
      inversion E. apply valid_iff. split; [apply gsub_sg_gwf|apply psub_nz, pconst_nz].
      unfold gerf in Er. eapply compose_inv; [| |exact Er]; auto.
      assert (Hm : gwf (gmul (gneg d) d) /\ gnz (gmul (gneg d) d)) by (split; [auto with gwf|apply gmul_nz]).
      destruct Hm as [Wm Nm]. apply gmul_sg_gwf, gexp_gwf; auto.
  Qed.

  Lemma gpow_sg_valid b (d : gdual K) : valid d -> valid (gpow_sg b d).
  Proof.
    intros H. destruct (Nat.eq_dec (gdegree d) 0) as [E|E].
    - unfold gpow_sg. rewrite E. simpl. eapply valid_sto. apply sto_const.
    - apply valid_iff in H. destruct H. eapply valid_sto. apply (gpow_sg_sto d); auto.
  Qed.

  Theorem reach_valid g : reach g -> valid g.
  Proof.
    induction 1 as [ | v | v s n g E | a b _ Ha _ Hb | v a _ Ha | a v _ Ha | a b _ Ha _ Hb | v a _ Ha | a v _ Ha
      | a _ Ha | a b _ Ha _ Hb | v a _ Ha | a v _ Ha | a b _ Ha _ Hb | v a _ Ha | a v _ Ha
      | l a g _ Ha E | a s g _ Ha E | a s g _ Ha E | a s v _ Ha | a s b _ Ha _ Hb | a eps g _ Ha E | a n g _ Ha E
      | f a _ Ha | f a g _ Ha E | b a _ Ha | a al _ Ha | a z _ Ha | a b _ Ha _ Hb | a _ Ha | a _ Ha | a _ Ha | a _ Ha ];
      try (apply valid_iff in Ha; destruct Ha as [Wa Na]); try (apply valid_iff in Hb; destruct Hb as [Wb Nb]);
      try (pose proof (sto_self _ Wa Na) as Sa); try (pose proof (sto_self _ Wb Nb) as Sb).
    - apply valid_iff. split; [apply gdefault_gwf|apply pconst_nz].
    - eapply valid_sto. apply sto_const.
    - apply valid_iff. split; [apply (gvar_gwf _ _ _ _ E)|].
      unfold gvar in E. destruct (check_order n) as [[]|]; cbn [rbind] in E; [|discriminate].
      destruct (check_var_name s) as [[]|]; cbn [rbind] in E; [|discriminate].
      destruct (if Nat.eqb n 0 then _ else _) as [g'|] eqn:Eg; cbn [rbind] in E; [|discriminate].
      inversion E. apply padd_nz.
      destruct (Nat.eqb n 0).
      + unfold extend_symbol_set in Eg. simpl in Eg. inversion Eg. apply pext_nz. constructor.
      + inversion Eg. apply pvar_nz.
    - eapply valid_sto, sto_add2; eauto.
    - eapply valid_sto; eauto 4 with sto.
    - eapply valid_sto; eauto 4 with sto.
    - eapply valid_sto, sto_sub2; eauto.
    - eapply valid_sto; eauto 4 with sto.
    - eapply valid_sto; eauto 4 with sto.
    - apply valid_iff. split; auto using gneg_nz with gwf.
    - eapply valid_sto, sto_mul2; eauto.
    - eapply valid_sto; eauto 4 with sto.
    - eapply valid_sto; eauto 4 with sto.
    - eapply valid_sto, sto_div2; eauto.
    - eapply valid_sto; eauto 4 with sto.
    - eapply valid_sto; eauto 4 with sto.
    - apply valid_iff. split; [apply (extend_gwf _ _ _ Wa E)|].
      unfold extend_symbol_set in E. destruct (check_all_d l) as [[]|]; cbn [rbind] in E; [|discriminate].
      inversion E. apply pext_nz. exact Na.
    - apply valid_iff. split; [apply (gintegrate_gwf _ _ _ Wa E)|apply (gintegrate_nz _ _ _ E)].
    - apply valid_iff. split; [apply (gpartial_gwf _ _ _ Wa E)|apply (gpartial_nz _ _ _ E)].
    - apply valid_iff. split; [apply gsubs_val_gwf; auto|apply psubs_val_nz].
    - apply valid_iff. split; [apply gsubs_gwf; auto|].
      apply ptrim_nz, pfilter_nz, psubs_poly_nz.
    - apply valid_iff. split; [apply (gtrim_gwf _ _ _ Wa E)|].
      unfold gtrim in E. destruct (kltb eps k0); inversion E. apply pfilter_nz. exact Na.
    - apply valid_iff. split; [apply (extract_terms_gwf _ _ _ Wa E)|].
      unfold extract_terms in E. destruct (Nat.ltb (gord a) n); inversion E. apply pfilter_nz. exact Na.
    - apply run1_valid; auto. apply valid_iff; auto.
    - eapply runD_valid; eauto. apply valid_iff; auto.
    - apply gpow_sg_valid. apply valid_iff; auto.
    - eapply valid_sto; eauto 4 with sto.
    - eapply valid_sto; eauto 4 with sto.
    - eapply valid_sto, sto_pow; eauto.
    - eapply valid_sto, (gsin_sto a); auto.
    - eapply valid_sto, (gcos_sto a); auto.
    - eapply valid_sto, (gsinh_sto a); auto.
    - eapply valid_sto, (gcosh_sto a); auto.
  Qed.
End Reachable.

(** ** Coefficients *)
Section Coef.
  Context {K : Type} {o : Ops K} {fl : FieldLaws o}.
  Local Open Scope K_scope.
  Add Field Kfield : (fl_field (K:=K)).

  Notation idK := (fun x : K => x).
  Notation gd := (gden idK).

  (** Indicator of the monomial [k] over [W], among monomials over [U]. *)
  Definition monb (U W : list string) (k : key) (d : nat) (m : mon) : bool :=
    Nat.eqb d (kdeg k) && key_eqb (map m W) k && forallb (fun s => str_in s W || Nat.eqb (m s) 0) U.
  Definition Fk (U W : list string) (k : key) : nat -> mon -> K :=
    fun d m => if monb U W k d m then 1 else 0.

  Lemma same_mono_spec V k W k' : same_mono V k W k' = true <->
    (forall s, In s V \/ In s W -> expo V k s = expo W k' s).
  Proof.
    unfold same_mono. rewrite forallb_forall. split.
    - intros H s Hs. apply Nat.eqb_eq, H. apply in_or_app. auto.
    - intros H s Hs. apply Nat.eqb_eq, H. apply in_app_or. auto.
  Qed.
  Lemma monb_spec U W k d m : monb U W k d m = true <->
    d = kdeg k /\ map m W = k /\ (forall s, In s U -> ~ In s W -> m s = 0%nat).
  Proof.
    unfold monb. rewrite !andb_true_iff, Nat.eqb_eq, key_eqb_spec, forallb_forall.
    split; [intros [[H1 H2] H3]|intros (H1 & H2 & H3)]; conjs; auto.
    - intros s Hs Hn. specialize (H3 s Hs). apply orb_true_iff in H3. destruct H3 as [H3|H3].
      + apply str_in_spec in H3. contradiction.
      + apply Nat.eqb_eq; auto.
    - intros s Hs. apply orb_true_iff. destruct (in_dec string_dec s W).
      + left. apply str_in_spec; auto.
      + right. apply Nat.eqb_eq; auto.
  Qed.

  Lemma kdeg_same V k W k' : NoDup V -> NoDup W -> length k = length V -> length k' = length W ->
    (forall s, In s V \/ In s W -> expo V k s = expo W k' s) -> kdeg k = kdeg k'.
  Proof.
    intros HV HW Hl Hl' H. rewrite (kdeg_ssum V k), (kdeg_ssum W k') by auto.
    set (X := sunion V (sset W)).
    assert (HX : NoDup X) by (apply ssorted_NoDup, sunion_sorted, sset_sorted).
    assert (I1 : incl V X) by (intros s Hs; apply sunion_In; auto).
    assert (I2 : incl W X) by (intros s Hs; apply sunion_In; right; apply sset_In; auto).
    assert (E : forall s, expo V k s = expo W k' s).
    { intros s. destruct (in_dec string_dec s V); [apply H; auto|].
      destruct (in_dec string_dec s W); [apply H; auto|]. rewrite !expo_not_In by auto. reflexivity. }
    transitivity (ssum X (expo V k)).
    - symmetry. apply ssum_incl; auto. intros; apply expo_not_In; auto.
    - transitivity (ssum X (expo W k')); [apply ssum_ext; auto|].
      apply ssum_incl; auto. intros; apply expo_not_In; auto.
  Qed.

  Lemma same_mono_monb V kt W k U : NoDup V -> NoDup W -> length kt = length V -> length k = length W ->
    incl V U -> same_mono V kt W k = monb U W k (kdeg kt) (expo V kt).
  Proof.
    intros HV HW Hl Hk HU. apply eq_true_iff_eq. rewrite same_mono_spec, monb_spec. split.
    - intros H. conjs.
      + apply (kdeg_same V kt W k); auto.
      + rewrite <- (map_expo_id W k) by auto. apply map_ext_in. intros s Hs. apply H; auto.
      + intros s _ Hn. destruct (in_dec string_dec s V).
        * rewrite H by auto. apply expo_not_In; auto.
        * apply expo_not_In; auto.
    - intros (_ & H2 & H3) s Hs.
      assert (HWs : forall s, In s W -> expo V kt s = expo W k s).
      { intros x Hx. rewrite <- H2. symmetry. apply expo_map; auto. }
      destruct (in_dec string_dec s W); auto. rewrite (expo_not_In W) by auto.
      destruct Hs as [Hs|Hs]; [|contradiction]. apply H3; auto.
  Qed.

  Lemma coef_Lf g W k U : gwf g -> NoDup W -> length k = length W -> incl (gsyms g) U ->
    coef g W k = Lf (gd g) (Fk U W k).
  Proof.
    intros [[Hs Hl Hd] _] HW Hk HU. unfold coef, gden, den. rewrite Lf_tden.
    apply ssorted_NoDup in Hs. unfold klen in Hl. unfold gsyms in HU.
    induction (pterms (gp g)) as [|t ts IH]; simpl; auto.
    inversion Hl; subst. inversion Hd; subst. rewrite IH by auto. f_equal.
    rewrite (same_mono_monb _ _ _ _ U) by auto. unfold Fk.
    destruct (monb U W k (kdeg (fst t)) (expo (psyms (gp g)) (fst t))); ring.
  Qed.
  Lemma Fk_keep tr U W k : keep tr (kdeg k) -> forall d m, ~ keep tr d -> Fk U W k d m = 0.
  Proof.
    intros Hk d m Hd. unfold Fk, monb. destruct (Nat.eqb_spec d (kdeg k)); [subst; contradiction|].
    reflexivity.
  Qed.

  (** Equality of denotations gives equality of coefficients. *)
  Lemma seqv_coef tr a b W k : gwf a -> gwf b -> NoDup W -> length k = length W -> keep tr (kdeg k) ->
    seqv tr (gd a) (gd b) -> coef a W k = coef b W k.
  Proof.
    intros Ha Hb HW Hk Hkeep E.
    rewrite (coef_Lf a W k (gsyms a ++ gsyms b)), (coef_Lf b W k (gsyms a ++ gsyms b)); auto.
    - apply (seqv_elim E). apply Fk_keep; auto.
    - intros x Hx; apply in_or_app; auto.
    - intros x Hx; apply in_or_app; auto.
  Qed.
  Lemma seqv_agree n a b : gwf a -> gwf b -> seqv (Some n) (gd a) (gd b) -> agree n a b.
  Proof. intros Ha Hb E W k HW Hk Hd. eapply (seqv_coef (Some n)); eauto. Qed.
  Lemma seqv_same_coefs a b : gwf a -> gwf b -> seqv None (gd a) (gd b) -> same_coefs a b.
  Proof. intros Ha Hb E W k HW Hk. eapply (seqv_coef None); eauto. exact I. Qed.

  Lemma coef_own g t : gwf g -> In t (pterms (gp g)) -> coef g (gsyms g) (fst t) = snd t.
  Proof.
    intros [[Hs Hl Hd] _] Hin. unfold coef, gsyms. apply ssorted_NoDup in Hs. unfold klen in Hl. unfold kdist in Hd.
    assert (Hlt : length (fst t) = length (psyms (gp g))).
    { rewrite Forall_forall in Hl. auto. }
    assert (Z : forall ts, Forall (fun t => length (fst t) = length (psyms (gp g))) ts -> ~ In (fst t) (map fst ts) ->
      fold_right (fun t0 a => (if same_mono (psyms (gp g)) (fst t0) (psyms (gp g)) (fst t) then snd t0 else 0) + a) 0 ts = 0).
    { induction ts as [|u ts IH]; intros HL HN; simpl; auto. inversion HL; subst. rewrite IH; auto.
      - destruct (same_mono _ _ _ _) eqn:E; [|ring]. exfalso. apply HN. left.
        rewrite same_mono_spec in E. apply (expo_inj (psyms (gp g))); auto.
      - intros Hi. apply HN. right; auto. }
    induction (pterms (gp g)) as [|u ts IH]; [contradiction|].
    inversion Hl; subst. inversion Hd; subst. simpl. destruct Hin as [<-|Hin].
    - replace (same_mono _ _ _ _) with true.
      + rewrite Z; auto. ring.
      + symmetry. apply same_mono_spec. auto.
    - rewrite IH; auto. destruct (same_mono _ _ _ _) eqn:E; [|ring]. exfalso.
      rewrite same_mono_spec in E.
      assert (E' : fst u = fst t) by (apply (expo_inj (psyms (gp g))); auto).
      match goal with H : ~ In (fst u) _ |- _ => apply H end. rewrite E'. apply in_map; auto.
  Qed.
  Lemma coef_missing g k : gwf g -> length k = length (gsyms g) -> ~ In k (map fst (pterms (gp g))) ->
    coef g (gsyms g) k = 0.
  Proof.
    intros [[Hs Hl Hd] _] Hk. unfold coef, gsyms in *. apply ssorted_NoDup in Hs. unfold klen in Hl. clear Hd.
    induction (pterms (gp g)) as [|u ts IH]; simpl; auto. inversion Hl; subst. intros HN.
    rewrite IH; auto. destruct (same_mono _ _ _ _) eqn:E; [|ring]. exfalso. apply HN. left.
    rewrite same_mono_spec in E. apply (expo_inj (psyms (gp g))); auto.
  Qed.
  Lemma coef_pfind g k : gwf g -> length k = length (gsyms g) ->
    coef g (gsyms g) k = match pfind k (gp g) with Some c => c | None => 0 end.
  Proof.
    intros Hg Hk. unfold pfind. destruct (tfind k (pterms (gp g))) as [c|] eqn:E.
    - apply tfind_In in E. apply (coef_own g (k, c)); auto.
    - apply coef_missing; auto. apply tfind_None; auto.
  Qed.

  (** Reading exponents on a larger set of variables. *)
  Lemma same_mono_same V kt W k W' k' : (forall s, expo W k s = expo W' k' s) ->
    NoDup V -> same_mono V kt W k = true -> same_mono V kt W' k' = true.
  Proof.
    intros E HV. rewrite !same_mono_spec. intros H s Hs. rewrite <- E.
    destruct Hs as [Hs|Hs]; [apply H; auto|].
    destruct (in_dec string_dec s V); [apply H; auto|].
    destruct (in_dec string_dec s W); [apply H; auto|].
    rewrite !expo_not_In by auto. reflexivity.
  Qed.
  Lemma coef_ext g W k W' k' : gwf g -> (forall s, expo W k s = expo W' k' s) -> coef g W k = coef g W' k'.
  Proof.
    intros [[Hs _ _] _] E. unfold coef. apply ssorted_NoDup in Hs.
    induction (pterms (gp g)) as [|u ts IH]; simpl; auto. rewrite IH. f_equal.
    replace (same_mono (psyms (gp g)) (fst u) W' k') with (same_mono (psyms (gp g)) (fst u) W k); auto.
    apply eq_true_iff_eq. split; apply same_mono_same; auto.
  Qed.

  (** If all coefficients up to order [n] agree, so do the denotations. *)
  Lemma Lf_pext g W F : gwf g -> ssorted W -> incl (gsyms g) W ->
    Lf (gd g) F = Lf (gd (mkG (pext W (gp g)) (gord g))) F.
  Proof.
    intros [Hg _] HW Hi. unfold gden; cbn [gp]. symmetry. apply (seqv_elim (den_pext idK None W (gp g) Hg (ssorted_NoDup _ HW) Hi)).
    simpl. tauto.
  Qed.

  Lemma agree_seqv tr a b : gwf a -> gwf b ->
    (forall W k, NoDup W -> length k = length W -> keep tr (kdeg k) -> coef a W k = coef b W k) ->
    seqv tr (gd a) (gd b).
  Proof.
    intros Ha Hb H. constructor. intros F HF.
    set (W := sunion (gsyms a) (gsyms b)).
    assert (HWs : ssorted W) by (apply sunion_sorted, gsyms_sorted; auto).
    assert (HWn := ssorted_NoDup _ HWs).
    assert (Ia : incl (gsyms a) W) by apply sunion_incl1.
    assert (Ib : incl (gsyms b) W) by apply sunion_incl2.
    rewrite (Lf_pext a W), (Lf_pext b W) by auto.
    set (a' := mkG (pext W (gp a)) (gord a)). set (b' := mkG (pext W (gp b)) (gord b)).
    assert (Wa : gwf a') by (constructor; [apply pext_swf|apply pext_dle]; auto; apply Ha).
    assert (Wb : gwf b') by (constructor; [apply pext_swf|apply pext_dle]; auto; apply Hb).
    assert (H' : forall k, length k = length W -> keep tr (kdeg k) -> coef a' W k = coef b' W k).
    { intros k Hk Hd.
      rewrite <- (seqv_coef None a a'), <- (seqv_coef None b b'); auto; try exact I.
      - constructor. intros G _. apply (Lf_pext b); auto.
      - constructor. intros G _. apply (Lf_pext a); auto. }
    (* sum over the union of the keys *)
    assert (Sum : forall g, gwf g -> gsyms g = W -> forall ks, NoDup ks -> incl (map fst (pterms (gp g))) ks ->
      (forall k, In k ks -> length k = length W) ->
      Lf (gd g) F = fold_right (fun k acc => coef g W k * F (kdeg k) (expo W k) + acc) 0 ks).
    { intros g Hg HS ks. 
      assert (Hco : forall k, length k = length W -> coef g W k = match pfind k (gp g) with Some c => c | None => 0 end).
      { intros k Hk. rewrite <- HS in *. apply coef_pfind; auto. }
      destruct Hg as [[Hs Hl Hdi] _]. unfold gden, den. rewrite Lf_tden. unfold gsyms in HS. rewrite HS in *.
      intros Hnd Hin Hlen.
      assert (G : forall ts, NoDup (map fst ts) -> incl (map fst ts) ks ->
         fold_right (fun t a => snd t * F (kdeg (fst t)) (expo W (fst t)) + a) 0 ts =
         fold_right (fun k acc => (match tfind k ts with Some c => c | None => 0 end) * F (kdeg k) (expo W k) + acc) 0 ks).
      { induction ts as [|[kt c] ts IH]; intros N1 I1.
        - simpl. clear -fl. induction ks as [|k ks IHk]; simpl; auto. rewrite <- IHk. ring.
        - cbn [fold_right fst snd map] in *. inversion N1; subst.
          rewrite IH; auto; [|intros x Hx; apply I1; right; auto].
          assert (Hk : In kt ks) by (apply I1; left; auto).
          assert (Hnone : tfind kt ts = None) by (apply tfind_None; auto).
          clear - Hk Hnd Hnone fl. induction ks as [|k ks IHk]; [contradiction|].
          inversion Hnd; subst. cbn [fold_right tfind] in IHk |- *.
          destruct (key_eqb kt k) eqn:E.
          + apply key_eqb_spec in E. subst k. rewrite Hnone.
            assert (Erest : fold_right (fun k acc => (match tfind k ts with Some c => c | None => 0 end) * F (kdeg k) (expo W k) + acc) 0 ks =
              fold_right (fun k acc => (match (if key_eqb kt k then Some c else tfind k ts) with Some c => c | None => 0 end) * F (kdeg k) (expo W k) + acc) 0 ks).
            { match goal with Hn : ~ In kt ks |- _ => revert Hn end. clear. intros Hn.
              induction ks as [|k ks IHk]; simpl; auto. rewrite IHk by (intros Hx; apply Hn; right; auto).
              destruct (key_eqb kt k) eqn:E; auto. apply key_eqb_spec in E. exfalso. apply Hn. left; auto. }
            rewrite <- Erest. ring.
          + destruct Hk as [->|Hk]; [rewrite key_eqb_refl in E; discriminate|].
            rewrite <- IHk by auto. ring. }
      rewrite G by auto. clear - Hco Hlen fl. induction ks as [|k ks IHk]; simpl; auto.
      rewrite IHk by (intros; apply Hlen; right; auto). rewrite Hco by (apply Hlen; left; auto). reflexivity. }
    set (ks := nodup (list_eq_dec Nat.eq_dec) (map fst (pterms (gp a')) ++ map fst (pterms (gp b')))).
    assert (Hks : forall k, In k ks -> length k = length W).
    { intros k Hk. apply nodup_In, in_app_or in Hk.
      destruct Hk as [Hk|Hk]; apply in_map_iff in Hk; destruct Hk as (t & <- & Ht);
        [apply (pext_len_In W (gp a))|apply (pext_len_In W (gp b))]; exact Ht. }
    rewrite (Sum a' Wa eq_refl ks), (Sum b' Wb eq_refl ks); auto; try apply NoDup_nodup.
    - clear -H' Hks HF fl. induction ks as [|k ks IH]; simpl; auto.
      rewrite IH by (intros; apply Hks; right; auto). f_equal.
      destruct (keep_dec tr (kdeg k)).
      + rewrite H'; auto. apply Hks; left; auto.
      + rewrite HF by auto. ring.
    - intros k Hk. apply nodup_In, in_or_app; auto.
    - intros k Hk. apply nodup_In, in_or_app; auto.
  Qed.
  Lemma agree_iff n a b : gwf a -> gwf b -> agree n a b <-> seqv (Some n) (gd a) (gd b).
  Proof.
    intros Ha Hb. split; [|apply seqv_agree; auto]. intros H. apply agree_seqv; auto.
  Qed.
  Lemma same_coefs_iff a b : gwf a -> gwf b -> same_coefs a b <-> seqv None (gd a) (gd b).
  Proof.
    intros Ha Hb. split; [|apply seqv_same_coefs; auto]. intros H. apply agree_seqv; auto.
  Qed.

  (** Coefficients of sums and products. *)
  Lemma coef_add a b W k : gwf a -> gwf b -> NoDup W -> length k = length W ->
    coef (gadd a b) W k = coef a W k + coef b W k.
  Proof.
    intros Ha Hb HW Hk. set (U := gsyms (gadd a b) ++ gsyms a ++ gsyms b).
    rewrite (coef_Lf (gadd a b) W k U), (coef_Lf a W k U), (coef_Lf b W k U); auto with gwf;
      try (intros x Hx; unfold U; rewrite !in_app_iff; tauto).
    rewrite <- Lf_sadd. apply (seqv_elim (gden_add idK None a b Ha Hb)). simpl; tauto.
  Qed.
  Lemma coef_sub a b W k : gwf a -> gwf b -> NoDup W -> length k = length W ->
    coef (gsub a b) W k = coef a W k - coef b W k.
  Proof.
    intros Ha Hb HW Hk. set (U := gsyms (gsub a b) ++ gsyms a ++ gsyms b).
    rewrite (coef_Lf (gsub a b) W k U), (coef_Lf a W k U), (coef_Lf b W k U); auto with gwf;
      try (intros x Hx; unfold U; rewrite !in_app_iff; tauto).
    rewrite <- Lf_ssub. apply (seqv_elim (gden_sub idK None a b Ha Hb)). simpl; tauto.
  Qed.
  Lemma coef_neg a W k : gwf a -> NoDup W -> length k = length W -> coef (gneg a) W k = - coef a W k.
  Proof.
    intros Ha HW Hk.
    rewrite (coef_Lf (gneg a) W k (gsyms a)), (coef_Lf a W k (gsyms a)); auto using incl_refl with gwf.
    rewrite <- Lf_sopp. apply (seqv_elim (gden_neg idK None a)). simpl; tauto.
  Qed.

  (** Convolution on exponent vectors. *)
  Lemma splits_delta k a b : length a = length k -> length b = length k ->
    sum_list (fun ij => (if key_eqb a (fst ij) then 1 else 0) * (if key_eqb b (snd ij) then 1 else 0)) (splits k)
    = (if key_eqb (kplus a b) k then 1 else 0).
  Proof.
    assert (App : forall {A} (f : A -> K) l l', sum_list f (l ++ l') = sum_list f l + sum_list f l').
    { unfold sum_list. intros A f l l'. induction l; simpl; [ring|rewrite IHl; ring]. }
    revert a b. induction k as [|e k IH]; intros [|x a] [|y b] Ha Hb; simpl in Ha, Hb; try lia.
    - unfold sum_list; simpl. ring.
    - cbn [splits kplus key_eqb].
      assert (G : forall l, NoDup l -> (forall a0, In a0 l -> (a0 <= e)%nat) ->
        sum_list (fun ij => (if key_eqb (x :: a) (fst ij) then 1 else 0) * (if key_eqb (y :: b) (snd ij) then 1 else 0))
          (flat_map (fun a0 => map (fun ij => (a0 :: fst ij, (e - a0)%nat :: snd ij)) (splits k)) l)
        = if in_dec Nat.eq_dec x l then (if Nat.eqb (x + y) e && key_eqb (kplus a b) k then 1 else 0) else 0).
      { induction l as [|a0 l IHl]; intros HN Hle.
        - reflexivity.
        - cbn [flat_map]. rewrite App. inversion HN; subst.
          assert (E : sum_list (fun ij => (if key_eqb (x :: a) (fst ij) then 1 else 0) * (if key_eqb (y :: b) (snd ij) then 1 else 0))
             (map (fun ij => (a0 :: fst ij, (e - a0)%nat :: snd ij)) (splits k)) =
             if Nat.eqb x a0 && Nat.eqb y (e - a0) then (if key_eqb (kplus a b) k then 1 else 0) else 0).
          { rewrite <- (IH a b) by lia. unfold sum_list. clear - fl. induction (splits k) as [|ij l IHl]; cbn [map fold_right fst snd].
            - destruct (_ && _); auto.
            - rewrite IHl. cbn [key_eqb]. destruct (Nat.eqb x a0), (Nat.eqb y (e - a0)); simpl; try reflexivity.
              all: first [reflexivity|ring|destruct (key_eqb a (fst ij)); ring]. }
          etransitivity.
          { apply (f_equal2 kadd); [exact E|apply IHl; auto; intros; apply Hle; right; auto]. }
          assert (Ha0 : (a0 <= e)%nat) by (apply Hle; left; auto).
          destruct (Nat.eqb_spec x a0) as [->|Nx].
          + destruct (in_dec Nat.eq_dec a0 l); [contradiction|].
            destruct (in_dec Nat.eq_dec a0 (a0 :: l)) as [_|N]; [|exfalso; apply N; left; auto].
            simpl. replace (Nat.eqb (a0 + y) e) with (Nat.eqb y (e - a0)).
            * destruct (Nat.eqb y (e - a0)); simpl; ring.
            * apply eq_true_iff_eq. rewrite !Nat.eqb_eq. lia.
          + simpl. destruct (in_dec Nat.eq_dec x l); destruct (Nat.eq_dec a0 x); try congruence; ring. }
      rewrite G.
      + destruct (in_dec Nat.eq_dec x (seq 0 (S e))) as [Hi|Hi]; auto.
        destruct (Nat.eqb_spec (x + y) e); auto. exfalso. apply Hi. apply in_seq. lia.
      + apply seq_NoDup.
      + intros a0 Hin. apply in_seq in Hin. lia.
  Qed.

  (** Terms whose degree is the sum of their exponents over [U]. *)
  Definition proper (U : list string) (t : K * (nat * mon)) : Prop :=
    fst (snd t) = ssum U (snd (snd t)).
  Lemma gd_proper g U : gwf g -> NoDup U -> incl (gsyms g) U -> Forall (proper U) (gd g).
  Proof.
    intros [[Hs Hl _] _] HU Hi. unfold gden, den, tden. rewrite Forall_map.
    eapply Forall_impl; [|exact Hl]. intros t Ht. unfold proper. cbn [fst snd].
    rewrite (kdeg_ssum (psyms (gp g))) by (auto using ssorted_NoDup).
    symmetry. apply ssum_incl; auto using ssorted_NoDup. intros; apply expo_not_In; auto.
  Qed.

  Lemma monb_proper U W k d m : NoDup U -> incl W U -> NoDup W -> d = ssum U m -> length k = length W ->
    monb U W k d m = key_eqb (map m W) k && forallb (fun s => str_in s W || Nat.eqb (m s) 0) U.
  Proof.
    intros HU HW HNW Hd Hk. unfold monb.
    destruct (key_eqb (map m W) k) eqn:E; [|rewrite andb_false_r; reflexivity].
    destruct (forallb _ U) eqn:E2; [|rewrite andb_false_r; reflexivity].
    apply key_eqb_spec in E. rewrite forallb_forall in E2.
    replace (Nat.eqb d (kdeg k)) with true; auto. symmetry. apply Nat.eqb_eq. rewrite Hd, <- E.
    change (kdeg (map m W)) with (ssum W m).
    transitivity (ssum U (fun s => if str_in s W then m s else 0%nat)).
    - apply ssum_ext. intros s Hs. specialize (E2 s Hs). apply orb_true_iff in E2.
      destruct (str_in s W); auto. destruct E2 as [E2|E2]; [discriminate|]. apply Nat.eqb_eq; auto.
    - transitivity (ssum W (fun s => if str_in s W then m s else 0%nat)).
      + apply ssum_incl; auto. intros s Hs. destruct (str_in s W) eqn:Es; auto.
        apply str_in_spec in Es. contradiction.
      + apply ssum_ext. intros s Hs. apply str_in_spec in Hs. rewrite Hs. reflexivity.
  Qed.

  Lemma map_monadd W m m' : map (monadd m m') W = kplus (map m W) (map m' W).
  Proof. induction W; simpl; auto. unfold monadd at 1. rewrite IHW. reflexivity. Qed.

  Lemma Lf_sum_list {A} (l : list A) (F : A -> nat -> mon -> K) (c : sp K) :
    Lf c (fun d m => sum_list (fun x => F x d m) l) = sum_list (fun x => Lf c (F x)) l.
  Proof.
    unfold sum_list. induction l as [|x l IH]; simpl.
    - apply Lf_zero. auto.
    - rewrite Lf_plus, IH. reflexivity.
  Qed.
  Lemma sum_list_ext {A} (f g : A -> K) l : (forall x, In x l -> f x = g x) -> sum_list f l = sum_list g l.
  Proof.
    unfold sum_list. induction l as [|x l IH]; simpl; auto. intros H. rewrite IH, (H x); auto.
  Qed.
  Lemma sum_list_zero {A} (f : A -> K) l : (forall x, In x l -> f x = 0) -> sum_list f l = 0.
  Proof.
    unfold sum_list. induction l as [|x l IH]; simpl; auto. intros H. rewrite IH, (H x); auto. ring.
  Qed.
  Lemma splits_length k ij : In ij (splits k) -> length (fst ij) = length k /\ length (snd ij) = length k.
  Proof.
    revert ij. induction k as [|e k IH]; intros ij; cbn [splits].
    - intros [<-|[]]; auto.
    - rewrite in_flat_map. intros (a & _ & H). apply in_map_iff in H. destruct H as (ij' & <- & H).
      apply IH in H. destruct H. simpl. split; f_equal; auto.
  Qed.

  Lemma Lf_mul_Fk U W k A B : NoDup U -> NoDup W -> incl W U -> length k = length W ->
    Forall (proper U) A -> Forall (proper U) B ->
    Lf (smul A B) (Fk U W k) = sum_list (fun ij => Lf A (Fk U W (fst ij)) * Lf B (Fk U W (snd ij))) (splits k).
  Proof.
    intros HU HW Hi Hk HA HB. rewrite Lf_smul.
    transitivity (Lf A (fun d m => sum_list (fun ij => Fk U W (fst ij) d m * Lf B (Fk U W (snd ij))) (splits k))).
    2:{ rewrite (Lf_sum_list (splits k) (fun ij d m => Fk U W (fst ij) d m * Lf B (Fk U W (snd ij)))).
        apply sum_list_ext. intros ij _. apply Lf_scale_r. }
    apply Lf_ext. intros t Ht. rewrite Forall_forall in HA. specialize (HA t Ht). unfold proper in HA.
    set (d := fst (snd t)) in *. set (m := snd (snd t)) in *.
    transitivity (Lf B (fun d' m' => sum_list (fun ij => Fk U W (fst ij) d m * Fk U W (snd ij) d' m') (splits k))).
    2:{ rewrite (Lf_sum_list (splits k) (fun ij d' m' => Fk U W (fst ij) d m * Fk U W (snd ij) d' m')).
        apply sum_list_ext. intros ij _. apply Lf_scale. }
    apply Lf_ext. intros t' Ht'. rewrite Forall_forall in HB. specialize (HB t' Ht'). unfold proper in HB.
    set (d' := fst (snd t')) in *. set (m' := snd (snd t')) in *.
    assert (Hsum : (d + d')%nat = ssum U (monadd m m')).
    { rewrite HA, HB. symmetry. apply ssum_plus. }
    unfold Fk at 1. rewrite monb_proper by auto.
    rewrite map_monadd.
    set (z := forallb (fun s => str_in s W || Nat.eqb (m s) 0) U).
    set (z' := forallb (fun s => str_in s W || Nat.eqb (m' s) 0) U).
    assert (Ez : forallb (fun s => str_in s W || Nat.eqb (monadd m m' s) 0) U = z && z').
    { unfold z, z'. clear. induction U as [|s U IH]; simpl; auto. rewrite IH. unfold monadd.
      destruct (str_in s W); simpl; auto.
      - destruct (Nat.eqb_spec (m s + m' s) 0), (Nat.eqb_spec (m s) 0), (Nat.eqb_spec (m' s) 0); simpl; try lia;
          rewrite ?andb_false_r; auto. }
    rewrite Ez.
    transitivity (sum_list (fun ij => (if key_eqb (map m W) (fst ij) && z then 1 else 0) *
                                      (if key_eqb (map m' W) (snd ij) && z' then 1 else 0)) (splits k)).
    2:{ apply sum_list_ext. intros ij Hij. apply splits_length in Hij. destruct Hij as [L1 L2].
        unfold Fk. rewrite !monb_proper by (auto; congruence). reflexivity. }
    destruct z, z'.
    - rewrite !andb_true_r. rewrite <- (splits_delta k (map m W) (map m' W)) by (rewrite map_length; auto).
      apply sum_list_ext. intros ij _. rewrite !andb_true_r. reflexivity.
    - rewrite !andb_false_r. symmetry. apply sum_list_zero. intros ij _. rewrite !andb_false_r. ring.
    - rewrite !andb_false_r. symmetry. apply sum_list_zero. intros ij _. rewrite !andb_false_r. ring.
    - rewrite !andb_false_r. symmetry. apply sum_list_zero. intros ij _. rewrite !andb_false_r. ring.
  Qed.

  Lemma coef_mul a b W k : gwf a -> gwf b -> NoDup W -> length k = length W ->
    (list_sum k <= Nat.max (gord a) (gord b))%nat ->
    coef (gmul a b) W k = sum_list (fun ij => coef a W (fst ij) * coef b W (snd ij)) (splits k).
  Proof.
    intros Ha Hb HW Hk Hd. set (U := sunion W (sunion (gsyms a) (gsyms b))).
    assert (HU : NoDup U) by (apply ssorted_NoDup, sunion_sorted, sunion_sorted, gsyms_sorted; auto).
    assert (IW : incl W U) by apply sunion_incl1.
    assert (Ia : incl (gsyms a) U).
    { intros x Hx. apply sunion_In. right. apply sunion_In; auto. }
    assert (Ib : incl (gsyms b) U).
    { intros x Hx. apply sunion_In. right. apply sunion_In; auto. }
    assert (Iab : incl (gsyms (gmul a b)) U).
    { intros x Hx. rewrite gsyms_mul in Hx. apply sunion_In. right. auto. }
    rewrite (coef_Lf (gmul a b) W k U) by auto with gwf.
    rewrite (seqv_elim (gden_mul idK (kdeg k) a b Ha Hb Hd)).
    - rewrite Lf_mul_Fk; auto using gd_proper.
      apply sum_list_ext. intros ij Hij. apply splits_length in Hij. destruct Hij as [L1 L2].
      rewrite (coef_Lf a W (fst ij) U), (coef_Lf b W (snd ij) U); auto; congruence.
    - apply Fk_keep. simpl; auto.
  Qed.

  (** No coefficient above the order. *)
  Lemma coef_above g W k : gwf g -> NoDup W -> length k = length W -> (gord g < list_sum k)%nat -> coef g W k = 0.
  Proof.
    intros Hg HW Hk Hd. rewrite (coef_Lf g W k (gsyms g)); auto using incl_refl.
    destruct Hg as [_ Hdl]. unfold gden. rewrite (Lf_cut (gord g)); [|apply den_sdle; auto].
    apply Lf_zero. intros d m. destruct (Nat.leb_spec d (gord g)); auto.
    unfold Fk, monb. destruct (Nat.eqb_spec d (kdeg k)); auto. subst. change (list_sum k) with (kdeg k) in Hd. lia.
  Qed.

  (** ** The equality operator *)
  Lemma geqb_seqv a b : gwf a -> gwf b -> gnz a -> gnz b ->
    geqb a b = true <-> seqv None (gd a) (gd b).
  Proof.
    intros Ha Hb Na Nb. unfold geqb, peqb.
    set (W := sunion (psyms (gp a)) (psyms (gp b))).
    assert (HWs : ssorted W) by (apply sunion_sorted; apply Hb).
    assert (HWn := ssorted_NoDup _ HWs).
    assert (Ia : incl (gsyms a) W) by apply sunion_incl1.
    assert (Ib : incl (gsyms b) W) by apply sunion_incl2.
    set (a' := mkG (pext W (gp a)) (gord a)). set (b' := mkG (pext W (gp b)) (gord b)).
    assert (Wa : gwf a') by (constructor; [apply pext_swf|apply pext_dle]; auto; apply Ha).
    assert (Wb : gwf b') by (constructor; [apply pext_swf|apply pext_dle]; auto; apply Hb).
    assert (Ea : seqv None (gd a') (gd a)) by (constructor; intros F _; symmetry; apply Lf_pext; auto).
    assert (Eb : seqv None (gd b') (gd b)) by (constructor; intros F _; symmetry; apply Lf_pext; auto).
    assert (Na' : gnz a') by (apply pext_nz; auto). assert (Nb' : gnz b') by (apply pext_nz; auto).
    rewrite <- Ea, <- Eb. change (pext W (gp a)) with (gp a'). change (pext W (gp b)) with (gp b').
    assert (Sa : gsyms a' = W) by reflexivity. assert (Sb : gsyms b' = W) by reflexivity.
    clearbody a' b'. clear Ea Eb Ha Hb Na Nb Ia Ib.
    rewrite andb_true_iff, forallb_forall, Nat.eqb_eq. split.
    - intros [Hlen H]. apply same_coefs_iff; auto.
      assert (Hkeys : incl (map fst (pterms (gp a'))) (map fst (pterms (gp b')))).
      { intros k Hk. apply in_map_iff in Hk. destruct Hk as (t & <- & Ht). specialize (H t Ht).
        unfold pfind in H. destruct (tfind (fst t) (pterms (gp b'))) eqn:E; [|discriminate].
        apply tfind_In in E. apply in_map_iff. exists (fst t, k); auto. }
      assert (Hkeys' : incl (map fst (pterms (gp b'))) (map fst (pterms (gp a')))).
      { apply NoDup_length_incl; auto.
        - apply Wa.
        - rewrite !map_length. apply Nat.eq_le_incl; first [exact Hlen|symmetry; exact Hlen]. }
      apply (same_coefs_iff a' b'); auto. constructor. intros F _. unfold gden, den. rewrite !Lf_tden.
      change (psyms (gp a')) with (gsyms a'). change (psyms (gp b')) with (gsyms b'). rewrite Sa, Sb.
      destruct Wa as [[_ _ Da] _]. destruct Wb as [[_ _ Db] _]. unfold kdist in Da, Db.
      unfold pfind in H. revert Hlen H Hkeys Hkeys' Da Db. generalize (pterms (gp b')) as tb.
      induction (pterms (gp a')) as [|[k c] ta IH]; intros tb Hlen H Hkeys Hkeys' Da Db.
      + destruct tb; [reflexivity|discriminate].
      + assert (Hk : In (k, c) tb).
        { specialize (H (k, c) (or_introl eq_refl)). cbn [fst snd] in H.
          destruct (tfind k tb) as [c'|] eqn:E; [|discriminate]. apply fl_eqb in H. subst.
          apply tfind_In; auto. }
        apply in_split in Hk. destruct Hk as (t1 & t2 & ->).
        cbn [fold_right fst snd].
        rewrite map_app in Db. cbn [map fst] in Db.
        assert (N1 := NoDup_remove_1 _ _ _ Db). assert (N2 := NoDup_remove_2 _ _ _ Db).
        cbn [map fst] in Da. inversion Da; subst.
        rewrite (IH (t1 ++ t2)); auto.
        * rewrite !fold_right_app. cbn [fold_right fst snd].
          set (Z := fold_right _ 0 t2).
          assert (Fr : forall l z x, fold_right (fun t a => snd t * F (kdeg (fst t)) (expo W (fst t)) + a) (x + z) l
             = x + fold_right (fun t a => snd t * F (kdeg (fst t)) (expo W (fst t)) + a) z l).
          { induction l as [|y l IHl]; intros; simpl; auto. rewrite IHl. ring. }
          rewrite Fr. reflexivity.
        * rewrite !app_length in *. simpl in Hlen. lia.
        * intros t Ht. specialize (H t (or_intror Ht)).
          assert (Hne : key_eqb k (fst t) = false).
          { apply key_eqb_false. intros ->. match goal with X : ~ In _ (map fst ta) |- _ => apply X end.
            apply in_map; auto. }
          clear - H Hne. induction t1 as [|[x y] t1 IHt]; simpl in *.
          -- rewrite Hne in H. exact H.
          -- destruct (key_eqb x (fst t)); auto.
        * intros x Hx. assert (Hx' := Hkeys x (or_intror Hx)). rewrite map_app in *. cbn [map fst] in Hx'.
          apply in_app_or in Hx'. apply in_or_app. destruct Hx' as [?|[<-|?]]; auto.
          contradiction.
        * intros x Hx. rewrite map_app in Hx.
          assert (Hx' : In x (map fst (t1 ++ (k, c) :: t2))).
          { rewrite map_app. apply in_app_or in Hx. apply in_or_app. destruct Hx; auto. right; right; auto. }
          apply Hkeys' in Hx'. destruct Hx' as [E|]; auto. simpl in E. subst x. exfalso. apply N2. exact Hx.
        * rewrite map_app. exact N1.
    - intros E.
      assert (Hc : forall k, length k = length W -> coef a' W k = coef b' W k).
      { intros k Hk. eapply (seqv_coef None); eauto. exact I. }
      assert (Hab : forall t, In t (pterms (gp a')) -> pfind (fst t) (gp b') = Some (snd t)).
      { intros t Ht.
        assert (Hl : length (fst t) = length W).
        { destruct Wa as [[_ L _] _]. unfold klen in L. rewrite Forall_forall in L. rewrite <- Sa. apply L; auto. }
        assert (E1 : coef a' W (fst t) = snd t) by (rewrite <- Sa; apply coef_own; auto).
        rewrite (Hc _ Hl) in E1. rewrite <- Sb in E1 at 1. rewrite coef_pfind in E1 by (auto; congruence).
        destruct (pfind (fst t) (gp b')); [congruence|]. exfalso.
        unfold gnz, nz in Na'. rewrite Forall_forall in Na'. specialize (Na' t Ht).
        rewrite <- E1 in Na'. rewrite keqb_refl in Na'. discriminate. }
      assert (Hba : forall t, In t (pterms (gp b')) -> pfind (fst t) (gp a') = Some (snd t)).
      { intros t Ht.
        assert (Hl : length (fst t) = length W).
        { destruct Wb as [[_ L _] _]. unfold klen in L. rewrite Forall_forall in L. rewrite <- Sb. apply L; auto. }
        assert (E1 : coef b' W (fst t) = snd t) by (rewrite <- Sb; apply coef_own; auto).
        rewrite <- (Hc _ Hl) in E1. rewrite <- Sa in E1 at 1. rewrite coef_pfind in E1 by (auto; congruence).
        destruct (pfind (fst t) (gp a')); [congruence|]. exfalso.
        unfold gnz, nz in Nb'. rewrite Forall_forall in Nb'. specialize (Nb' t Ht).
        rewrite <- E1 in Nb'. rewrite keqb_refl in Nb'. discriminate. }
      split.
      + cut (length (map fst (pterms (gp a'))) = length (map fst (pterms (gp b')))).
        { rewrite !map_length. auto. }
        apply Nat.le_antisymm; apply NoDup_incl_length; try apply Wa; try apply Wb.
        * intros k Hk. apply in_map_iff in Hk. destruct Hk as (t & <- & Ht). apply Hab in Ht.
          unfold pfind in Ht. apply tfind_In in Ht. apply in_map_iff. eexists; split; [|exact Ht]; auto.
        * intros k Hk. apply in_map_iff in Hk. destruct Hk as (t & <- & Ht). apply Hba in Ht.
          unfold pfind in Ht. apply tfind_In in Ht. apply in_map_iff. eexists; split; [|exact Ht]; auto.
      + intros t Ht. rewrite (Hab t Ht). apply keqb_refl.
  Qed.
  Lemma geqb_same a b : valid a -> valid b -> geqb a b = true <-> same_coefs a b.
  Proof.
    intros Ha Hb. apply valid_iff in Ha, Hb. destruct Ha, Hb.
    rewrite same_coefs_iff by auto. apply geqb_seqv; auto.
  Qed.
End Coef.
