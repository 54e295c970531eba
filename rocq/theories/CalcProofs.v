(** * Proofs of the calculus properties C19-C26 (proof file) *)

From Coq Require Import String Ascii List Arith Bool Lia ZArith Sorting.Sorted Setoid Morphisms Ring Field.
From Verif Require Import Ops Syms SymsFacts Poly PolyFacts Sem Den Gdual GdualFacts Functions FunStruct Spec CoefFacts CoreProofs.
Import ListNotations.

Section Calc.
  Context {K : Type} {o : Ops K} {fl : FieldLaws o}.
  Local Open Scope K_scope.
  Add Field Kfield : (fl_field (K:=K)).
  #[local] Hint Resolve (@valid_gwf K o) (@valid_gnz K o) : gwf.

  Notation idK := (fun x : K => x).
  Notation gd := (gden idK).

  Lemma incr_length W k s : length (incr W k s) = length W.
  Proof. apply map_length. Qed.
  Lemma expo_incr W k s t : In s W -> expo W (incr W k s) t = (expo W k t + if String.eqb t s then 1 else 0)%nat.
  Proof.
    intros Hs. unfold incr. destruct (in_dec string_dec t W) as [Ht|Ht].
    - rewrite expo_map by auto. reflexivity.
    - rewrite !expo_not_In by auto. destruct (String.eqb_spec t s); [subst; contradiction|auto].
  Qed.
  Lemma kdeg_incr W k s : NoDup W -> length k = length W -> In s W -> kdeg (incr W k s) = S (kdeg k).
  Proof.
    intros HN Hk Hs. rewrite (kdeg_ssum W (incr W k s)) by auto using incr_length.
    rewrite (ssum_ext W _ (fun t => (expo W k t + if String.eqb t s then 1 else 0)%nat)) by (intros; apply expo_incr; auto).
    rewrite ssum_plus. rewrite <- (kdeg_ssum W k) by auto.
    replace (ssum W (fun t => if String.eqb t s then 1 else 0)%nat) with 1%nat; [lia|].
    clear Hk k. revert Hs. induction HN as [|x W Hx HN IH]; intros [].
    - subst x. unfold ssum in *. cbn [map kdeg fold_right]. rewrite String.eqb_refl.
      assert (Z : ssum W (fun t => if String.eqb t s then 1 else 0)%nat = 0%nat).
      { apply ssum_zero. intros t Ht. destruct (String.eqb_spec t s); auto. subst. contradiction. }
      unfold ssum, kdeg in *. lia.
    - unfold ssum in *. cbn [map kdeg fold_right]. destruct (String.eqb_spec x s); [subst; contradiction|].
      unfold kdeg in *. rewrite <- IH by auto. reflexivity.
  Qed.

  (** ** Partial derivatives *)
  Lemma map_key_expo W k (m : mon) : NoDup W -> length k = length W ->
    (map m W = k <-> (forall s, In s W -> m s = expo W k s)).
  Proof.
    intros HN Hk. split.
    - intros <- s Hs. rewrite expo_map; auto.
    - intros H. rewrite <- (map_expo_id W k) by auto. apply map_ext_in. auto.
  Qed.
  Lemma monb_prop_iff U W k d m : NoDup U -> NoDup W -> incl W U -> length k = length W -> d = ssum U m ->
    monb U W k d m = true <-> (forall s, In s U -> m s = expo W k s).
  Proof.
    intros HU HN Hi Hk Hd. rewrite monb_proper by auto. rewrite andb_true_iff, key_eqb_spec, forallb_forall.
    rewrite map_key_expo by auto. split.
    - intros [H1 H2] s Hs. destruct (in_dec string_dec s W) as [Hw|Hw]; auto.
      specialize (H2 s Hs). apply orb_true_iff in H2. rewrite str_in_spec, Nat.eqb_eq in H2.
      rewrite expo_not_In by auto. tauto.
    - intros H. split; [intros; apply H; auto|]. intros s Hs. apply orb_true_iff. rewrite str_in_spec, Nat.eqb_eq.
      destruct (in_dec string_dec s W) as [Hw|Hw]; auto. right. rewrite H by auto. apply expo_not_In; auto.
  Qed.

  Lemma ssum_mset U (m : mon) s e : NoDup U -> In s U ->
    (ssum U (mset m s e) + m s = ssum U m + e)%nat.
  Proof.
    intros HN Hs. induction HN as [|x U Hx HN IH]; [destruct Hs|].
    unfold ssum in *. cbn [map kdeg fold_right]. unfold mset at 1. destruct Hs as [->|Hs].
    - rewrite String.eqb_refl.
      replace (map (mset m s e) U) with (map m U).
      + unfold kdeg. lia.
      + apply map_ext_in. intros t Ht. unfold mset. destruct (String.eqb_spec s t); auto. subst; contradiction.
    - specialize (IH Hs). destruct (String.eqb_spec s x); [subst; contradiction|]. unfold kdeg in *. lia.
  Qed.

  Lemma gpartial_Ok g s r : gpartial g s = Ok r -> check_var_name s = Ok tt /\ r = mkG (pdiff (dsym s) (gp g)) (gord g).
  Proof.
    unfold gpartial. destruct (check_var_name s) as [[]|]; simpl; [|discriminate]. intros E. inversion E. auto.
  Qed.
  Lemma gintegrate_Ok g s r : gintegrate g s = Ok r -> check_var_name s = Ok tt /\
    r = mkG (ptruncateZ (as_int (gord g)) (pintegrate (dsym s) (gp g))) (gord g).
  Proof.
    unfold gintegrate. destruct (check_var_name s) as [[]|]; simpl; [|discriminate]. intros E. inversion E. auto.
  Qed.
  Lemma gden_partial tr g s r : gwf g -> gpartial g s = Ok r -> seqv tr (gd r) (sdiff (dsym s) (gd g)).
  Proof.
    intros [Hs _] E. apply gpartial_Ok in E. destruct E as [_ ->]. unfold gden. cbn [gp]. apply (den_pdiff idK); auto.
  Qed.

  Lemma Lf_proper_ext U l F G : Forall (proper U) l ->
    (forall d m, d = ssum U m -> F d m = G d m) -> Lf l F = Lf l G.
  Proof. intros H E. apply Lf_ext. intros t Ht. rewrite Forall_forall in H. apply E. apply (H t Ht). Qed.

  Lemma monb_bool U W k d m (b : bool) : NoDup U -> NoDup W -> incl W U -> length k = length W -> d = ssum U m ->
    ((forall s, In s U -> m s = expo W k s) <-> b = true) -> monb U W k d m = b.
  Proof.
    intros HU HN Hi Hk Hd HB. apply eq_true_iff_eq. rewrite monb_prop_iff by auto. exact HB.
  Qed.

  Lemma coef_partial g s r W k : gwf g -> gpartial g s = Ok r -> NoDup W -> length k = length W -> In (dsym s) W ->
    coef r W k = kofnat (S (expo W k (dsym s))) * coef g W (incr W k (dsym s)).
  Proof.
    intros Hg E HW Hk HS. destruct (gpartial_gwf g s r Hg E) as [Hr _].
    assert (Hgs : ssorted (gsyms g)) by (apply gsyms_sorted; auto).
    set (U := sunion W (gsyms g)). assert (HU : NoDup U) by (apply ssorted_NoDup, sunion_sorted; auto).
    assert (HWU : incl W U) by (intros x Hx; apply sunion_In; auto).
    assert (HgU : incl (gsyms g) U) by (intros x Hx; apply sunion_In; auto).
    assert (Hsy : gsyms r = gsyms g) by (apply gpartial_Ok in E; destruct E as [_ ->]; reflexivity).
    rewrite (coef_Lf r W k U) by (auto; rewrite Hsy; auto).
    rewrite (coef_Lf g W _ U) by (auto using incr_length).
    destruct (gden_partial None g s r Hg E) as [L]. rewrite L by (intros d m []; exact I).
    rewrite Lf_sdiff, <- Lf_scale.
    apply (Lf_proper_ext U); [apply gd_proper; auto|]. intros d m Hd.
    unfold Fk. set (S := dsym s) in *.
    assert (HSU : In S U) by auto.
    destruct (m S) as [|e] eqn:Em.
    - rewrite kofnat_0. replace (monb U W (incr W k S) d m) with false; [ring|]. symmetry.
      apply monb_bool; auto using incr_length. split; [|discriminate]. intros H. specialize (H S HSU).
      rewrite expo_incr, String.eqb_refl in H by auto. lia.
    - assert (Hdd : (d - 1)%nat = ssum U (mset m S (Datatypes.S e - 1)%nat)).
      { assert (X := ssum_mset U m S (Datatypes.S e - 1)%nat HU HSU). rewrite Em in X. lia. }
      destruct (monb U W (incr W k S) d m) eqn:E1.
      + rewrite monb_prop_iff in E1 by auto using incr_length.
        replace (monb U W k (d - 1)%nat (mset m S (Datatypes.S e - 1)%nat)) with true.
        * assert (X := E1 S HSU). rewrite expo_incr, String.eqb_refl in X by auto. rewrite Em in X.
          replace (Datatypes.S (expo W k S)) with (Datatypes.S e) by lia. ring.
        * symmetry. apply monb_bool; auto. split; auto. intros _ t Ht. unfold mset.
          specialize (E1 t Ht). rewrite expo_incr in E1 by auto. rewrite String.eqb_sym.
          destruct (String.eqb_spec t S); [subst t|]; lia.
      + replace (monb U W k (d - 1)%nat (mset m S (Datatypes.S e - 1)%nat)) with false; [ring|].
        symmetry. apply monb_bool; auto. split; [|discriminate]. intros H. rewrite <- E1.
        apply monb_bool; auto using incr_length. split; auto. intros _ t Ht. rewrite expo_incr by auto.
        specialize (H t Ht). unfold mset in H. rewrite String.eqb_sym in H.
        destruct (String.eqb_spec t S); [subst t|]; lia.
  Qed.

  (** ** Degree filters *)
  Lemma coef_filter g n W k (f : term K -> bool) (P : nat -> bool) :
    gwf g -> NoDup W -> length k = length W -> (forall t, f t = P (kdeg (fst t))) ->
    coef (mkG (pfilter f (gp g)) n) W k = if P (kdeg k) then coef g W k else 0.
  Proof.
    intros [[Hs Hl _] _] HW Hk Hf. apply ssorted_NoDup in Hs. unfold coef. cbn [gp pfilter psyms pterms].
    unfold klen in Hl. revert Hl. induction (pterms (gp g)) as [|t l IH]; intros Hl.
    - simpl. destruct (P (kdeg k)); auto.
    - inversion Hl as [|? ? H1 H2]; subst. specialize (IH H2). cbn [filter]. rewrite Hf.
      destruct (same_mono (psyms (gp g)) (fst t) W k) eqn:E.
      + assert (D : kdeg (fst t) = kdeg k).
        { apply (kdeg_same (psyms (gp g)) (fst t) W k); auto. apply same_mono_spec. exact E. }
        rewrite D. destruct (P (kdeg k)) eqn:EP; cbn [fold_right].
        * rewrite E, IH. reflexivity.
        * exact IH.
      + destruct (P (kdeg (fst t))); cbn [fold_right]; rewrite ?E; rewrite IH; destruct (P (kdeg k)); ring.
  Qed.

  (** ** Integration *)
  Definition gint (g : gdual K) s : gdual K := mkG (pintegrate (dsym s) (gp g)) (S (gord g)).
  Lemma gint_gwf g s : gwf g -> gwf (gint g s).
  Proof.
    intros [Hs Hd]. constructor; cbn [gint gp gord]; auto with swf. apply pintegrate_dle; auto.
  Qed.
  Lemma coef_int_0 g s W k : gwf g -> NoDup W -> length k = length W -> expo W k (dsym s) = 0%nat ->
    coef (gint g s) W k = 0.
  Proof.
    intros Hg HW Hk H0.
    assert (Hgs : ssorted (gsyms g)) by (apply gsyms_sorted; auto).
    set (S := dsym s) in *.
    set (U := sunion W (sinsert S (gsyms g))). assert (HU : NoDup U) by (apply ssorted_NoDup, sunion_sorted, sinsert_sorted; auto).
    assert (HWU : incl W U) by (intros x Hx; apply sunion_In; auto).
    assert (HSU : In S U) by (apply sunion_In; right; apply sinsert_In; auto).
    assert (HgU : incl (gsyms g) U) by (intros x Hx; apply sunion_In; right; apply sinsert_In; auto).
    rewrite (coef_Lf _ W k U); auto using gint_gwf.
    2:{ intros x Hx. apply sunion_In. right. exact Hx. }
    destruct (den_pintegrate idK None S (gp g) (gwf_swf _ Hg)) as [L]. unfold gden. cbn [gint gp]. fold S. rewrite L by (intros d m []; exact I).
    rewrite Lf_sint. change (den idK (gp g)) with (gd g).
    rewrite (Lf_proper_ext U _ _ (fun _ _ => 0)); [apply Lf_zero; auto|apply gd_proper; auto|].
    intros d m Hd. unfold Fk. replace (monb _ _ _ _ _) with false; [ring|]. symmetry. apply monb_bool; auto.
    - assert (X := ssum_mset U m S (Datatypes.S (m S)) HU HSU). lia.
    - split; [|discriminate]. intros H. specialize (H S HSU). rewrite H0 in H. unfold mset in H.
      rewrite String.eqb_refl in H. discriminate.
  Qed.
  Lemma coef_int_S g s W k : gwf g -> NoDup W -> length k = length W -> In (dsym s) W ->
    coef (gint g s) W (incr W k (dsym s)) = coef g W k / kofnat (S (expo W k (dsym s))).
  Proof.
    intros Hg HW Hk HS. set (S := dsym s) in *.
    assert (Hgs : ssorted (gsyms g)) by (apply gsyms_sorted; auto).
    set (U := sunion W (sinsert S (gsyms g))). assert (HU : NoDup U) by (apply ssorted_NoDup, sunion_sorted, sinsert_sorted; auto).
    assert (HWU : incl W U) by (intros x Hx; apply sunion_In; auto).
    assert (HSU : In S U) by (apply sunion_In; right; apply sinsert_In; auto).
    assert (HgU : incl (gsyms g) U) by (intros x Hx; apply sunion_In; right; apply sinsert_In; auto).
    rewrite (coef_Lf _ W (incr W k S) U); auto using gint_gwf, incr_length.
    2:{ intros x Hx. apply sunion_In. right. exact Hx. }
    rewrite (coef_Lf g W k U) by auto.
    destruct (den_pintegrate idK None S (gp g) (gwf_swf _ Hg)) as [L]. unfold gden at 1. cbn [gint gp]. fold S. rewrite L by (intros d m []; exact I).
    rewrite Lf_sint. change (den idK (gp g)) with (gd g).
    assert (NZ : kofnat (Datatypes.S (expo W k S)) <> 0) by (apply kofnat_neq0; discriminate).
    replace (Lf (gd g) (Fk U W k) / kofnat (Datatypes.S (expo W k S)))
      with (1 / kofnat (Datatypes.S (expo W k S)) * Lf (gd g) (Fk U W k)) by (field; auto).
    rewrite <- Lf_scale. apply (Lf_proper_ext U); [apply gd_proper; auto|]. intros d m Hd. unfold Fk.
    assert (X := ssum_mset U m S (Datatypes.S (m S)) HU HSU).
    destruct (monb U W k d m) eqn:E1.
    - rewrite monb_prop_iff in E1 by auto. rewrite (E1 S HSU).
      replace (monb _ _ _ _ _) with true; [ring|]. symmetry.
      apply monb_bool; auto using incr_length; [rewrite <- (E1 S HSU); lia|]. split; auto. intros _ t Ht. rewrite expo_incr by auto.
      unfold mset. rewrite String.eqb_sym. destruct (String.eqb_spec t S); [subst t; lia|]. rewrite E1 by auto. lia.
    - replace (monb _ _ _ _ _) with false; [ring|]. symmetry. apply monb_bool; auto using incr_length; [lia|].
      split; [|discriminate]. intros H. rewrite <- E1. apply monb_bool; auto. split; auto. intros _ t Ht.
      specialize (H t Ht). rewrite expo_incr in H by auto. unfold mset in H. rewrite String.eqb_sym in H.
      destruct (String.eqb_spec t S); [subst t|]; lia.
  Qed.

  Lemma as_int_small n : (Z.of_nat n < two31)%Z -> as_int n = Z.of_nat n.
  Proof. intros H. unfold as_int. destruct (Z.ltb_spec (Z.of_nat n) two31); auto. lia. Qed.
  Lemma coef_integrate_raw g s r W k : gwf g -> gintegrate g s = Ok r -> (Z.of_nat (gord g) < two31)%Z ->
    NoDup W -> length k = length W ->
    coef r W k = if Nat.leb (kdeg k) (gord g) then coef (gint g s) W k else 0.
  Proof.
    intros Hg E Ho HW Hk. apply gintegrate_Ok in E. destruct E as [_ ->]. rewrite as_int_small by auto.
    unfold ptruncateZ. change (pintegrate (dsym s) (gp g)) with (gp (gint g s)).
    apply (coef_filter (gint g s) (gord g) W k _ (fun d => Nat.leb d (gord g))); auto using gint_gwf.
    intros t. destruct (Nat.leb_spec (kdeg (fst t)) (gord g)); destruct (Z.leb_spec (Z.of_nat (kdeg (fst t))) (Z.of_nat (gord g))); auto; lia.
  Qed.

  (** C21, coefficient form *)
  Lemma coef_integrate g s r W k : valid g -> gintegrate g s = Ok r -> (Z.of_nat (gord g) < two31)%Z ->
    NoDup W -> length k = length W -> In (dsym s) W ->
    coef r W (incr W k (dsym s)) =
      (if Nat.ltb (list_sum k) (gord g) then coef g W k / kofnat (S (expo W k (dsym s))) else 0) /\
    (expo W k (dsym s) = 0%nat -> coef r W k = 0).
  Proof.
    intros Hg E Ho HW Hk HS. rewrite (coef_integrate_raw g s r W) by (auto using incr_length with gwf). split.
    - rewrite kdeg_incr, coef_int_S by auto with gwf. reflexivity.
    - intros H0. rewrite (coef_integrate_raw g s r W) by (auto using incr_length with gwf).
      rewrite coef_int_0 by auto with gwf. destruct (Nat.leb _ _); auto.
  Qed.

  (** To compare coefficients it is enough to look at symbol lists containing a given symbol. *)
  Lemma with_symbol (P : nat -> Prop) a b s : gwf a -> gwf b ->
    (forall W k, NoDup W -> length k = length W -> In s W -> P (list_sum k) -> coef a W k = coef b W k) ->
    (forall W k, NoDup W -> length k = length W -> P (list_sum k) -> coef a W k = coef b W k).
  Proof.
    intros Ha Hb H W k HW Hk HP. destruct (in_dec string_dec s W) as [Hi|Hi]; auto.
    assert (E : forall t, expo W k t = expo (s :: W) (0%nat :: k) t).
    { intros t. cbn [expo]. destruct (String.eqb_spec s t); auto. subst. apply expo_not_In; auto. }
    rewrite (coef_ext a W k (s :: W) (0%nat :: k)), (coef_ext b W k (s :: W) (0%nat :: k)) by auto.
    apply H; [constructor; auto|simpl; auto|left; auto|exact HP].
  Qed.
  Lemma same_coefs_with a b s : gwf a -> gwf b ->
    (forall W k, NoDup W -> length k = length W -> In s W -> coef a W k = coef b W k) -> same_coefs a b.
  Proof. intros Ha Hb H W k HW Hk. apply (with_symbol (fun _ => True) a b s); auto. Qed.
  Lemma agree_with n a b s : gwf a -> gwf b ->
    (forall W k, NoDup W -> length k = length W -> In s W -> (list_sum k <= n)%nat -> coef a W k = coef b W k) -> agree n a b.
  Proof. intros Ha Hb H W k HW Hk. apply (with_symbol (fun d => (d <= n)%nat) a b s); auto. Qed.

  Lemma valid_partial g s r : valid g -> gpartial g s = Ok r -> valid r /\ gord r = gord g.
  Proof.
    intros H E. destruct (gpartial_gwf g s r) as [W N]; auto with gwf. split; auto. apply valid_iff. split; auto.
    eapply gpartial_nz; eauto.
  Qed.
  Lemma valid_integrate g s r : valid g -> gintegrate g s = Ok r -> valid r /\ gord r = gord g.
  Proof.
    intros H E. destruct (gintegrate_gwf g s r) as [W N]; auto with gwf. split; auto. apply valid_iff. split; auto.
    eapply gintegrate_nz; eauto.
  Qed.
  Lemma gpartial_total g g' s r : gpartial g s = Ok r -> exists r', gpartial g' s = Ok r'.
  Proof. intros E. apply gpartial_Ok in E. destruct E as [E _]. unfold gpartial. rewrite E. simpl. eauto. Qed.
  Lemma gintegrate_total g g' s r : gintegrate g s = Ok r -> exists r', gintegrate g' s = Ok r'.
  Proof. intros E. apply gintegrate_Ok in E. destruct E as [E _]. unfold gintegrate. rewrite E. simpl. eauto. Qed.

  (** partial after integrate *)
  Lemma partial_integrate g s i p W k : valid g -> (Z.of_nat (gord g) < two31)%Z ->
    gintegrate g s = Ok i -> gpartial i s = Ok p -> NoDup W -> length k = length W ->
    coef p W k = if Nat.ltb (list_sum k) (gord g) then coef g W k else 0.
  Proof.
    intros Hg Ho E1 E2. destruct (valid_integrate g s i Hg E1) as [Vi Oi]. destruct (valid_partial i s p Vi E2) as [Vp Op].
    assert (C : forall W k, NoDup W -> length k = length W -> In (dsym s) W ->
              coef p W k = if Nat.ltb (list_sum k) (gord g) then coef g W k else 0).
    { clear W k. intros W k HW Hk HS. rewrite (coef_partial i s p W k) by auto with gwf.
      destruct (coef_integrate g s i W k) as [-> _]; auto.
      destruct (Nat.ltb _ _); [|ring]. field. apply kofnat_neq0; discriminate. }
    intros HW Hk. destruct (in_dec string_dec (dsym s) W) as [Hi|Hi]; auto.
    assert (E : forall t, expo W k t = expo (dsym s :: W) (0%nat :: k) t).
    { intros t. cbn [expo]. destruct (String.eqb_spec (dsym s) t); auto. subst. apply expo_not_In; auto. }
    rewrite (coef_ext p W k (dsym s :: W) (0%nat :: k)), (coef_ext g W k (dsym s :: W) (0%nat :: k)) by auto with gwf.
    rewrite C; [reflexivity|constructor; auto|simpl; auto|left; auto].
  Qed.
  Lemma incr_of W k s e : NoDup W -> length k = length W -> In s W -> expo W k s = S e ->
    k = incr W (kset W k s e) s.
  Proof.
    intros HW Hk HS He. rewrite <- (map_expo_id W k) at 1 by auto. unfold incr. apply map_ext_in. intros t Ht.
    rewrite expo_kset by auto. rewrite (String.eqb_sym t s). destruct (String.eqb_spec s t); [subst t|]; lia.
  Qed.

  (** integrate after partial keeps exactly the terms depending on the variable *)
  Lemma integrate_partial g s p i W k : valid g -> (Z.of_nat (gord g) < two31)%Z ->
    gpartial g s = Ok p -> gintegrate p s = Ok i -> NoDup W -> length k = length W -> In (dsym s) W ->
    coef i W k = if Nat.eqb (expo W k (dsym s)) 0 then 0 else coef g W k.
  Proof.
    intros Hg Ho E1 E2 HW Hk HS. destruct (valid_partial g s p Hg E1) as [Vp Op].
    destruct (valid_integrate p s i Vp E2) as [Vi Oi].
    destruct (expo W k (dsym s)) as [|e] eqn:Ee; cbn [Nat.eqb].
    - apply (coef_integrate p s i W k); auto. rewrite Op; auto.
    - set (k' := kset W k (dsym s) e). assert (Hk' : length k' = length W) by (unfold k'; rewrite kset_length; auto).
      assert (Ek : k = incr W k' (dsym s)) by (apply incr_of; auto).
      assert (He : expo W k' (dsym s) = e).
      { unfold k'. rewrite expo_kset, String.eqb_refl by auto. reflexivity. }
      rewrite Ek. destruct (coef_integrate p s i W k') as [-> _]; auto; [rewrite Op; auto|].
      rewrite He, Op, (coef_partial g s p W k') by auto with gwf. rewrite He.
      destruct (Nat.ltb_spec (list_sum k') (gord g)).
      + field. apply kofnat_neq0; discriminate.
      + symmetry. apply coef_above; auto using incr_length with gwf. rewrite list_sum_kdeg, kdeg_incr by auto.
        rewrite list_sum_kdeg in H. lia.
  Qed.
End Calc.

Section Calc2.
  Context {K : Type} {o : Ops K} {fl : FieldLaws o}.
  Local Open Scope K_scope.
  Add Field Kfield2 : (fl_field (K:=K)).
  #[local] Hint Resolve (@valid_gwf K o) (@valid_gnz K o) (@valid_add K o) (@valid_sub K o) (@valid_mul K o) : gwf.
  Notation idK := (fun x : K => x).
  Notation gd := (gden idK).

  (** ** Linearity *)
  Lemma coef_mul_sg v a W k : gwf a -> NoDup W -> length k = length W -> coef (gmul_sg v a) W k = v * coef a W k.
  Proof.
    intros Ha HW Hk. assert (Hm : gwf (gmul_sg v a)) by auto with gwf.
    rewrite (coef_Lf _ W k (gsyms a)), (coef_Lf a W k (gsyms a)) by (auto using incl_refl).
    destruct (gden_mul_sg idK None v a Ha) as [L]. rewrite L by (intros d m []; exact I).
    rewrite Lf_smul, Lf_scon. f_equal.
  Qed.
  Lemma valid_mul_sg v a : valid a -> valid (gmul_sg v a).
  Proof. intros H. apply (valid_sto (gsyms a) (gord a)), sto_mul_sg, sto_valid. auto. Qed.

  Lemma partial_linear a b v s ra rb rs rv : valid a -> valid b ->
    gpartial a s = Ok ra -> gpartial b s = Ok rb -> gpartial (gadd a b) s = Ok rs -> gpartial (gmul_sg v a) s = Ok rv ->
    geqb rs (gadd ra rb) = true /\ geqb rv (gmul_sg v ra) = true.
  Proof.
    intros Ha Hb Ea Eb Es Ev.
    destruct (valid_partial a s ra Ha Ea) as [Va _]. destruct (valid_partial b s rb Hb Eb) as [Vb _].
    destruct (valid_partial _ s rs (valid_add a b Ha Hb) Es) as [Vs _].
    destruct (valid_partial _ s rv (valid_mul_sg v a Ha) Ev) as [Vv _].
    split; apply geqb_same; auto using valid_mul_sg with gwf; apply (same_coefs_with _ _ (dsym s)); auto using valid_mul_sg with gwf;
      intros W k HW Hk HS.
    - rewrite (coef_partial (gadd a b) s rs), coef_add, coef_add by (auto using incr_length with gwf).
      rewrite (coef_partial a s ra), (coef_partial b s rb) by auto with gwf. ring.
    - rewrite (coef_partial (gmul_sg v a) s rv), !coef_mul_sg by (auto using incr_length with gwf).
      rewrite (coef_partial a s ra) by auto with gwf. ring.
  Qed.
  Lemma incr_cases W k s : NoDup W -> length k = length W -> In s W ->
    expo W k s = 0%nat \/ exists k', length k' = length W /\ k = incr W k' s.
  Proof.
    intros HW Hk HS. destruct (expo W k s) as [|e] eqn:E; auto. right. exists (kset W k s e).
    split; [rewrite kset_length; auto|apply incr_of; auto].
  Qed.
  Lemma integrate_linear a b v s ra rb rs rv : valid a -> valid b -> gord a = gord b -> (Z.of_nat (gord a) < two31)%Z ->
    gintegrate a s = Ok ra -> gintegrate b s = Ok rb -> gintegrate (gadd a b) s = Ok rs -> gintegrate (gmul_sg v a) s = Ok rv ->
    geqb rs (gadd ra rb) = true /\ geqb rv (gmul_sg v ra) = true.
  Proof.
    intros Ha Hb Ho Hl Ea Eb Es Ev.
    destruct (valid_integrate a s ra Ha Ea) as [Va _]. destruct (valid_integrate b s rb Hb Eb) as [Vb _].
    destruct (valid_integrate _ s rs (valid_add a b Ha Hb) Es) as [Vs _].
    destruct (valid_integrate _ s rv (valid_mul_sg v a Ha) Ev) as [Vv _].
    assert (O1 : gord (gadd a b) = gord a) by (simpl; lia).
    assert (O2 : gord (gmul_sg v a) = gord a) by apply gmul_sg_ord.
    split; apply geqb_same; auto using valid_mul_sg with gwf; apply (same_coefs_with _ _ (dsym s)); auto using valid_mul_sg with gwf;
      intros W k HW Hk HS; destruct (incr_cases W k (dsym s) HW Hk HS) as [E0|(k' & Hk' & ->)].
    - rewrite coef_add by auto with gwf.
      destruct (coef_integrate (gadd a b) s rs W k) as [_ H1]; auto using valid_add; [rewrite O1; auto|].
      destruct (coef_integrate a s ra W k) as [_ H2]; auto. destruct (coef_integrate b s rb W k) as [_ H3]; auto; [rewrite <- Ho; auto|].
      rewrite H1, H2, H3 by auto. ring.
    - rewrite coef_add by (auto using incr_length with gwf).
      destruct (coef_integrate (gadd a b) s rs W k') as [H1 _]; auto using valid_add; [rewrite O1; auto|].
      destruct (coef_integrate a s ra W k') as [H2 _]; auto. destruct (coef_integrate b s rb W k') as [H3 _]; auto; [rewrite <- Ho; auto|].
      rewrite H1, H2, H3, O1, <- Ho, coef_add by auto with gwf.
      clear H1 H2 H3. destruct (Nat.ltb _ _); [|ring]. field. apply kofnat_neq0. discriminate.
    - rewrite coef_mul_sg by auto with gwf.
      destruct (coef_integrate (gmul_sg v a) s rv W k) as [_ H1]; auto using valid_mul_sg; [rewrite O2; auto|].
      destruct (coef_integrate a s ra W k) as [_ H2]; auto.
      rewrite H1, H2 by auto. ring.
    - rewrite coef_mul_sg by (auto using incr_length with gwf).
      destruct (coef_integrate (gmul_sg v a) s rv W k') as [H1 _]; auto using valid_mul_sg; [rewrite O2; auto|].
      destruct (coef_integrate a s ra W k') as [H2 _]; auto.
      rewrite H1, H2, O2, coef_mul_sg by auto with gwf.
      clear H1 H2. destruct (Nat.ltb _ _); [|ring]. field. apply kofnat_neq0. discriminate.
  Qed.

  Lemma incr_comm W k s t : NoDup W -> length k = length W -> In s W -> In t W ->
    incr W (incr W k s) t = incr W (incr W k t) s.
  Proof.
    intros. unfold incr at 1 3. apply map_ext_in. intros w Hw. rewrite !expo_incr by auto. lia.
  Qed.
  Lemma with_symbols a b L : gwf a -> gwf b ->
    (forall W k, NoDup W -> length k = length W -> incl L W -> coef a W k = coef b W k) -> same_coefs a b.
  Proof.
    intros Ha Hb H W k HW Hk. set (W' := sunion W (sset L)). set (k' := rekey W W' k).
    assert (HW' : NoDup W') by apply ssorted_NoDup, sunion_sorted, sset_sorted.
    assert (E : forall t, expo W k t = expo W' k' t).
    { intros t. symmetry. apply expo_rekey. intros x Hx. apply sunion_In. auto. }
    rewrite (coef_ext a W k W' k'), (coef_ext b W k W' k') by auto. apply H; auto.
    - apply rekey_length.
    - intros x Hx. apply sunion_In. right. apply (proj2 (sset_In L x)). auto.
  Qed.
  Lemma partial_comm g s t rs rt rst rts : valid g ->
    gpartial g s = Ok rs -> gpartial rs t = Ok rst -> gpartial g t = Ok rt -> gpartial rt s = Ok rts ->
    geqb rst rts = true.
  Proof.
    intros Hg E1 E2 E3 E4.
    destruct (valid_partial g s rs Hg E1) as [V1 _]. destruct (valid_partial rs t rst V1 E2) as [V2 _].
    destruct (valid_partial g t rt Hg E3) as [V3 _]. destruct (valid_partial rt s rts V3 E4) as [V4 _].
    apply geqb_same; auto. apply (with_symbols _ _ [dsym s; dsym t]); auto with gwf. intros W k HW Hk HL.
    assert (HS : In (dsym s) W) by (apply HL; left; auto). assert (HT : In (dsym t) W) by (apply HL; right; left; auto).
    rewrite (coef_partial rs t rst), (coef_partial rt s rts) by auto with gwf.
    rewrite (coef_partial g s rs), (coef_partial g t rt) by (auto using incr_length with gwf).
    rewrite incr_comm by auto. rewrite !expo_incr by auto. rewrite (String.eqb_sym (dsym t)).
    destruct (String.eqb_spec (dsym s) (dsym t)) as [E|E].
    - rewrite E. ring.
    - rewrite !Nat.add_0_r. ring.
  Qed.

  (** ** Leibniz rule *)
  Definition mle (s : string) (t : K * (nat * mon)) : Prop := (snd (snd t) s <= fst (snd t))%nat.
  Lemma gd_mle g s : gwf g -> Forall (mle s) (gd g).
  Proof.
    intros Hg. unfold gden, den, tden. rewrite Forall_map. apply Forall_forall. intros t _. apply expo_le_kdeg.
  Qed.
  Lemma kofnat_1' (n : nat) : (kofnat (n + 1) : K) = kofnat n + 1.
  Proof. rewrite Nat.add_1_r. apply kofnat_S. Qed.
  Lemma sdiff_mul tr s l l' : Forall (mle s) l -> Forall (mle s) l' ->
    seqv tr (sdiff s (smul l l')) (sadd (smul (sdiff s l) l') (smul l (sdiff s l'))).
  Proof.
    intros Hl Hl'. constructor. intros F _. rewrite Lf_sdiff, Lf_sadd, !Lf_smul, Lf_sdiff.
    rewrite <- Lf_plus. apply Lf_ext. intros t Ht. rewrite Forall_forall in Hl. specialize (Hl t Ht).
    unfold mle in Hl. destruct t as [c [d m]]. cbn [fst snd] in *.
    rewrite Lf_sdiff, <- Lf_scale, <- Lf_plus. apply Lf_ext. intros t' Ht'. rewrite Forall_forall in Hl'. specialize (Hl' t' Ht').
    destruct t' as [c' [d' m']]. unfold mle in Hl'. cbn [fst snd] in *.
    assert (A1 : (0 < m s)%nat -> F (d + d' - 1)%nat (mset (monadd m m') s (monadd m m' s - 1)%nat)
                               = F (d - 1 + d')%nat (monadd (mset m s (m s - 1)%nat) m')).
    { intros H. f_equal; [lia|]. apply FunctionalExtensionality.functional_extensionality. intros x. unfold mset, monadd. destruct (String.eqb_spec s x); [subst; lia|auto]. }
    assert (A2 : (0 < m' s)%nat -> F (d + d' - 1)%nat (mset (monadd m m') s (monadd m m' s - 1)%nat)
                               = F (d + (d' - 1))%nat (monadd m (mset m' s (m' s - 1)%nat))).
    { intros H. f_equal; [lia|]. apply FunctionalExtensionality.functional_extensionality. intros x. unfold mset, monadd. destruct (String.eqb_spec s x); [subst; lia|auto]. }
    replace (kofnat (monadd m m' s)) with (kofnat (m s) + kofnat (m' s) : K) by (rewrite <- kofnat_add; reflexivity).
    destruct (Nat.eq_dec (m s) 0) as [E|E]; destruct (Nat.eq_dec (m' s) 0) as [E'|E'];
      rewrite <- ?A1, <- ?A2 by lia; rewrite ?E, ?E', ?kofnat_0; ring.
  Qed.
  Lemma sdiff_proper n s l l' : seqv (Some (S n)) l l' -> seqv (Some n) (sdiff s l) (sdiff s l').
  Proof.
    intros [H]. constructor. intros F HF. rewrite !Lf_sdiff. apply H. simpl in *. intros d m Hd.
    rewrite HF by lia. ring.
  Qed.
  Lemma leibniz a b s ra rb rp n : valid a -> valid b -> (S n <= Nat.max (gord a) (gord b))%nat ->
    gpartial a s = Ok ra -> gpartial b s = Ok rb -> gpartial (gmul a b) s = Ok rp ->
    agree n rp (gadd (gmul ra b) (gmul a rb)).
  Proof.
    intros Ha Hb Hn Ea Eb Ep.
    destruct (valid_partial a s ra Ha Ea) as [Va Oa]. destruct (valid_partial b s rb Hb Eb) as [Vb Ob].
    destruct (valid_partial _ s rp (valid_mul a b Ha Hb) Ep) as [Vp Op].
    apply seqv_agree; auto with gwf.
    rewrite (gden_partial (Some n) (gmul a b) s rp) by auto with gwf.
    rewrite (gden_add idK) by auto with gwf. rewrite (gden_mul idK n ra b), (gden_mul idK n a rb) by (auto with gwf; rewrite ?Oa, ?Ob; lia).
    rewrite (gden_partial (Some n) a s ra), (gden_partial (Some n) b s rb) by auto with gwf.
    rewrite <- sdiff_mul by (apply gd_mle; auto with gwf).
    apply sdiff_proper. apply (gden_mul idK); auto with gwf.
  Qed.

  (** ** C19: iterated partial derivatives *)
  Fixpoint rising (a n : nat) : K := match n with O => 1 | S n' => kofnat (S (a + n')) * rising a n' end.
  Lemma rising_fact n : rising 0 n = kfact n.
  Proof. induction n; simpl; auto. rewrite IHn. reflexivity. Qed.
  Definition bump (W : list string) (k : key) (s : string) (n : nat) : key :=
    map (fun w => (expo W k w + if String.eqb w s then n else 0)%nat) W.
  Lemma expo_bump W k s n t : In s W -> expo W (bump W k s n) t = (expo W k t + if String.eqb t s then n else 0)%nat.
  Proof.
    intros Hs. unfold bump. destruct (in_dec string_dec t W) as [Ht|Ht].
    - rewrite expo_map by auto. reflexivity.
    - rewrite !expo_not_In by auto. destruct (String.eqb_spec t s); [subst; contradiction|auto].
  Qed.
  Lemma partials_spec s n : forall g r, valid g -> partials g s n = Ok r ->
    valid r /\ gord r = gord g /\ gsyms r = gsyms g /\
    forall W k, NoDup W -> length k = length W -> In (dsym s) W ->
      coef r W k = rising (expo W k (dsym s)) n * coef g W (bump W k (dsym s) n).
  Proof.
    induction n as [|n IH]; intros g r Hg E; cbn [partials] in E.
    - inversion E; subst. conjs; auto. intros W k HW Hk HS. cbn [rising].
      replace (bump W k (dsym s) 0) with k; [ring|]. unfold bump. rewrite <- (map_expo_id W k) at 1 by auto.
      apply map_ext_in. intros w _. destruct (String.eqb _ _); lia.
    - destruct (gpartial g s) as [g'|] eqn:E1; [|discriminate].
      destruct (valid_partial g s g' Hg E1) as [V1 O1]. destruct (IH g' r V1 E) as (Vr & Or & Sr & H).
      assert (S1 : gsyms g' = gsyms g) by (apply gpartial_Ok in E1; destruct E1 as [_ ->]; reflexivity).
      conjs; auto; try congruence. intros W k HW Hk HS. rewrite H by auto.
      rewrite (coef_partial g s g') by (auto with gwf; apply map_length).
      rewrite expo_bump, String.eqb_refl by auto. cbn [rising].
      replace (incr W (bump W k (dsym s) n) (dsym s)) with (bump W k (dsym s) (S n)); [ring|].
      unfold incr. unfold bump at 1. apply map_ext_in. intros w _. rewrite expo_bump by auto. destruct (String.eqb _ _); lia.
  Qed.
  Lemma partials_ok s n : check_var_name s = Ok tt -> forall g, exists r, partials g s n = Ok r.
  Proof.
    intros Hs. induction n as [|n IH]; intros g; cbn [partials]; eauto.
    unfold gpartial. rewrite Hs. simpl. apply IH.
  Qed.
  Definition kadd_on (W : list string) (k : key) (l : list (string * nat)) : key :=
    fold_left (fun k sn => bump W k (dsym (fst sn)) (snd sn)) l k.
  Definition mfact (l : list (string * nat)) : K := fold_right (fun sn a => kfact (snd sn) * a) 1 l.

  Lemma mixed_partial_spec l : forall g r W k, valid g -> mixed_partial g l = Ok r ->
    NoDup W -> length k = length W -> (forall sn, In sn l -> In (dsym (fst sn)) W) -> NoDup (map fst l) ->
    (forall sn, In sn l -> expo W k (dsym (fst sn)) = 0%nat) ->
    valid r /\ gord r = gord g /\ gsyms r = gsyms g /\
    coef r W k = mfact l * coef g W (kadd_on W k (rev l)).
  Proof.
    induction l as [|[s n] l IH]; intros g r W k Hg E HW Hk HS HN H0; cbn [mixed_partial] in E.
    - inversion E; subst. conjs; auto. cbn. ring.
    - destruct (partials g s n) as [g'|] eqn:E1; [|discriminate].
      destruct (partials_spec s n g g' Hg E1) as (V1 & O1 & S1 & H1). inversion HN as [|? ? Hs Hl]; subst.
      destruct (IH g' r W k V1 E HW Hk) as (Vr & Or & Sr & Hc); auto.
      { intros sn Hsn. apply HS. right; auto. }
      { intros sn Hsn. apply H0. right; auto. }
      conjs; auto; try congruence. rewrite Hc.
      assert (Hlen : forall l k, length k = length W -> length (kadd_on W k l) = length W).
      { clear. intros l. induction l; intros k Hk; simpl; auto. apply IHl. apply map_length. }
      assert (Hx : forall l k, (forall sn, In sn l -> In (dsym (fst sn)) W) -> ~ In s (map fst l) ->
                    expo W (kadd_on W k l) (dsym s) = expo W k (dsym s)).
      { clear. intros l. induction l as [|[s' n'] l IHl]; intros k HW Hs; simpl; auto.
        rewrite IHl.
        - rewrite expo_bump by (apply (HW (s', n')); left; auto).
          destruct (String.eqb_spec (dsym s) (dsym s')) as [E|E]; [|lia].
          exfalso. apply Hs. left. simpl. inversion E; auto.
        - intros; apply HW; right; auto.
        - intros Hi. apply Hs. right. auto. }
      rewrite H1 by (auto; apply (HS (s, n)); left; auto).
      rewrite Hx.
      + assert (Z := H0 (s, n) (or_introl eq_refl)). cbn [fst] in Z. rewrite Z. rewrite rising_fact. cbn [rev]. unfold kadd_on at 2. rewrite fold_left_app.
        cbn [fold_left fst snd mfact fold_right]. fold (kadd_on W k (rev l)). unfold mfact. ring.
      + intros sn Hsn. apply HS. right. apply in_rev. auto.
      + rewrite map_rev, <- in_rev. auto.
  Qed.
  Lemma mixed_partial_ok l : (forall sn, In sn l -> check_var_name (fst sn) = Ok tt) -> forall g, exists r, mixed_partial g l = Ok r.
  Proof.
    induction l as [|[s n] l IH]; intros H g; cbn [mixed_partial]; eauto.
    destruct (partials_ok s n (H (s, n) (or_introl eq_refl)) g) as [r ->]. apply IH. intros; apply H; right; auto.
  Qed.

  Lemma find_cf_coef g k : gwf g -> length k = length (gsyms g) -> (list_sum k <= gord g)%nat -> (Z.of_nat (gord g) < two32)%Z ->
    find_cf g k = Ok (coef g (gsyms g) k).
  Proof.
    intros Hg Hk Hd Ho. unfold find_cf. rewrite list_sum_kdeg in Hd.
    rewrite Z.mod_small by lia. destruct (Z.ltb_spec (Z.of_nat (gord g)) (Z.of_nat (kdeg k))); [lia|].
    unfold get_symbol_set_size. fold (gsyms g). rewrite Hk, Nat.eqb_refl. cbn [negb].
    rewrite coef_pfind by auto. destruct (pfind k (gp g)); auto.
  Qed.
  Lemma cumfact_eq (k : key) : forall a : K, fold_left (fun a e => a * kfact e) k a = a * fold_right (fun e a => kfact e * a) 1 k.
  Proof. induction k as [|e k IH]; intros a; simpl; [ring|]. rewrite IH. ring. Qed.

  Lemma constant_cf_coef g : gwf g -> constant_cf g = coef g (gsyms g) (repeat 0%nat (length (gsyms g))).
  Proof. intros Hg. rewrite constant_cf_find, coef_pfind by (auto; apply repeat_length). reflexivity. Qed.

  Lemma factorials_fit (c : list nat) : (forall e, In e c -> (Z.of_nat e <= 170)%Z) -> existsb factorial_overflows c = false.
  Proof.
    intros H. apply Bool.not_true_iff_false. rewrite existsb_exists. intros (e & He & X). apply H in He.
    unfold factorial_overflows in X. apply Z.ltb_lt in X. lia.
  Qed.
  Lemma derivative_partials g k : valid g -> (Z.of_nat (gord g) < two32)%Z ->
    (forall s, In s (psyms (gp g)) -> exists r, s = dsym r /\ check_var_name r = Ok tt) ->
    length k = length (psyms (gp g)) -> (list_sum k <= get_order g)%nat -> (forall e, In e k -> (Z.of_nat e <= 170)%Z) ->
    exists r, mixed_partial g (combine (get_symbol_set g) k) = Ok r /\ get_derivative g k = Ok (constant_cf r).
  Proof.
    intros Hg Ho Hn Hk Hd H170. set (l := combine (get_symbol_set g) k).
    assert (HD : map dsym (get_symbol_set g) = gsyms g).
    { unfold get_symbol_set, gsyms. rewrite map_map. rewrite <- (map_id (psyms (gp g))) at 2. apply map_ext_in.
      intros s Hs. destruct (Hn s Hs) as (r & -> & _). reflexivity. }
    assert (HL : length (get_symbol_set g) = length k) by (unfold get_symbol_set; rewrite map_length; auto).
    assert (F1 : map fst l = get_symbol_set g).
    { unfold l. clear - HL. revert k HL. induction (get_symbol_set g); intros [|e k] H; try discriminate; simpl; auto. f_equal. apply IHl. auto. }
    assert (F2 : map snd l = k).
    { unfold l. clear - HL. revert k HL. induction (get_symbol_set g); intros [|e k] H; try discriminate; simpl; auto. f_equal. apply IHl. auto. }
    assert (HN : NoDup (gsyms g)) by (apply ssorted_NoDup, gsyms_sorted; auto with gwf).
    destruct (mixed_partial_ok l) with (g := g) as [r Er].
    { intros sn Hsn. apply (in_map fst) in Hsn. rewrite F1 in Hsn. unfold get_symbol_set in Hsn. apply in_map_iff in Hsn.
      destruct Hsn as (s & <- & Hs). destruct (Hn s Hs) as (r & -> & Hc). exact Hc. }
    exists r. split; auto. unfold get_derivative. rewrite factorials_fit by exact H170. rewrite find_cf_coef by auto with gwf. cbn [rbind]. f_equal.
    assert (HI : forall sn, In sn l -> In (dsym (fst sn)) (gsyms g)).
    { intros sn Hsn. rewrite <- HD. apply in_map. rewrite <- F1. apply in_map. auto. }
    assert (ND : NoDup (map fst l)).
    { rewrite F1. rewrite <- HD in HN. eapply NoDup_map_inv. exact HN. }
    destruct (mixed_partial_spec l g r (gsyms g) (repeat 0%nat (length (gsyms g))) Hg Er HN (repeat_length _ _) HI ND)
      as (Vr & Or & Sr & Hc).
    { intros. apply expo_zero. }
    rewrite constant_cf_coef, Sr, Hc by auto with gwf. rewrite cumfact_eq.
    replace (mfact l) with (fold_right (fun e a => kfact e * a) 1 k).
    2:{ rewrite <- F2. clear. unfold mfact. induction l as [|[] l IH]; simpl; auto. rewrite IH. reflexivity. }
    replace (kadd_on (gsyms g) (repeat 0%nat (length (gsyms g))) (rev l)) with k; [ring|].
    assert (G : forall l k0, NoDup (map fst l) -> (forall sn, In sn l -> In (dsym (fst sn)) (gsyms g)) -> forall t,
       expo (gsyms g) (kadd_on (gsyms g) k0 l) t = (expo (gsyms g) k0 t + expo (map dsym (map fst l)) (map snd l) t)%nat).
    { clear. intros l. induction l as [|[s n] l IH]; intros k0 ND HI t; cbn [kadd_on fold_left map fst snd expo].
      - simpl. lia.
      - fold (kadd_on (gsyms g) (bump (gsyms g) k0 (dsym s) n) l). cbn [map] in ND. inversion ND as [|? ? A B]; subst.
        rewrite IH by (auto; intros; apply HI; right; auto).
        rewrite expo_bump by (apply (HI (s, n)); left; auto). rewrite (String.eqb_sym t).
        destruct (String.eqb_spec (dsym s) t) as [<-|E]; [|lia].
        rewrite (expo_not_In (map dsym (map fst l))); [lia|]. intros Hi. apply in_map_iff in Hi. destruct Hi as (x & Ex & Hx). inversion Ex; subst. contradiction. }
    assert (GL : length (kadd_on (gsyms g) (repeat 0%nat (length (gsyms g))) (rev l)) = length (gsyms g)).
    { generalize (repeat_length 0%nat (length (gsyms g))). generalize (repeat 0%nat (length (gsyms g))). generalize (rev l). clear.
      intros l. induction l; intros k Hk; simpl; auto. apply IHl. apply map_length. }
    rewrite <- (map_expo_id (gsyms g) k), <- (map_expo_id (gsyms g) (kadd_on _ _ _)) by auto.
    apply map_ext_in. intros t Ht. rewrite G.
    - rewrite expo_zero. cbn [Nat.add]. rewrite !map_rev, F1, F2, HD.
      assert (R : forall V k, NoDup V -> length k = length V -> expo (rev V) (rev k) t = expo V k t).
      { clear. intros V. induction V as [|v V IH]; intros [|e k] HN Hk; try discriminate; auto.
        inversion HN as [|? ? A B]; subst. cbn [rev].
        assert (X : forall V k e v, length k = length V -> expo (V ++ [v]) (k ++ [e]) t = if str_in t V then expo V k t else if String.eqb v t then e else 0%nat).
        { clear. intros V. induction V as [|w V IH]; intros [|x k] e v Hk; try discriminate; auto.
          cbn [app expo str_in existsb]. rewrite (String.eqb_sym t w). destruct (String.eqb w t); auto. }
        rewrite X by (rewrite !rev_length; simpl in Hk; lia). cbn [expo].
        destruct (str_in t (rev V)) eqn:E.
        - apply str_in_spec in E. rewrite <- in_rev in E. destruct (String.eqb_spec v t); [subst; contradiction|].
          apply IH; auto.
        - destruct (String.eqb v t) eqn:E2; auto. rewrite expo_not_In; auto. intros Hi. apply Bool.not_true_iff_false in E. apply E.
          apply str_in_spec. rewrite <- in_rev. auto. }
      symmetry. apply R; auto.
    - rewrite map_rev. apply NoDup_rev. auto.
    - intros sn Hsn. apply HI. apply in_rev. auto.
  Qed.
End Calc2.
