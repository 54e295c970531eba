(** * Structural facts on the polynomial model, for any coefficient
    arithmetic (no algebraic law is used): well-formedness and degree bounds. *)

From Coq Require Import String List Arith Bool Lia ZArith Sorting.Sorted FunctionalExtensionality.
From Verif Require Import Ops Syms SymsFacts Poly.
Import ListNotations.

Lemma fold_left_inv {A B} (I : A -> Prop) (f : A -> B -> A) l a :
  I a -> (forall a b, In b l -> I a -> I (f a b)) -> I (fold_left f l a).
Proof.
  revert a. induction l as [|b l IH]; simpl; intros a Ha Hf; auto.
Qed.

Section Structure.
  Context {K : Type} {o : Ops K}.

  Definition klen (n : nat) (ts : list (term K)) : Prop :=
    Forall (fun t => length (fst t) = n) ts.
  Definition kdist (ts : list (term K)) : Prop := NoDup (map fst ts).
  Definition nz (ts : list (term K)) : Prop := Forall (fun t => keqb (snd t) k0 = false) ts.
  Definition dle (n : nat) (ts : list (term K)) : Prop :=
    Forall (fun t => kdeg (fst t) <= n) ts.

  (** Structural well-formedness of a polynomial. *)
  Record swf (p : poly K) : Prop := mkSwf {
    swf_sorted : ssorted (psyms p);
    swf_len : klen (length (psyms p)) (pterms p);
    swf_dist : kdist (pterms p)
  }.

  Lemma swf_NoDup p : swf p -> NoDup (psyms p).
  Proof. intros H. apply ssorted_NoDup, H. Qed.

  Lemma add_term_keys k c l k' :
    In k' (map fst (add_term (K:=K) k c l)) -> k' = k \/ In k' (map fst l).
  Proof.
    induction l as [|[x cx] l IH]; simpl.
    - destruct (keqb c k0); simpl; intuition.
    - destruct (key_eqb x k) eqn:E.
      + destruct (keqb (kadd cx c) k0); simpl; intuition.
      + simpl. intros [->|H]; auto. apply IH in H. intuition.
  Qed.

  Lemma add_term_Forall (P : key -> Prop) k c l :
    P k -> Forall (fun t => P (fst t)) l -> Forall (fun t : term K => P (fst t)) (add_term k c l).
  Proof.
    intros Hk Hl. rewrite Forall_forall in *. intros t Ht.
    assert (Hin : In (fst t) (map fst (add_term k c l))) by (apply in_map; auto).
    apply add_term_keys in Hin. destruct Hin as [->|Hin]; auto.
    apply in_map_iff in Hin. destruct Hin as (t' & <- & Ht'). auto.
  Qed.

  Lemma add_term_dist k c l : kdist l -> kdist (add_term (K:=K) k c l).
  Proof.
    unfold kdist. induction l as [|[x cx] l IH]; simpl; intros H.
    - destruct (keqb c k0); simpl; repeat constructor; auto.
    - inversion H; subst. destruct (key_eqb x k) eqn:E.
      + destruct (keqb (kadd cx c) k0); simpl; auto.
      + simpl. constructor; auto. intros Hin. apply add_term_keys in Hin.
        destruct Hin as [->|]; auto. rewrite key_eqb_refl in E. discriminate.
  Qed.

  Lemma add_term_nz k c l : nz l -> nz (add_term (K:=K) k c l).
  Proof.
    unfold nz. induction l as [|[x cx] l IH]; simpl; intros H.
    - destruct (keqb c k0) eqn:E; repeat constructor; auto.
    - inversion H; subst. destruct (key_eqb x k).
      + destruct (keqb (kadd cx c) k0) eqn:E; auto; constructor; auto.
      + constructor; auto.
  Qed.

  Lemma add_terms_Forall (P : key -> Prop) ts acc :
    Forall (fun t => P (fst t)) ts -> Forall (fun t => P (fst t)) acc ->
    Forall (fun t : term K => P (fst t)) (add_terms ts acc).
  Proof.
    intros Ht Ha. unfold add_terms. apply fold_left_inv; auto.
    intros a t Hin Hinv. apply add_term_Forall; auto. rewrite Forall_forall in Ht. auto.
  Qed.

  Lemma add_terms_dist ts acc : kdist acc -> kdist (add_terms (K:=K) ts acc).
  Proof. intros. unfold add_terms. apply fold_left_inv; auto. intros. apply add_term_dist; auto. Qed.

  Lemma add_terms_nz ts acc : nz acc -> nz (add_terms (K:=K) ts acc).
  Proof. intros. unfold add_terms. apply fold_left_inv; auto. intros. apply add_term_nz; auto. Qed.

  (** Rekeying *)
  Lemma pext_len W p : klen (length W) (pterms (pext (K:=K) W p)).
  Proof.
    unfold klen, pext; simpl. rewrite Forall_map. apply Forall_forall. intros; apply rekey_length.
  Qed.

  Lemma pext_len_In W p t : In t (pterms (pext (K:=K) W p)) -> length (fst t) = length W.
  Proof. intros H. assert (L := pext_len W p). unfold klen in L. rewrite Forall_forall in L. auto. Qed.

  Lemma pext_nz W p : nz (pterms p) -> nz (pterms (pext (K:=K) W p)).
  Proof. unfold nz, pext; simpl. rewrite Forall_map. auto. Qed.

  Lemma pext_dist W p : swf p -> incl (psyms p) W -> kdist (pterms (pext (K:=K) W p)).
  Proof.
    intros Hp Hi. unfold kdist, pext; simpl. rewrite map_map; simpl.
    destruct Hp as [Hs Hl Hd]. unfold kdist in Hd. unfold klen in Hl.
    assert (Hn := ssorted_NoDup _ Hs).
    induction (pterms p) as [|t ts IH]; simpl; [constructor|].
    inversion Hl; inversion Hd; subst. constructor; auto.
    intros Hin. apply in_map_iff in Hin. destruct Hin as (t' & E & Ht').
    match goal with H : ~ In _ _ |- _ => apply H end.
    apply in_map_iff. exists t'. split; auto.
    rewrite Forall_forall in *. apply (rekey_inj (psyms p) W); auto.
  Qed.

  Lemma pext_dle W p n : swf p -> NoDup W -> incl (psyms p) W -> dle n (pterms p) ->
    dle n (pterms (pext (K:=K) W p)).
  Proof.
    intros Hp HW Hi Hd. unfold dle, pext in *; simpl. rewrite Forall_map.
    destruct Hp as [Hs Hl _]. unfold klen in Hl. rewrite Forall_forall in *. intros t Ht. simpl.
    rewrite kdeg_rekey; auto. apply ssorted_NoDup; auto.
  Qed.

  Lemma pext_swf W p : swf p -> ssorted W -> incl (psyms p) W -> swf (pext (K:=K) W p).
  Proof.
    intros. constructor; auto.
    - apply pext_len.
    - apply pext_dist; auto.
  Qed.

  Lemma sunion_incl1 a b : incl a (sunion a b).
  Proof. intros x Hx. apply sunion_In. auto. Qed.
  Lemma sunion_incl2 a b : incl b (sunion a b).
  Proof. intros x Hx. apply sunion_In. auto. Qed.
  Hint Resolve sunion_incl1 sunion_incl2 : core.

  Lemma pzero_swf : swf (pzero (K:=K)).
  Proof. repeat constructor. Qed.

  Lemma pconst_swf c : swf (pconst (K:=K) c).
  Proof.
    constructor; simpl.
    - constructor.
    - destruct (keqb c k0); repeat constructor.
    - destruct (keqb c k0); repeat constructor. simpl; tauto.
  Qed.
  Lemma pconst_dle c n : dle n (pterms (pconst (K:=K) c)).
  Proof. unfold dle; simpl. destruct (keqb c k0); repeat constructor. simpl. lia. Qed.
  Lemma pconst_nz c : nz (pterms (pconst (K:=K) c)).
  Proof. unfold nz; simpl. destruct (keqb c k0) eqn:E; repeat constructor; auto. Qed.

  Lemma pvar_swf s : swf (pvar (K:=K) s).
  Proof.
    constructor; simpl.
    - repeat constructor.
    - destruct (keqb k1 k0); repeat constructor.
    - destruct (keqb k1 k0); repeat constructor. simpl; tauto.
  Qed.
  Lemma pvar_dle s : dle 1 (pterms (pvar (K:=K) s)).
  Proof. unfold dle; simpl. destruct (keqb k1 k0); repeat constructor. Qed.
  Lemma pvar_nz s : nz (pterms (pvar (K:=K) s)).
  Proof. unfold nz; simpl. destruct (keqb k1 k0) eqn:E; repeat constructor; auto. Qed.

  Lemma padd_swf p q : swf p -> swf q -> swf (padd (K:=K) p q).
  Proof.
    intros Hp Hq. constructor; simpl.
    - apply sunion_sorted, Hq.
    - apply add_terms_Forall with (P := fun k => length k = _); apply pext_len.
    - apply add_terms_dist. apply (pext_dist (sunion (psyms p) (psyms q)) p); auto.
  Qed.
  Lemma padd_dle p q n : swf p -> swf q -> dle n (pterms p) -> dle n (pterms q) ->
    dle n (pterms (padd (K:=K) p q)).
  Proof.
    intros Hp Hq Dp Dq. simpl. assert (HN : NoDup (sunion (psyms p) (psyms q))).
    { apply ssorted_NoDup, sunion_sorted, Hq. }
    apply add_terms_Forall with (P := fun k => kdeg k <= n); apply pext_dle; auto.
  Qed.
  Lemma padd_nz p q : nz (pterms p) -> nz (pterms (padd (K:=K) p q)).
  Proof.
    intros. simpl. apply add_terms_nz.
    apply (pext_nz (sunion (psyms p) (psyms q)) p); auto.
  Qed.

  Lemma pneg_swf p : swf p -> swf (pneg (K:=K) p).
  Proof.
    intros [Hs Hl Hd]. constructor; simpl; auto.
    - unfold klen. rewrite Forall_map. auto.
    - unfold kdist. rewrite map_map. auto.
  Qed.
  Lemma pneg_dle p n : dle n (pterms p) -> dle n (pterms (pneg (K:=K) p)).
  Proof. unfold dle; simpl. rewrite Forall_map; auto. Qed.

  Lemma psub_swf p q : swf p -> swf q -> swf (psub (K:=K) p q).
  Proof. intros. apply padd_swf; auto using pneg_swf. Qed.
  Lemma psub_dle p q n : swf p -> swf q -> dle n (pterms p) -> dle n (pterms q) ->
    dle n (pterms (psub (K:=K) p q)).
  Proof. intros. apply padd_dle; auto using pneg_swf, pneg_dle. Qed.
  Lemma psub_nz p q : nz (pterms p) -> nz (pterms (psub (K:=K) p q)).
  Proof. intros. apply padd_nz; auto. Qed.

  (** Invariant of the multiplication loop. *)
  Lemma pmul_if_inv (I : list (term K) -> Prop) ok p q :
    I [] ->
    (forall t1 t2 acc,
        In t1 (pterms (pext (sunion (psyms p) (psyms q)) p)) ->
        In t2 (pterms (pext (sunion (psyms p) (psyms q)) q)) ->
        ok (kdeg (fst t1) + kdeg (fst t2)) = true ->
        I acc -> I (add_term (kplus (fst t1) (fst t2)) (kmul (snd t1) (snd t2)) acc)) ->
    I (pterms (pmul_if ok p q)).
  Proof.
    intros H0 Hs. unfold pmul_if; simpl. apply fold_left_inv; auto.
    intros acc t1 H1 Ha. apply fold_left_inv; auto.
    intros acc' t2 H2 Ha'. destruct (ok _) eqn:E; auto.
  Qed.

  Lemma pmul_if_swf ok p q : swf p -> swf q -> swf (pmul_if (K:=K) ok p q).
  Proof.
    intros Hp Hq. constructor.
    - apply sunion_sorted, Hq.
    - apply pmul_if_inv; [constructor|]. intros.
      apply add_term_Forall with (P := fun k => length k = _); auto.
      apply kplus_length.
      + eapply pext_len_In; eauto.
      + eapply pext_len_In; eauto.
    - apply pmul_if_inv; [constructor|]. intros. apply add_term_dist; auto.
  Qed.

  Lemma pmul_if_nz ok p q : nz (pterms (pmul_if (K:=K) ok p q)).
  Proof. apply pmul_if_inv; [constructor|]. intros. apply add_term_nz; auto. Qed.

  Lemma ptmul_dle m p q : swf p -> swf q -> dle m (pterms (ptmul (K:=K) m p q)).
  Proof.
    intros Hp Hq. unfold ptmul. apply pmul_if_inv; [constructor|]. intros t1 t2 acc H1 H2 Hok Ha.
    apply add_term_Forall with (P := fun k => kdeg k <= m); auto.
    apply pext_len_In in H1. apply pext_len_In in H2.
    rewrite kdeg_kplus by congruence. apply Nat.leb_le; auto.
  Qed.

  Lemma pmul_dle m n p q : swf p -> swf q -> dle m (pterms p) -> dle n (pterms q) ->
    dle (m + n) (pterms (pmul (K:=K) p q)).
  Proof.
    intros Hp Hq Dp Dq. unfold pmul. apply pmul_if_inv; [constructor|]. intros t1 t2 acc H1 H2 Hok Ha.
    apply add_term_Forall with (P := fun k => kdeg k <= m + n); auto.
    assert (HN : NoDup (sunion (psyms p) (psyms q))) by (apply ssorted_NoDup, sunion_sorted, Hq).
    assert (D1 : kdeg (fst t1) <= m).
    { eapply (pext_dle _ p m) in Dp; eauto. unfold dle in Dp. rewrite Forall_forall in Dp. auto. }
    assert (D2 : kdeg (fst t2) <= n).
    { eapply (pext_dle _ q n) in Dq; eauto. unfold dle in Dq. rewrite Forall_forall in Dq. auto. }
    apply pext_len_In in H1. apply pext_len_In in H2.
    rewrite kdeg_kplus by congruence. lia.
  Qed.

  Lemma ppow_swf p n : swf p -> swf (ppow (K:=K) p n).
  Proof. intros. induction n; simpl; [apply pconst_swf|apply pmul_if_swf; auto]. Qed.

  Lemma pdiff_swf s p : swf p -> swf (pdiff (K:=K) s p).
  Proof.
    intros [Hs Hl Hd]. constructor; simpl; auto.
    - apply fold_left_inv; [constructor|]. intros a t Hin Ha. destruct (expo _ _ _); auto.
      apply add_term_Forall with (P := fun k => length k = _); auto. rewrite kset_length.
      unfold klen in Hl. rewrite Forall_forall in Hl. auto.
    - apply fold_left_inv; [constructor|]. intros a t Hin Ha. destruct (expo _ _ _); auto.
      apply add_term_dist; auto.
  Qed.
  Lemma pdiff_nz s p : nz (pterms (pdiff (K:=K) s p)).
  Proof.
    simpl. apply fold_left_inv; [constructor|]. intros a t Hin Ha. destruct (expo _ _ _); auto.
    apply add_term_nz; auto.
  Qed.
  Lemma pdiff_dle s p n : swf p -> dle n (pterms p) -> dle (n - 1) (pterms (pdiff (K:=K) s p)).
  Proof.
    intros [Hs Hl _] Hd. simpl. apply fold_left_inv; [constructor|]. intros a t Hin Ha.
    destruct (expo _ _ _) eqn:E; auto.
    apply add_term_Forall with (P := fun k => kdeg k <= n - 1); auto.
    unfold klen in Hl. unfold dle in Hd. rewrite Forall_forall in *.
    specialize (Hl t Hin). specialize (Hd t Hin).
    assert (HsV : In s (psyms p)).
    { destruct (in_dec string_dec s (psyms p)); auto. rewrite expo_not_In in E; auto. discriminate. }
    assert (Hk := kdeg_kset (psyms p) (fst t) s n0 Hl HsV). lia.
  Qed.

  Lemma sinsert_incl s l : incl l (sinsert s l).
  Proof. intros x Hx. apply sinsert_In. auto. Qed.

  Lemma pintegrate_swf s p : swf p -> swf (pintegrate (K:=K) s p).
  Proof.
    intros [Hs Hl Hd]. constructor; simpl.
    - apply sinsert_sorted; auto.
    - apply fold_left_inv; [constructor|]. intros a t Hin Ha.
      apply add_term_Forall with (P := fun k => length k = _); auto. rewrite kset_length.
      apply (pext_len_In (sinsert s (psyms p)) p) in Hin. auto.
    - apply fold_left_inv; [constructor|]. intros a t Hin Ha. apply add_term_dist; auto.
  Qed.
  Lemma pintegrate_nz s p : nz (pterms (pintegrate (K:=K) s p)).
  Proof.
    simpl. apply fold_left_inv; [constructor|]. intros a t Hin Ha. apply add_term_nz; auto.
  Qed.
  Lemma pintegrate_dle s p n : swf p -> dle n (pterms p) ->
    dle (S n) (pterms (pintegrate (K:=K) s p)).
  Proof.
    intros Hp Hd. simpl. apply fold_left_inv; [constructor|]. intros a t Hin Ha.
    apply add_term_Forall with (P := fun k => kdeg k <= S n); auto.
    assert (HN : NoDup (sinsert s (psyms p))) by (apply ssorted_NoDup, sinsert_sorted, Hp).
    assert (D := pext_dle (sinsert s (psyms p)) p n Hp HN (sinsert_incl _ _) Hd).
    unfold dle in D. rewrite Forall_forall in D. specialize (D t Hin).
    assert (L := pext_len (sinsert s (psyms p)) p). unfold klen in L. rewrite Forall_forall in L.
    specialize (L t Hin).
    assert (HsV : In s (sinsert s (psyms p))) by (apply sinsert_In; auto).
    assert (Hk := kdeg_kset _ (fst t) s (S (expo (sinsert s (psyms p)) (fst t) s)) L HsV). lia.
  Qed.

  Lemma psubs_val_swf s v p : swf p -> swf (psubs_val (K:=K) s v p).
  Proof.
    intros [Hs Hl Hd]. constructor; simpl; auto.
    - apply fold_left_inv; [constructor|]. intros a t Hin Ha.
      apply add_term_Forall with (P := fun k => length k = _); auto. rewrite kset_length.
      unfold klen in Hl. rewrite Forall_forall in Hl. auto.
    - apply fold_left_inv; [constructor|]. intros a t Hin Ha. apply add_term_dist; auto.
  Qed.
  Lemma psubs_val_nz s v p : nz (pterms (psubs_val (K:=K) s v p)).
  Proof.
    simpl. apply fold_left_inv; [constructor|]. intros a t Hin Ha. apply add_term_nz; auto.
  Qed.
  Lemma kdeg_kset0 V k s : length k = length V -> kdeg (kset V k s 0) <= kdeg k.
  Proof.
    intros Hl. destruct (in_dec string_dec s V) as [H|H].
    - assert (Hk := kdeg_kset V k s 0 Hl H). lia.
    - rewrite kset_not_In; auto.
  Qed.
  Lemma psubs_val_dle s v p n : swf p -> dle n (pterms p) -> dle n (pterms (psubs_val (K:=K) s v p)).
  Proof.
    intros [Hs Hl _] Hd. simpl. apply fold_left_inv; [constructor|]. intros a t Hin Ha.
    apply add_term_Forall with (P := fun k => kdeg k <= n); auto.
    unfold klen in Hl. unfold dle in Hd. rewrite Forall_forall in *.
    specialize (Hl t Hin). specialize (Hd t Hin).
    assert (Hk := kdeg_kset0 (psyms p) (fst t) s Hl). lia.
  Qed.

  Lemma psubs_poly_swf s q p : swf p -> swf q -> swf (psubs_poly (K:=K) s q p).
  Proof.
    intros Hp Hq. unfold psubs_poly. apply fold_left_inv.
    - constructor; simpl; [apply sunion_sorted, Hq|constructor|constructor].
    - intros a t Hin Ha. apply padd_swf; auto. apply pmul_if_swf; [|apply ppow_swf; auto].
      destruct Hp as [Hs Hl Hd]. unfold klen in Hl. rewrite Forall_forall in Hl.
      constructor; auto.
      + apply add_term_Forall with (P := fun k => length k = _); [|constructor].
        rewrite kset_length; auto.
      + apply add_term_dist. constructor.
  Qed.
  Lemma psubs_poly_nz s q p : nz (pterms (psubs_poly (K:=K) s q p)).
  Proof.
    unfold psubs_poly. apply fold_left_inv; [constructor|]. intros a t Hin Ha. apply padd_nz; auto.
  Qed.

  Lemma Forall_filter {A} (P : A -> Prop) f l : Forall P l -> Forall P (filter f l).
  Proof.
    rewrite !Forall_forall. intros H x Hx. apply filter_In in Hx. apply H; tauto.
  Qed.
  Lemma kdist_filter f ts : kdist ts -> kdist (filter f ts).
  Proof.
    unfold kdist. induction ts as [|t ts IH]; simpl; auto. intros H. inversion H; subst.
    destruct (f t); simpl; auto. constructor; auto.
    intros Hin. apply in_map_iff in Hin. destruct Hin as (t' & E & Ht').
    apply filter_In in Ht'. apply H2. rewrite <- E. apply in_map. tauto.
  Qed.
  Lemma pfilter_swf f p : swf p -> swf (pfilter (K:=K) f p).
  Proof.
    intros [Hs Hl Hd]. constructor; simpl; auto.
    - apply Forall_filter; auto.
    - apply kdist_filter; auto.
  Qed.
  Lemma pfilter_nz f p : nz (pterms p) -> nz (pterms (pfilter (K:=K) f p)).
  Proof. apply Forall_filter. Qed.
  Lemma pfilter_dle f p n : dle n (pterms p) -> dle n (pterms (pfilter (K:=K) f p)).
  Proof. apply Forall_filter. Qed.
  Lemma ptruncate_dle m p : dle m (pterms (ptruncate (K:=K) m p)).
  Proof.
    unfold dle; simpl. apply Forall_forall. intros t Ht. apply filter_In in Ht.
    apply Nat.leb_le; tauto.
  Qed.

  (** Trimming of unused symbols. *)
  Definition used (p : poly K) (s : string) : bool :=
    existsb (fun t => negb (Nat.eqb (expo (psyms p) (fst t) s) 0)) (pterms p).
  Definition usyms (p : poly K) : list string := filter (used p) (psyms p).

  Lemma ptrim_eq p : ptrim p = mkPoly (usyms p)
      (map (fun t => (rekey (psyms p) (usyms p) (fst t), snd t)) (pterms p)).
  Proof. reflexivity. Qed.

  Lemma usyms_incl p : incl (usyms p) (psyms p).
  Proof. intros x Hx. apply filter_In in Hx. tauto. Qed.

  Lemma unused_zero p t s : In t (pterms p) -> ~ In s (usyms p) -> expo (psyms p) (fst t) s = 0.
  Proof.
    intros Ht Hs. destruct (in_dec string_dec s (psyms p)) as [H|H]; [|apply expo_not_In; auto].
    destruct (expo (psyms p) (fst t) s) eqn:E; auto. exfalso. apply Hs. apply filter_In. split; auto.
    unfold used. apply existsb_exists. exists t. rewrite E. auto.
  Qed.

  Lemma ptrim_expo p t : In t (pterms p) ->
    expo (usyms p) (rekey (psyms p) (usyms p) (fst t)) = expo (psyms p) (fst t).
  Proof.
    intros Ht. extensionality s. unfold rekey. destruct (in_dec string_dec s (usyms p)) as [H|H].
    - apply expo_map; auto.
    - rewrite expo_not_In; auto. symmetry. apply unused_zero; auto.
  Qed.

  Lemma usyms_sorted p : swf p -> ssorted (usyms p).
  Proof. intros H. apply ssorted_filter, H. Qed.

  Lemma ptrim_kdeg p t : swf p -> In t (pterms p) ->
    kdeg (rekey (psyms p) (usyms p) (fst t)) = kdeg (fst t).
  Proof.
    intros Hp Ht. assert (Hl := swf_len p Hp). unfold klen in Hl. rewrite Forall_forall in Hl.
    assert (HN := swf_NoDup p Hp).
    rewrite (kdeg_ssum (psyms p) (fst t)); auto. symmetry.
    apply ssum_incl; auto using usyms_incl.
    - apply ssorted_NoDup, usyms_sorted; auto.
    - intros s Hs. apply unused_zero; auto.
  Qed.

  Lemma ptrim_swf p : swf p -> swf (ptrim (K:=K) p).
  Proof.
    intros Hp. rewrite ptrim_eq. assert (Hs := usyms_sorted p Hp).
    constructor; simpl; auto.
    - unfold klen. rewrite Forall_map. apply Forall_forall. intros; apply rekey_length.
    - unfold kdist. rewrite map_map; simpl.
      assert (Hsub : forall ts, incl ts (pterms p) -> NoDup (map fst ts) ->
        NoDup (map (fun t => rekey (psyms p) (usyms p) (fst t)) ts)).
      { induction ts as [|t ts IH]; simpl; intros Hi Hd; [constructor|].
        inversion Hd; subst. constructor.
        - intros Hin. apply in_map_iff in Hin. destruct Hin as (t' & E & Ht').
          apply H1. apply in_map_iff. exists t'. split; auto.
          assert (Hl := swf_len p Hp). unfold klen in Hl. rewrite Forall_forall in Hl.
          assert (I1 : In t' (pterms p)) by (apply Hi; right; auto).
          assert (I2 : In t (pterms p)) by (apply Hi; left; auto).
          apply (expo_inj (psyms p)); auto using swf_NoDup.
          intros s _. rewrite <- (ptrim_expo p t I2), <- (ptrim_expo p t' I1). congruence.
        - apply IH; auto. intros x Hx. apply Hi. right; auto. }
      apply Hsub; [apply incl_refl|apply Hp].
  Qed.
  Lemma ptrim_nz p : nz (pterms p) -> nz (pterms (ptrim (K:=K) p)).
  Proof. unfold nz; simpl. rewrite Forall_map. auto. Qed.
  Lemma ptrim_dle p n : swf p -> dle n (pterms p) -> dle n (pterms (ptrim (K:=K) p)).
  Proof.
    intros Hp. unfold dle; simpl. rewrite Forall_map, !Forall_forall. intros H t Ht. simpl.
    change (kdeg (rekey (psyms p) (usyms p) (fst t)) <= n). rewrite ptrim_kdeg; auto.
  Qed.

  Lemma pdegree_le p n : pdegree (K:=K) p <= n <-> dle n (pterms p).
  Proof.
    unfold pdegree, dle. induction (pterms p) as [|t ts IH]; simpl.
    - split; [constructor|lia].
    - split; intros H.
      + constructor; [lia|]. apply IH. lia.
      + inversion H; subst. apply IH in H3. lia.
  Qed.

  (** Lookup *)
  Lemma tfind_In k l c : tfind (K:=K) k l = Some c -> In (k, c) l.
  Proof.
    induction l as [|[x cx] l IH]; simpl; [discriminate|].
    destruct (key_eqb x k) eqn:E.
    - intros H; inversion H; subst. apply key_eqb_spec in E. subst. auto.
    - auto.
  Qed.
  Lemma tfind_Some k l c : kdist l -> In (k, c) l -> tfind (K:=K) k l = Some c.
  Proof.
    unfold kdist. induction l as [|[x cx] l IH]; simpl; [tauto|]. intros H [E|Hin].
    - inversion E; subst. rewrite key_eqb_refl. reflexivity.
    - inversion H; subst. destruct (key_eqb x k) eqn:E; auto.
      apply key_eqb_spec in E. subst. exfalso. apply H2. change k with (fst (k, c)). apply in_map; auto.
  Qed.
  Lemma tfind_None k l : tfind (K:=K) k l = None <-> ~ In k (map fst l).
  Proof.
    induction l as [|[x cx] l IH]; simpl; [tauto|].
    destruct (key_eqb x k) eqn:E.
    - apply key_eqb_spec in E. subst. split; [discriminate|tauto].
    - rewrite IH. apply key_eqb_false in E. tauto.
  Qed.
End Structure.
#[global] Hint Resolve sunion_incl1 sunion_incl2 : core.
Create HintDb swf.
#[global] Hint Resolve pzero_swf pconst_swf pvar_swf padd_swf pneg_swf psub_swf pmul_if_swf ppow_swf
  pdiff_swf pintegrate_swf psubs_val_swf psubs_poly_swf pfilter_swf ptrim_swf pext_swf swf_NoDup : swf.
#[global] Hint Unfold ptmul pmul ptruncate : swf.
