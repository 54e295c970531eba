(** * Derivatives and antiderivatives without any law of arithmetic *)
From Coq Require Import String List Arith Bool ZArith Lia.
From Verif Require Import Ops Syms SymsFacts Poly PolyFacts Gdual GdualFacts Functions Spec CoefFacts CoreProofs CalcProofs SpecDbl StoredMul.
Import ListNotations.

Section StoredCalc.
  Context {K : Type} {o : Ops K}.
  Local Open Scope K_scope.

  Lemma image_terms (h : term K -> list (term K)) (u : key -> key) (l : list (term K)) k : kdist l ->
    (forall t, In t l -> h t = [] \/ exists t', h t = [t'] /\ u (fst t') = fst t) ->
    kdist (flat_map h l) /\
    tfind k (flat_map h l) = match tfind (u k) l with Some c => tfind k (h (u k, c)) | None => None end.
  Proof.
    intros Hd Hh. split.
    - induction l as [|t l IH]; cbn [flat_map]; [constructor|]. inversion Hd as [|? ? Ht Hl]; subst.
      assert (IH' : kdist (flat_map h l)) by (apply IH; auto; intros; apply Hh; right; auto).
      destruct (Hh t) as [->|(t' & -> & Hu)]; [left; auto|auto|]. cbn [app]. unfold kdist in *. cbn [map]. constructor; auto.
      intros Hi. apply Ht. rewrite <- Hu. apply in_map_iff in Hi. destruct Hi as (x & E & Hx).
      apply in_flat_map in Hx. destruct Hx as (y & Hy & Hx). rewrite <- E. destruct (Hh y) as [E'|(t'' & E' & Hu')]; [right; auto| |];
        rewrite E' in Hx; [destruct Hx|]. destruct Hx as [<-|[]]. rewrite Hu'. apply in_map; auto.
    - induction l as [|[x c] l IH]; cbn [flat_map tfind]; auto. inversion Hd as [|? ? Ht Hl]; subst. cbn [fst] in Ht.
      assert (IH' := IH Hl (fun t H => Hh t (or_intror H))).
      assert (HN : forall y, y = x -> tfind y l = None) by (intros y ->; apply tfind_None; exact Ht).
      destruct (Hh (x, c)) as [E|(t' & E & Hu)]; [left; auto| |]; rewrite E; cbn [app fst] in *.
      + rewrite IH'. destruct (key_eqb x (u k)) eqn:Ex; auto. apply key_eqb_spec in Ex. rewrite HN by auto.
        rewrite <- Ex, E. reflexivity.
      + destruct t' as [y d]. cbn [tfind fst] in *. destruct (key_eqb y k) eqn:Ey.
        * apply key_eqb_spec in Ey. subst y. rewrite Hu, key_eqb_refl, E. cbn [tfind]. rewrite key_eqb_refl. reflexivity.
        * rewrite IH'. destruct (key_eqb x (u k)) eqn:Ex; auto. apply key_eqb_spec in Ex. rewrite HN by auto.
          rewrite <- Ex, E. cbn [tfind]. rewrite Ey. reflexivity.
  Qed.

  Lemma fold_image (h : term K -> list (term K)) (f : list (term K) -> term K -> list (term K)) l :
    (forall acc t, f acc t = add_terms (h t) acc) -> forall acc, fold_left f l acc = add_terms (flat_map h l) acc.
  Proof.
    intros H. induction l as [|t l IH]; intros acc; cbn [fold_left flat_map]; auto.
    rewrite IH, H. unfold add_terms. rewrite fold_left_app. reflexivity.
  Qed.
  Lemma tfind_image (h : term K -> list (term K)) (f : list (term K) -> term K -> list (term K)) (u : key -> key) l k : kdist l ->
    (forall acc t, f acc t = add_terms (h t) acc) ->
    (forall t, In t l -> h t = [] \/ exists t', h t = [t'] /\ u (fst t') = fst t) ->
    tfind k (fold_left f l []) =
    match tfind (u k) l with
    | Some c => match tfind k (h (u k, c)) with Some d => if d =? 0 then None else Some d | None => None end
    | None => None
    end.
  Proof.
    intros Hd Hf Hh. rewrite (fold_image h) by exact Hf. destruct (image_terms h u l k Hd Hh) as [H1 H2].
    rewrite tfind_add_terms by (auto; constructor). rewrite H2. cbn [tfind]. destruct (tfind (u k) l); auto.
  Qed.

  Lemma pext_id (p : poly K) : swf p -> pterms (pext (psyms p) p) = pterms p.
  Proof.
    intros [Hs Hl _]. unfold pext. cbn [pterms]. unfold klen in Hl. rewrite Forall_forall in Hl.
    etransitivity; [|apply map_id]. apply map_ext_in. intros [kt c] Ht. cbn [fst snd].
    rewrite rekey_same; auto using ssorted_NoDup. apply (Hl _ Ht).
  Qed.
  Lemma stored_partial (g r : gdual K) s W k : valid g -> gpartial g s = Ok r -> NoDup W -> length k = length W -> In (dsym s) W ->
    stored r W k =
    match stored g W (incr W k (dsym s)) with
    | Some c => kept (c * kofnat (S (expo W k (dsym s))))
    | None => None
    end.
  Proof.
    intros Vg E HW Hk HS. assert (Wg := valid_gwf g Vg). destruct (gpartial_gwf g s r Wg E) as [Wr _].
    apply gpartial_Ok in E. destruct E as [_ ->]. set (S := dsym s) in *.
    set (V := psyms (gp g)).
    assert (HV : NoDup V) by (apply ssorted_NoDup, Wg).
    rewrite (stored_tfind _ W k V), (stored_tfind g W _ V) by (auto; apply incl_refl).
    assert (Lg : forall t, In t (pterms (gp g)) -> length (fst t) = length V).
    { destruct Wg as [[_ Hl _] _]. unfold klen in Hl. rewrite Forall_forall in Hl. exact Hl. }
    assert (Eg : pterms (pext V (gp g)) = pterms (gp g)) by (apply pext_id, Wg).
    assert (Er : pterms (pext V (pdiff S (gp g))) = pterms (pdiff S (gp g))) by (apply (pext_id (pdiff S (gp g))), Wr).
    cbn [gp]. rewrite Eg, Er. clear Eg Er.
    destruct (in_dec string_dec S V) as [HSV|HSV].
    - assert (F : fits W (incr W k S) V = fits W k V).
      { apply eq_true_iff_eq. split; intros H; apply out_fits; intros x Hx Hn.
        - assert (H' := fits_out _ _ _ x H Hn). rewrite expo_incr in H' by auto. lia.
        - rewrite expo_incr by auto. rewrite (fits_out _ _ _ x H Hn).
          destruct (String.eqb_spec x S); [subst; contradiction|auto]. }
      rewrite F. destruct (fits W k V); auto. cbn [pdiff pterms]. fold V.
      set (h := fun t : term K => match expo V (fst t) S with
                        | O => []
                        | Datatypes.S e => [(kset V (fst t) S e, snd t * kofnat (Datatypes.S e))] end).
      set (u := fun y : key => kset V y S (Datatypes.S (expo V y S))).
      rewrite (tfind_image h _ u) by
        first [apply Wg
              | intros acc t; unfold h; destruct (expo V (fst t) S); reflexivity
              | intros t Ht; unfold h; destruct (expo V (fst t) S) as [|e] eqn:Ee; [left; reflexivity|right];
                eexists; split; [reflexivity|]; cbn [fst]; unfold u;
                apply (expo_inj V); auto; [rewrite !kset_length; auto|];
                intros x Hx; rewrite !expo_kset by (rewrite ?kset_length; auto); rewrite String.eqb_refl;
                destruct (String.eqb_spec S x); [subst x; auto|auto] ].
      assert (Eu : u (map (expo W k) V) = map (expo W (incr W k S)) V).
      { unfold u. apply (expo_inj V); auto; [rewrite kset_length, map_length; auto|apply map_length|].
        intros x Hx. rewrite expo_kset by (rewrite ?map_length; auto). rewrite !expo_map by auto. rewrite expo_incr by auto.
        rewrite String.eqb_sym. destruct (String.eqb_spec x S); [subst x|]; lia. }
      rewrite Eu. destruct (tfind _ (pterms (gp g))) as [c|]; auto.
      unfold h. cbn [fst snd]. rewrite expo_map, expo_incr, String.eqb_refl by auto.
      replace (expo W k S + 1)%nat with (Datatypes.S (expo W k S)) by lia. cbn [tfind].
      replace (key_eqb _ _) with true; [reflexivity|]. symmetry. apply key_eqb_spec.
      apply (expo_inj V); auto; [rewrite kset_length; apply map_length|apply map_length|].
      intros x Hx. rewrite expo_kset by (rewrite ?map_length; auto). rewrite !expo_map by auto. rewrite expo_incr by auto.
      rewrite String.eqb_sym. destruct (String.eqb_spec x S); [subst x|]; lia.
    - assert (F : fits W (incr W k S) V = false).
      { destruct (fits _ _ _) eqn:Ef; auto. apply (fits_out _ _ _ S) in Ef; auto. rewrite expo_incr, String.eqb_refl in Ef by auto. lia. }
      rewrite F. destruct (fits W k V); auto. cbn [pdiff pterms]. fold V.
      replace (fold_left _ (pterms (gp g)) []) with (@nil (term K)); auto.
      induction (pterms (gp g)) as [|t l IH]; cbn [fold_left]; auto. rewrite expo_not_In by auto. apply IH.
      intros; apply Lg; right; auto.
  Qed.

  Lemma ptrunc_find n V (q : poly K) k : psyms q = V -> klen (length V) (pterms q) ->
    tfind k (pterms (ptruncateZ (Z.of_nat n) q)) = if Nat.leb (kdeg k) n then tfind k (pterms q) else None.
  Proof.
    intros _ _. unfold ptruncateZ, pfilter. cbn [pterms]. induction (pterms q) as [|[x c] l IH]; cbn [filter tfind fst].
    - destruct (Nat.leb _ _); auto.
    - destruct (Z.leb_spec (Z.of_nat (kdeg x)) (Z.of_nat n)); cbn [tfind]; rewrite IH.
      + destruct (key_eqb x k) eqn:E; auto. apply key_eqb_spec in E. subst x.
        destruct (Nat.leb_spec (kdeg k) n); [auto|lia].
      + destruct (key_eqb x k) eqn:E; auto. apply key_eqb_spec in E. subst x.
        destruct (Nat.leb_spec (kdeg k) n); [lia|auto].
  Qed.
  Lemma stored_integrate (g r : gdual K) s W k : valid g -> gintegrate g s = Ok r -> (Z.of_nat (gord g) < two31)%Z ->
    NoDup W -> length k = length W -> In (dsym s) W ->
    stored r W (incr W k (dsym s)) =
    if Nat.ltb (list_sum k) (get_order g)
    then match stored g W k with
         | Some c => kept (c / kofnat (S (expo W k (dsym s))))
         | None => None
         end
    else None.
  Proof.
    intros Vg E Ho HW Hk HS. assert (Wg := valid_gwf g Vg). assert (Wr : gwf r) by (apply (gintegrate_gwf g s r Wg E)).
    apply gintegrate_Ok in E. destruct E as [_ ->]. set (S := dsym s) in *. rewrite as_int_small in * by auto.
    set (V := sinsert S (psyms (gp g))).
    assert (HVs : ssorted V) by (apply sinsert_sorted, Wg).
    assert (HV : NoDup V) by (apply ssorted_NoDup; auto).
    assert (HI : incl (psyms (gp g)) V) by (intros x Hx; apply sinsert_In; auto).
    assert (HSV : In S V) by (apply sinsert_In; auto).
    rewrite (stored_tfind _ W _ V), (stored_tfind g W k V) by (auto; apply incl_refl).
    assert (Er := pext_id _ (gwf_swf _ Wr)). cbn [gp] in Er |- *.
    change (psyms (ptruncateZ (Z.of_nat (gord g)) (pintegrate S (gp g)))) with V in Er. rewrite Er. clear Er.
    assert (F : fits W (incr W k S) V = fits W k V).
    { apply eq_true_iff_eq. split; intros H; apply out_fits; intros x Hx Hn.
      - assert (H' := fits_out _ _ _ x H Hn). rewrite expo_incr in H' by auto. lia.
      - rewrite expo_incr by auto. rewrite (fits_out _ _ _ x H Hn).
        destruct (String.eqb_spec x S); [subst; contradiction|auto]. }
    rewrite F. destruct (fits W k V) eqn:Ef; [|destruct (Nat.ltb _ _); auto].
    rewrite (ptrunc_find _ V) by (auto; apply pintegrate_swf, Wg).
    rewrite fits_kdeg by (auto using incr_length; rewrite incr_length; auto).
    replace (list_sum (incr W k S)) with (Datatypes.S (list_sum k)) by (symmetry; apply (kdeg_incr W k S); auto).
    change (Nat.leb (Datatypes.S (list_sum k)) (gord g)) with (Nat.ltb (list_sum k) (get_order g)).
    destruct (Nat.ltb _ _); auto.
    assert (Dg : kdist (pterms (pext V (gp g)))) by (apply pext_dist; [apply Wg|exact HI]).
    assert (Lg := pext_len V (gp g)). unfold klen in Lg. rewrite Forall_forall in Lg.
    unfold pintegrate. cbn [pterms]. fold V. set (A := pterms (pext V (gp g))) in *.
    set (h := fun t : term K => [(kset V (fst t) S (Datatypes.S (expo V (fst t) S)), snd t / kofnat (Datatypes.S (expo V (fst t) S)))]).
    set (u := fun y : key => kset V y S (pred (expo V y S))).
    change (pterms (pext V (gp g))) with A.
    rewrite (tfind_image h _ u) by
      first [exact Dg
            | intros acc t; reflexivity
            | intros t Ht; unfold h; right; eexists; split; [reflexivity|]; cbn [fst]; unfold u;
              apply (expo_inj V); auto; [rewrite !kset_length; auto|];
              intros x Hx; rewrite !expo_kset by (rewrite ?kset_length; auto); rewrite String.eqb_refl;
              destruct (String.eqb_spec S x); [subst x; auto|auto] ].
    assert (Eu : u (map (expo W (incr W k S)) V) = map (expo W k) V).
    { unfold u. apply (expo_inj V); auto; [rewrite kset_length, map_length; auto|apply map_length|].
      intros x Hx. rewrite expo_kset by (rewrite ?map_length; auto). rewrite !expo_map by auto. rewrite !expo_incr by auto.
      rewrite (String.eqb_sym x), String.eqb_refl. destruct (String.eqb_spec S x); [subst x|]; lia. }
    rewrite Eu. destruct (tfind _ A) as [c|]; auto.
    unfold h. cbn [fst snd]. rewrite expo_map by auto. cbn [tfind].
    replace (key_eqb _ _) with true; [reflexivity|]. symmetry. apply key_eqb_spec.
    apply (expo_inj V); auto; [rewrite kset_length; apply map_length|apply map_length|].
    intros x Hx. rewrite expo_kset by (rewrite ?map_length; auto). rewrite !expo_map by auto. rewrite expo_incr by auto.
    rewrite String.eqb_sym. destruct (String.eqb_spec x S); [subst x|]; lia.
  Qed.
End StoredCalc.
