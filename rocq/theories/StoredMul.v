(** * The product without any law of arithmetic

    Each coefficient of a product is obtained by adding up, in some order, the
    products of the pairs of coefficients that contribute to it. *)
From Coq Require Import String List Arith Bool ZArith Permutation Lia.
From Verif Require Import Ops Syms SymsFacts Poly PolyFacts Gdual GdualFacts Functions Spec CoefFacts CoreProofs SpecDbl.
Import ListNotations.

Section StoredMul.
  Context {K : Type} {o : Ops K}.
  Local Open Scope K_scope.

  Lemma tfind_step k c (l : list (term K)) k' : kdist l ->
    tfind k' (add_term k c l) = if key_eqb k k' then add_to (tfind k' l) c else tfind k' l.
  Proof.
    intros H. rewrite tfind_add_term by exact H. destruct (key_eqb k k') eqn:E; auto. apply key_eqb_spec in E. subst k'.
    unfold add_to. destruct (tfind k l); auto.
  Qed.

  (** the pairs of terms, in the order of the two loops *)
  Definition times (p : term K * term K) : K := snd (fst p) * snd (snd p).
  Definition meets (ok : nat -> bool) (k : key) (p : term K * term K) : bool :=
    ok (kdeg (fst (fst p)) + kdeg (fst (snd p)))%nat && key_eqb (kplus (fst (fst p)) (fst (snd p))) k.
  Lemma inner (ok : nat -> bool) k (t1 : term K) l2 acc : kdist acc ->
    let r := fold_left (fun (acc : list (term K)) (t2 : term K) => if ok (kdeg (fst t1) + kdeg (fst t2))%nat
                                      then add_term (kplus (fst t1) (fst t2)) (snd t1 * snd t2) acc else acc) l2 acc in
    kdist r /\ tfind k r = fold_left add_to (map times (filter (meets ok k) (map (pair t1) l2))) (tfind k acc).
  Proof.
    revert acc. induction l2 as [|t2 l2 IH]; intros acc H; cbn [fold_left map filter]; [auto|].
    unfold meets at 1. cbn [fst snd]. destruct (ok _); cbn [andb].
    - specialize (IH (add_term (kplus (fst t1) (fst t2)) (snd t1 * snd t2) acc) (add_term_dist _ _ _ H)).
      destruct IH as [I1 I2]. split; auto. cbn zeta in *. rewrite I2, tfind_step by exact H.
      destruct (key_eqb _ k); cbn [map fold_left fst snd]; auto.
    - specialize (IH acc H). destruct IH as [I1 I2]. split; auto.
  Qed.
  Lemma outer (ok : nat -> bool) k (l1 l2 : list (term K)) acc : kdist acc ->
    let r := fold_left (fun (acc : list (term K)) (t1 : term K) => fold_left (fun (acc : list (term K)) (t2 : term K) => if ok (kdeg (fst t1) + kdeg (fst t2))%nat
                                      then add_term (kplus (fst t1) (fst t2)) (snd t1 * snd t2) acc else acc) l2 acc) l1 acc in
    kdist r /\ tfind k r = fold_left add_to (map times (filter (meets ok k) (list_prod l1 l2))) (tfind k acc).
  Proof.
    revert acc. induction l1 as [|t1 l1 IH]; intros acc H; cbn [fold_left list_prod filter map]; [auto|].
    destruct (inner ok k t1 l2 acc H) as [I1 I2]. cbn zeta in I1, I2. destruct (IH _ I1) as [J1 J2]. split; auto. cbn zeta in *.
    rewrite J2, I2, filter_app, map_app, fold_left_app. reflexivity.
  Qed.

  Lemma tfind_mul (ok : nat -> bool) (p q : poly K) k :
    tfind k (pterms (pmul_if ok p q)) =
    sum_up (map times
                (filter (meets ok k) (list_prod (pterms (pext (sunion (psyms p) (psyms q)) p)) (pterms (pext (sunion (psyms p) (psyms q)) q))))).
  Proof.
    etransitivity; [|reflexivity]. unfold pmul_if. cbn [pterms]. unfold sum_up.
    exact (proj2 (outer ok k (pterms (pext (sunion (psyms p) (psyms q)) p)) (pterms (pext (sunion (psyms p) (psyms q)) q)) [] (NoDup_nil _))).
  Qed.

  (** *** Lists *)
  Lemma NoDup_map_filter {A B} (f : A -> B) (g : A -> bool) l : NoDup (map f l) -> NoDup (map f (filter g l)).
  Proof.
    induction l as [|x l IH]; cbn [map filter]; auto. intros H. inversion H as [|? ? H1 H2]; subst.
    destruct (g x); auto. cbn [map]. constructor; auto. intros Hx. apply H1. apply in_map_iff in Hx.
    destruct Hx as (y & E & Hy). apply filter_In in Hy. apply in_map_iff. exists y. tauto.
  Qed.
  Lemma NoDup_map_on {A B} (f : A -> B) l : NoDup l -> (forall x y, In x l -> In y l -> f x = f y -> x = y) -> NoDup (map f l).
  Proof.
    induction l as [|x l IH]; cbn [map]; intros H Hi; [constructor|]. inversion H; subst. constructor.
    - intros Hx. apply in_map_iff in Hx. destruct Hx as (y & E & Hy).
      assert (y = x) by (apply Hi; [right|left|]; auto). subst. contradiction.
    - apply IH; auto. intros; apply Hi; auto; right; auto.
  Qed.
  Lemma NoDup_prod {A B} (l1 : list A) (l2 : list B) : NoDup l1 -> NoDup l2 -> NoDup (list_prod l1 l2).
  Proof.
    intros H1 H2. induction l1 as [|x l1 IH]; cbn [list_prod]; [constructor|]. inversion H1 as [|? ? Hx Hl]; subst.
    specialize (IH Hl).
    assert (N : NoDup (map (fun y => (x, y)) l2)) by (apply FinFun.Injective_map_NoDup; auto; intros ? ? E; congruence).
    assert (D : forall z, In z (map (fun y => (x, y)) l2) -> ~ In z (list_prod l1 l2)).
    { intros z Hz Hz'. apply in_map_iff in Hz. destruct Hz as (y & <- & _). apply in_prod_iff in Hz'. tauto. }
    clear H2 H1. induction (map (fun y => (x, y)) l2) as [|z m IHm]; cbn [app]; auto. inversion N; subst. constructor.
    - rewrite in_app_iff. intros [|]; auto. apply (D z); auto. left; auto.
    - apply IHm; auto. intros; apply D; right; auto.
  Qed.
  Lemma map_prod {A B A' B'} (f : A -> A') (g : B -> B') l1 l2 :
    map (fun p => (f (fst p), g (snd p))) (list_prod l1 l2) = list_prod (map f l1) (map g l2).
  Proof.
    induction l1 as [|x l1 IH]; cbn [list_prod map]; auto. rewrite map_app, IH, !map_map. reflexivity.
  Qed.

  Lemma tfind_In k c (l : list (term K)) : kdist l -> (tfind k l = Some c <-> In (k, c) l).
  Proof.
    induction l as [|[x y] l IH]; cbn [tfind]; intros H; [split; [discriminate|intros []]|].
    inversion H as [|? ? Hx Hl]; subst. cbn [fst] in Hx. destruct (key_eqb x k) eqn:E.
    - apply key_eqb_spec in E. subst x. split; [intros E; injection E as <-; left; auto|].
      intros [E|E]; [congruence|]. exfalso. apply Hx. apply in_map_iff. exists (k, c); auto.
    - rewrite IH by exact Hl. split; [right; auto|]. intros [E'|]; auto. injection E' as -> ->. rewrite key_eqb_refl in E. discriminate.
  Qed.

  Lemma splits_kplus (k i j : key) : In (i, j) (splits k) <-> length i = length k /\ length j = length k /\ kplus i j = k.
  Proof.
    rewrite splits_spec. revert i j. induction k as [|e k IH]; intros [|x i] [|y j]; cbn [length kplus];
      try (split; intros (H1 & H2 & H3); discriminate).
    - split; intros (H1 & H2 & H3); conjs; auto. intros [|]; reflexivity.
    - specialize (IH i j). split; intros (H1 & H2 & H3).
      + assert (IH' : kplus i j = k) by (apply IH; conjs; try lia; intros n; apply (H3 (S n))).
        conjs; auto. rewrite IH'. f_equal. apply (H3 0%nat).
      + injection H3 as E1 E2. conjs; auto. intros [|n]; cbn [nth]; [exact E1|].
        apply IH. conjs; try lia; auto.
  Qed.

  (** *** One coefficient of a product *)
  Definition getd (x : option K) : K := match x with Some c => c | None => 0 end.
  Definition is_some (x : option K) : bool := match x with Some _ => true | None => false end.
  Definition bothb (a b : gdual K) W (ij : key * key) : bool := is_some (stored a W (fst ij)) && is_some (stored b W (snd ij)).
  Lemma factors_map a b W k :
    factors a b W k = map (fun ij => (getd (stored a W (fst ij)), getd (stored b W (snd ij)))) (filter (bothb a b W) (splits k)).
  Proof.
    unfold factors. induction (splits k) as [|[i j] l IH]; cbn [flat_map filter map fst snd]; auto. rewrite IH.
    unfold bothb at 2. cbn [fst snd].
    destruct (stored a W i) eqn:Ea, (stored b W j) eqn:Eb; cbn [is_some andb map fst snd app]; rewrite ?Ea, ?Eb; reflexivity.
  Qed.

  Lemma fits_out W k U s : fits W k U = true -> ~ In s U -> expo W k s = 0%nat.
  Proof.
    unfold fits. rewrite forallb_forall. intros H Hs. destruct (in_dec string_dec s W) as [i|i].
    - specialize (H s i). apply orb_true_iff in H. destruct H as [H|H]; [apply str_in_spec in H; contradiction|].
      apply Nat.eqb_eq; auto.
    - apply expo_not_In; auto.
  Qed.
  Lemma out_fits W k U : (forall s, In s W -> ~ In s U -> expo W k s = 0%nat) -> fits W k U = true.
  Proof.
    intros H. unfold fits. apply forallb_forall. intros s Hs. apply orb_true_iff.
    destruct (in_dec string_dec s U) as [i|i]; [left; apply str_in_spec; auto|right; apply Nat.eqb_eq; auto].
  Qed.
  Lemma fits_kdeg W k U : NoDup W -> NoDup U -> length k = length W -> fits W k U = true -> kdeg (map (expo W k) U) = list_sum k.
  Proof.
    intros HW HU Hl Hf. change (list_sum k) with (kdeg k). apply (kdeg_same U _ W k); auto; [apply map_length|].
    intros s [Hs|Hs]; [apply expo_map; auto|]. destruct (in_dec string_dec s U); [apply expo_map; auto|].
    rewrite (expo_not_In U) by auto. symmetry. eapply fits_out; eauto.
  Qed.

  Lemma stored_mul (a b : gdual K) W k : valid a -> valid b -> NoDup W -> length k = length W ->
    exists l, Permutation l (factors a b W k) /\
      stored (gmul a b) W k =
      if Nat.leb (list_sum k) (Nat.max (get_order a) (get_order b)) then sum_up (map (fun xy => fst xy * snd xy) l) else None.
  Proof.
    intros Va Vb HW Hk. set (U := sunion (gsyms a) (gsyms b)). set (m := Nat.max (get_order a) (get_order b)).
    assert (Wa := valid_gwf a Va). assert (Wb := valid_gwf b Vb).
    assert (HUs : ssorted U) by (apply sunion_sorted, gsyms_sorted; auto).
    assert (HU : NoDup U) by (apply ssorted_NoDup; auto).
    assert (I2 : incl (gsyms a) U) by apply sunion_incl1. assert (I3 : incl (gsyms b) U) by apply sunion_incl2.
    assert (Sa := fun i => stored_tfind a W i U Wa HU I2). assert (Sb := fun i => stored_tfind b W i U Wb HU I3).
    rewrite (stored_tfind (gmul a b) W k U) by (auto with gwf; rewrite gsyms_mul; apply incl_refl).
    assert (Hsp : forall i j, In (i, j) (splits k) -> forall s, (expo W k s = expo W i s + expo W j s)%nat).
    { intros i j H s. apply splits_kplus in H. destruct H as (L1 & L2 & <-). apply expo_kplus; congruence. }
    destruct (fits W k U) eqn:Ef.
    2:{ exists []. split.
        - rewrite factors_map. replace (filter (bothb a b W) (splits k)) with (@nil (key * key)); [constructor|].
          symmetry. destruct (filter _ _) as [|[i j] r] eqn:E; auto. exfalso.
          assert (H : In (i, j) (filter (bothb a b W) (splits k))) by (rewrite E; left; auto).
          apply filter_In in H. destruct H as [H1 H2]. unfold bothb in H2. cbn [fst snd] in H2. rewrite Sa, Sb in H2.
          destruct (fits W i U) eqn:E1, (fits W j U) eqn:E2; cbn [is_some andb] in H2; try (rewrite ?andb_false_r in H2; discriminate).
          rewrite (out_fits W k U) in Ef; [discriminate|]. intros s _ Hs. rewrite (Hsp i j) by auto.
          rewrite (fits_out W i U), (fits_out W j U) by auto. reflexivity.
        - destruct (Nat.leb _ _); reflexivity. }
    assert (E : pterms (pext U (gp (gmul a b))) = pterms (gp (gmul a b))).
    { unfold pext. cbn [pterms]. change (psyms (gp (gmul a b))) with U.
      destruct (gmul_gwf a b Wa Wb) as [[_ Hl _] _]. change (psyms (gp (gmul a b))) with U in Hl. unfold klen in Hl.
      rewrite Forall_forall in Hl. etransitivity; [|apply map_id]. apply map_ext_in. intros [kt c] Ht.
      cbn [fst snd]. rewrite rekey_same; auto. apply (Hl _ Ht). }
    rewrite E. clear E. cbn [gmul gp]. unfold ptmul. rewrite tfind_mul.
    change (psyms (gp a)) with (gsyms a). change (psyms (gp b)) with (gsyms b). fold U.
    assert (Da : kdist (pterms (pext U (gp a)))) by (apply pext_dist; [apply Wa|apply sunion_incl1]).
    assert (Db : kdist (pterms (pext U (gp b)))) by (apply pext_dist; [apply Wb|apply sunion_incl2]).
    assert (La := pext_len U (gp a)). assert (Lb := pext_len U (gp b)).
    set (A := pterms (pext U (gp a))) in *. set (B := pterms (pext U (gp b))) in *.
    set (K' := map (expo W k) U) in *.
    assert (HK : kdeg K' = list_sum k) by (apply fits_kdeg; auto).
    assert (La' : forall t, In t A -> length (fst t) = length U).
    { intros t Ht. unfold klen in La. rewrite Forall_forall in La. apply La; auto. }
    assert (Lb' : forall t, In t B -> length (fst t) = length U).
    { intros t Ht. unfold klen in Lb. rewrite Forall_forall in Lb. apply Lb; auto. }
    set (meet := fun p : term K * term K => key_eqb (kplus (fst (fst p)) (fst (snd p))) K').
    assert (HM : forall ok : nat -> bool, filter (meets ok K') (list_prod A B) = if ok (list_sum k) then filter meet (list_prod A B) else []).
    { intros ok. destruct (ok (list_sum k)) eqn:Eo.
      - apply filter_ext_in. intros [t1 t2] Ht. apply in_prod_iff in Ht. destruct Ht as [Ht1 Ht2].
        unfold meets, meet. cbn [fst snd]. destruct (key_eqb _ K') eqn:E; [|apply andb_false_r].
        apply key_eqb_spec in E. rewrite <- kdeg_kplus by (rewrite La', Lb'; auto). rewrite E, HK, Eo. reflexivity.
      - destruct (filter _ _) as [|[t1 t2] r] eqn:E; auto. exfalso.
        assert (H : In (t1, t2) (filter (meets ok K') (list_prod A B))) by (rewrite E; left; auto).
        apply filter_In in H. destruct H as [H1 H2]. apply in_prod_iff in H1. destruct H1 as [Ht1 Ht2].
        unfold meets in H2. cbn [fst snd] in H2. apply andb_true_iff in H2. destruct H2 as [H2 H3].
        apply key_eqb_spec in H3. rewrite <- kdeg_kplus in H2 by (rewrite La', Lb'; auto). rewrite H3, HK, Eo in H2. discriminate. }
    rewrite HM. clear HM.
    exists (map (fun p => (snd (fst p), snd (snd p))) (filter meet (list_prod A B))). split.
    2:{ change (gord a) with (get_order a). change (gord b) with (get_order b). fold m. destruct (Nat.leb _ _); auto.
        rewrite map_map. reflexivity. }
    set (F := fun ij : key * key => (getd (tfind (fst ij) A), getd (tfind (snd ij) B))).
    set (kp := fun p : term K * term K => (fst (fst p), fst (snd p))).
    set (rp := fun ij : key * key => (map (expo W (fst ij)) U, map (expo W (snd ij)) U)).
    rewrite factors_map.
    assert (E1 : map (fun p : term K * term K => (snd (fst p), snd (snd p))) (filter meet (list_prod A B)) = map F (map kp (filter meet (list_prod A B)))).
    { rewrite map_map. apply map_ext_in. intros [[i c] [j d]] Ht. apply filter_In in Ht. destruct Ht as [Ht _].
      apply in_prod_iff in Ht. destruct Ht as [Ht1 Ht2]. apply tfind_In in Ht1, Ht2; auto.
      unfold F, kp. cbn [fst snd]. rewrite Ht1, Ht2. reflexivity. }
    assert (E2 : map (fun ij : key * key => (getd (stored a W (fst ij)), getd (stored b W (snd ij)))) (filter (bothb a b W) (splits k))
                 = map F (map rp (filter (bothb a b W) (splits k)))).
    { rewrite map_map. apply map_ext_in. intros [i j] Ht. apply filter_In in Ht. destruct Ht as [_ Ht].
      unfold bothb in Ht. cbn [fst snd] in *. rewrite Sa, Sb in *. unfold F, rp. cbn [fst snd].
      destruct (fits W i U), (fits W j U); cbn [is_some andb] in Ht; auto; try (rewrite ?andb_false_r in Ht; discriminate). }
    rewrite E2. refine (eq_ind_r (fun z => Permutation z _) _ E1). apply Permutation_map. apply NoDup_Permutation.
    - apply NoDup_map_filter. refine (eq_ind_r (fun z => NoDup z) _ (map_prod fst fst A B)). apply NoDup_prod; auto.
    - apply NoDup_map_on; [apply NoDup_filter, splits_NoDup|].
      intros [i j] [i' j'] H1 H2 E. apply filter_In in H1, H2. destruct H1 as [H1 G1], H2 as [H2 G2].
      unfold bothb in G1, G2. cbn [fst snd] in G1, G2. rewrite Sa, Sb in G1, G2. apply splits_kplus in H1, H2.
      destruct H1 as (X1 & X2 & _), H2 as (X3 & X4 & _).
      assert (G : forall x y, length x = length W -> length y = length W -> fits W x U = true -> fits W y U = true ->
                 map (expo W x) U = map (expo W y) U -> x = y).
      { intros x y N1 N2 F1 F2 EE. apply (expo_inj W); auto. intros s Hs. destruct (in_dec string_dec s U) as [Hu|Hu].
        - rewrite <- (expo_map U (expo W x) s Hu), EE. apply expo_map; auto.
        - rewrite !(fits_out W _ U) by auto. reflexivity. }
      unfold rp in E. cbn [fst snd] in E. injection E as EE1 EE2.
      destruct (fits W i U) eqn:F1, (fits W j U) eqn:F2, (fits W i' U) eqn:F3, (fits W j' U) eqn:F4;
        cbn [is_some andb] in G1, G2; try (rewrite ?andb_false_r in *; discriminate).
      f_equal; apply G; congruence.
    - intros [i' j']. rewrite !in_map_iff. split.
      + intros ([[x c] [y d]] & Ex & Ht). unfold kp in Ex. cbn [fst snd] in Ex. injection Ex as -> ->.
        apply filter_In in Ht. destruct Ht as [Ht Hm]. apply in_prod_iff in Ht. destruct Ht as [Ht1 Ht2].
        unfold meet in Hm. cbn [fst snd] in Hm. apply key_eqb_spec in Hm.
        assert (N1 := La' _ Ht1). assert (N2 := Lb' _ Ht2). cbn [fst] in N1, N2.
        assert (Hu : forall s, In s U -> (expo W k s = expo U i' s + expo U j' s)%nat).
        { intros s Hs. rewrite <- (expo_map U (expo W k) s Hs). fold K'. rewrite <- Hm. apply expo_kplus; auto. }
        assert (R1 : map (expo W (map (expo U i') W)) U = i').
        { etransitivity; [|apply (map_expo_id U i'); auto]. apply map_ext_in. intros s Hs.
          destruct (in_dec string_dec s W) as [Hw|Hw]; [apply expo_map; auto|].
          specialize (Hu s Hs). rewrite (expo_not_In W k s Hw) in Hu. rewrite (expo_not_In W _ s Hw). lia. }
        assert (R2 : map (expo W (map (expo U j') W)) U = j').
        { etransitivity; [|apply (map_expo_id U j'); auto]. apply map_ext_in. intros s Hs.
          destruct (in_dec string_dec s W) as [Hw|Hw]; [apply expo_map; auto|].
          specialize (Hu s Hs). rewrite (expo_not_In W k s Hw) in Hu. rewrite (expo_not_In W _ s Hw). lia. }
        exists (map (expo U i') W, map (expo U j') W). split; [exact (f_equal2 pair R1 R2)|].
        apply filter_In. split.
        * apply splits_kplus. rewrite !map_length. conjs; auto. apply (expo_inj W); auto.
          { apply kplus_length; apply map_length. }
          intros s Hs. rewrite expo_kplus by apply map_length. rewrite !expo_map by auto.
          destruct (in_dec string_dec s U) as [Hi|Hi]; [symmetry; auto|].
          rewrite !expo_not_In with (V := U) by auto. rewrite (fits_out W k U); auto.
        * unfold bothb. cbn [fst snd]. rewrite Sa, Sb, R1, R2.
          rewrite !out_fits.
          -- apply tfind_In in Ht1, Ht2; auto. fold A B. rewrite Ht1, Ht2. reflexivity.
          -- intros s Hs Hn. rewrite expo_map by auto. apply expo_not_In; auto.
          -- intros s Hs Hn. rewrite expo_map by auto. apply expo_not_In; auto.
      + intros ([i j] & Ex & Ht). unfold rp in Ex. cbn [fst snd] in Ex. injection Ex as <- <-.
        apply filter_In in Ht. destruct Ht as [Ht Hb]. unfold bothb in Hb. cbn [fst snd] in Hb. rewrite Sa, Sb in Hb. fold A B in Hb.
        destruct (fits W i U) eqn:F1, (fits W j U) eqn:F2; cbn [is_some andb] in Hb; try (rewrite ?andb_false_r in Hb; discriminate).
        destruct (tfind (map (expo W i) U) A) as [c|] eqn:T1, (tfind (map (expo W j) U) B) as [d|] eqn:T2; try discriminate.
        apply tfind_In in T1, T2; auto.
        exists ((map (expo W i) U, c), (map (expo W j) U, d)). split; [reflexivity|].
        apply filter_In. split; [apply in_prod_iff; auto|]. unfold meet. cbn [fst snd]. apply key_eqb_spec.
        apply (expo_inj U); auto; [apply kplus_length; apply map_length|apply map_length|].
        intros s Hs. rewrite expo_kplus by apply map_length. unfold K'. rewrite !expo_map by auto. symmetry. apply Hsp; auto.
  Qed.
End StoredMul.
