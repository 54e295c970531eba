(** * Facts on symbol sets and exponent vectors (proof file, no model code) *)

From Coq Require Import String List Arith Bool Lia Sorting.Sorted Orders OrdersEx FunctionalExtensionality.
From Verif Require Import Syms.
Import ListNotations.

Definition slt (a b : string) : Prop := String.compare a b = Lt.

Lemma slt_trans a b c : slt a b -> slt b c -> slt a c.
Proof.
  intros H1 H2. unfold slt in *.
  exact (StrictOrder_Transitive (R:=String_as_OT.lt) a b c H1 H2).
Qed.

Lemma slt_irrefl a : ~ slt a a.
Proof. exact (StrictOrder_Irreflexive (R:=String_as_OT.lt) a). Qed.

Lemma scmp_eq a b : String.compare a b = Eq <-> a = b.
Proof.
  split; intros H.
  - apply String.compare_eq_iff in H. exact H.
  - subst. destruct (String.compare b b) eqn:E; auto; exfalso.
    + exact (slt_irrefl b E).
    + rewrite String.compare_antisym in E.
      destruct (String.compare b b) eqn:E'; simpl in E; try congruence. exact (slt_irrefl b E').
Qed.

Lemma scmp_gt a b : String.compare a b = Gt <-> slt b a.
Proof. unfold slt. rewrite String.compare_antisym. destruct (String.compare b a); simpl; split; congruence. Qed.

Definition ssorted (l : list string) : Prop := StronglySorted slt l.

Lemma ssorted_NoDup l : ssorted l -> NoDup l.
Proof.
  induction 1 as [|a l Hs IH Hf]; constructor; auto.
  intros Hin. rewrite Forall_forall in Hf. exact (slt_irrefl a (Hf a Hin)).
Qed.

Lemma sinsert_In s l x : In x (sinsert s l) <-> x = s \/ In x l.
Proof.
  induction l as [|a l IH]; simpl.
  - intuition.
  - destruct (String.compare s a) eqn:E; simpl.
    + apply scmp_eq in E. subst. intuition.
    + intuition.
    + rewrite IH. intuition.
Qed.

Lemma sinsert_sorted s l : ssorted l -> ssorted (sinsert s l).
Proof.
  induction 1 as [|a l Hs IH Hf]; simpl.
  - repeat constructor.
  - destruct (String.compare s a) eqn:E.
    + constructor; auto.
    + constructor.
      * constructor; auto.
      * constructor; auto. rewrite Forall_forall in *. intros x Hx.
        exact (slt_trans s a x E (Hf x Hx)).
    + constructor; auto. rewrite Forall_forall in *. intros x Hx.
      apply sinsert_In in Hx. destruct Hx as [->|Hx]; auto. apply scmp_gt; exact E.
Qed.

Lemma sunion_In a b x : In x (sunion a b) <-> In x a \/ In x b.
Proof.
  unfold sunion. induction a as [|s a IH]; simpl.
  - intuition.
  - rewrite sinsert_In, IH. intuition.
Qed.

Lemma sunion_sorted a b : ssorted b -> ssorted (sunion a b).
Proof.
  intros Hb. unfold sunion. induction a as [|s a IH]; simpl; auto. apply sinsert_sorted; auto.
Qed.

Lemma sset_sorted l : ssorted (sset l).
Proof. induction l; simpl; [constructor|apply sinsert_sorted; auto]. Qed.

Lemma sset_In l x : In x (sset l) <-> In x l.
Proof. induction l as [|a l IH]; simpl; [tauto|]. rewrite sinsert_In, IH. intuition. Qed.

Lemma ssorted_filter f l : ssorted l -> ssorted (filter f l).
Proof.
  induction 1 as [|a l Hs IH Hf]; simpl; [constructor|].
  destruct (f a); auto. constructor; auto.
  rewrite Forall_forall in *. intros x Hx. apply filter_In in Hx. apply Hf. tauto.
Qed.

(** Two sorted lists with the same elements are equal. *)
Lemma ssorted_ext a b : ssorted a -> ssorted b -> (forall x, In x a <-> In x b) -> a = b.
Proof.
  intros Ha. revert b. induction Ha as [|x a Hs IH Hf]; intros b Hb Hin.
  - destruct b as [|y b]; auto. exfalso. apply (proj2 (Hin y)). left; auto.
  - destruct b as [|y b].
    + exfalso. apply (proj1 (Hin x)). left; auto.
    + inversion Hb as [|? ? Hsb Hfb]; subst.
      rewrite Forall_forall in Hf, Hfb.
      assert (x = y).
      { destruct (proj1 (Hin x) (or_introl eq_refl)) as [->|Hx]; auto.
        destruct (proj2 (Hin y) (or_introl eq_refl)) as [->|Hy]; auto.
        exfalso. apply (slt_irrefl x). exact (slt_trans _ _ _ (Hf y Hy) (Hfb x Hx)). }
      subst y. f_equal. apply IH; auto.
      intros z. split; intros Hz.
      * destruct (proj1 (Hin z) (or_intror Hz)) as [->|]; auto.
        exfalso. exact (slt_irrefl z (Hf z Hz)).
      * destruct (proj2 (Hin z) (or_intror Hz)) as [->|]; auto.
        exfalso. exact (slt_irrefl z (Hfb z Hz)).
Qed.

Lemma sunion_comm a b : ssorted a -> ssorted b -> sunion a b = sunion b a.
Proof.
  intros. apply ssorted_ext; try (apply sunion_sorted; auto).
  intros x. rewrite !sunion_In. tauto.
Qed.

Lemma sunion_assoc a b c : ssorted c ->
  sunion a (sunion b c) = sunion (sunion a b) c.
Proof.
  intros. apply ssorted_ext; repeat apply sunion_sorted; auto.
  intros x. rewrite !sunion_In. tauto.
Qed.

Lemma sunion_incl_l a b : ssorted a -> ssorted b -> incl b a -> sunion a b = a.
Proof.
  intros. apply ssorted_ext; auto using sunion_sorted.
  intros x. rewrite sunion_In. split; [intros [|]|]; auto.
Qed.

Lemma sunion_idem a : ssorted a -> sunion a a = a.
Proof. intros. apply sunion_incl_l; auto. apply incl_refl. Qed.

Lemma sunion_nil_r a : ssorted a -> sunion a [] = a.
Proof. intros. apply sunion_incl_l; auto. constructor. intros x []. Qed.

(** ** Keys *)
Lemma key_eqb_spec a b : key_eqb a b = true <-> a = b.
Proof.
  revert b. induction a as [|x a IH]; intros [|y b]; simpl; try (split; congruence).
  rewrite andb_true_iff, Nat.eqb_eq, IH. split; [intros [-> ->]; auto|intros H; inversion H; auto].
Qed.

Lemma key_eqb_refl a : key_eqb a a = true.
Proof. apply key_eqb_spec; reflexivity. Qed.

Lemma key_eqb_false a b : key_eqb a b = false <-> a <> b.
Proof. rewrite <- not_true_iff_false, key_eqb_spec. tauto. Qed.

Lemma expo_not_In V k s : ~ In s V -> expo V k s = 0.
Proof.
  revert k. induction V as [|v V IH]; intros [|e k] H; simpl; auto.
  destruct (String.eqb_spec v s); [subst; exfalso; apply H; left; auto|].
  apply IH. intros Hin; apply H; right; auto.
Qed.

Lemma expo_map V f s : In s V -> expo V (map f V) s = f s.
Proof.
  induction V as [|v V IH]; simpl; [intros []|]. intros [->|H].
  - rewrite String.eqb_refl. reflexivity.
  - destruct (String.eqb_spec v s); [subst; auto|]. apply IH; auto.
Qed.

Lemma map_expo_id V k : NoDup V -> length k = length V -> map (expo V k) V = k.
Proof.
  revert k. induction V as [|v V IH]; intros [|e k] Hn Hl; simpl in *; try lia; auto.
  inversion Hn; subst. rewrite String.eqb_refl. f_equal.
  transitivity (map (expo V k) V); [|apply IH; auto].
  apply map_ext_in. intros s Hs. destruct (String.eqb_spec v s); auto. subst; contradiction.
Qed.

Lemma rekey_length V W k : length (rekey V W k) = length W.
Proof. unfold rekey. apply map_length. Qed.

Lemma rekey_same V k : NoDup V -> length k = length V -> rekey V V k = k.
Proof. apply map_expo_id. Qed.

Lemma expo_rekey V W k s : incl V W -> expo W (rekey V W k) s = expo V k s.
Proof.
  intros Hi. unfold rekey. destruct (in_dec string_dec s W) as [H|H].
  - apply expo_map; auto.
  - rewrite !expo_not_In; auto.
Qed.

Lemma expo_rekey_fun V W k : incl V W -> expo W (rekey V W k) = expo V k.
Proof. intros. extensionality s. apply expo_rekey; auto. Qed.

Lemma expo_inj V k k' : NoDup V -> length k = length V -> length k' = length V ->
  (forall s, In s V -> expo V k s = expo V k' s) -> k = k'.
Proof.
  intros Hn H1 H2 H. rewrite <- (map_expo_id V k), <- (map_expo_id V k'); auto.
  apply map_ext_in. exact H.
Qed.

Lemma rekey_inj V W k k' : NoDup V -> incl V W -> length k = length V -> length k' = length V ->
  rekey V W k = rekey V W k' -> k = k'.
Proof.
  intros Hn Hi H1 H2 H. apply (expo_inj V); auto. intros s Hs.
  rewrite <- (expo_rekey V W k), <- (expo_rekey V W k'), H; auto.
Qed.

Definition ssum (V : list string) (f : string -> nat) : nat := kdeg (map f V).

Lemma kdeg_ssum V k : NoDup V -> length k = length V -> kdeg k = ssum V (expo V k).
Proof. intros. unfold ssum. rewrite map_expo_id; auto. Qed.

Lemma ssum_ext V f g : (forall s, In s V -> f s = g s) -> ssum V f = ssum V g.
Proof. intros H. unfold ssum. f_equal. apply map_ext_in; auto. Qed.

Lemma ssum_zero V f : (forall s, In s V -> f s = 0) -> ssum V f = 0.
Proof.
  intros H. unfold ssum. induction V as [|v V IH]; simpl; auto.
  rewrite H by (left; auto). apply IH. intros; apply H; right; auto.
Qed.

Lemma ssum_app V V' f : ssum (V ++ V') f = ssum V f + ssum V' f.
Proof. unfold ssum. induction V; simpl; auto. rewrite IHV. lia. Qed.

Lemma ssum_plus V f g : ssum V (fun s => f s + g s) = ssum V f + ssum V g.
Proof. unfold ssum. induction V; simpl; auto. rewrite IHV. lia. Qed.

Lemma ssum_incl V W f : NoDup V -> NoDup W -> incl V W ->
  (forall s, ~ In s V -> f s = 0) -> ssum W f = ssum V f.
Proof.
  revert W f. induction V as [|v V IH]; intros W f HV HW Hi Hz.
  - apply ssum_zero. intros s _. apply Hz. intros [].
  - inversion HV as [|? ? Hnv HV']; subst.
    destruct (in_split v W) as (W1 & W2 & ->); [apply Hi; left; auto|].
    assert (HW' := NoDup_remove_1 _ _ _ HW). assert (Hnv' := NoDup_remove_2 _ _ _ HW).
    set (g := fun s => if String.eqb v s then 0 else f s).
    assert (E1 : ssum (W1 ++ W2) f = ssum (W1 ++ W2) g).
    { apply ssum_ext. intros s Hs. unfold g. destruct (String.eqb_spec v s); auto. subst; contradiction. }
    assert (E2 : ssum V f = ssum V g).
    { apply ssum_ext. intros s Hs. unfold g. destruct (String.eqb_spec v s); auto. subst; contradiction. }
    assert (E3 : ssum (W1 ++ W2) g = ssum V g).
    { apply IH; auto.
      - intros s Hs. assert (Hsw := Hi s (or_intror Hs)). apply in_app_or in Hsw.
        apply in_or_app. destruct Hsw as [|[->|]]; auto. contradiction.
      - intros s Hs. unfold g. destruct (String.eqb_spec v s); auto.
        apply Hz. intros [|]; auto. }
    change (ssum (v :: V) f) with (f v + ssum V f). rewrite E2, <- E3, <- E1, !ssum_app.
    change (ssum (v :: W2) f) with (f v + ssum W2 f). lia.
Qed.

Lemma kdeg_rekey V W k : NoDup V -> NoDup W -> incl V W -> length k = length V ->
  kdeg (rekey V W k) = kdeg k.
Proof.
  intros. rewrite (kdeg_ssum V k); auto. apply ssum_incl; auto.
  intros s Hs. apply expo_not_In; auto.
Qed.

Lemma kplus_length a b n : length a = n -> length b = n -> length (kplus a b) = n.
Proof.
  revert b n. induction a as [|x a IH]; intros [|y b] n H1 H2; simpl in *; try lia.
  destruct n; try lia. f_equal. apply IH; lia.
Qed.

Lemma expo_kplus V a b s : length a = length V -> length b = length V ->
  expo V (kplus a b) s = expo V a s + expo V b s.
Proof.
  revert a b. induction V as [|v V IH]; intros [|x a] [|y b] H1 H2; simpl in *; try lia.
  destruct (String.eqb v s); auto.
Qed.

Lemma kdeg_kplus a b : length a = length b -> kdeg (kplus a b) = kdeg a + kdeg b.
Proof.
  revert b. induction a as [|x a IH]; intros [|y b] H; simpl in *; try lia.
  rewrite IH by lia. lia.
Qed.

Lemma expo_zero V n s : expo V (repeat 0 n) s = 0.
Proof.
  revert n. induction V as [|v V IH]; intros [|n]; simpl; auto. destruct (String.eqb v s); auto.
Qed.

Lemma kdeg_zero n : kdeg (repeat 0 n) = 0.
Proof. induction n; simpl; auto. Qed.

Lemma kset_length V k s e : length (kset V k s e) = length k.
Proof.
  revert k. induction V as [|v V IH]; intros [|x k]; simpl; auto.
  destruct (String.eqb v s); simpl; auto.
Qed.

Lemma expo_kset V k s e t : length k = length V -> In s V ->
  expo V (kset V k s e) t = if String.eqb s t then e else expo V k t.
Proof.
  revert k. induction V as [|v V IH]; intros [|x k] Hl Hin; simpl in *; try lia; try tauto.
  destruct (String.eqb_spec v s).
  - subst v. simpl. destruct (String.eqb s t); auto.
  - simpl. destruct (String.eqb_spec v t).
    + subst v. destruct (String.eqb_spec s t); auto. congruence.
    + apply IH; try lia. destruct Hin; auto; contradiction.
Qed.

Lemma kset_not_In V k s e : ~ In s V -> kset V k s e = k.
Proof.
  revert k. induction V as [|v V IH]; intros [|x k] Hin; simpl in *; auto.
  destruct (String.eqb_spec v s); [subst; tauto|]. f_equal. apply IH. tauto.
Qed.

Lemma kdeg_kset V k s e : length k = length V -> In s V ->
  kdeg (kset V k s e) + expo V k s = kdeg k + e.
Proof.
  revert k. induction V as [|v V IH]; intros [|x k] Hl Hin; simpl in *; try lia.
  destruct (String.eqb_spec v s); simpl; [lia|].
  assert (Hk : kdeg (kset V k s e) + expo V k s = kdeg k + e)
    by (apply IH; [lia|destruct Hin; [contradiction|auto]]).
  unfold kdeg in *. lia.
Qed.

Lemma expo_le_kdeg V k s : expo V k s <= kdeg k.
Proof.
  revert k. induction V as [|v V IH]; intros [|x k]; simpl; try lia.
  destruct (String.eqb v s); simpl; try lia. specialize (IH k). unfold kdeg in *. lia.
Qed.

Lemma kdeg_0_inv k : kdeg k = 0 -> k = repeat 0 (length k).
Proof.
  induction k as [|x k IH]; simpl; auto. intros H. f_equal; [lia|].
  apply IH. unfold kdeg in *. lia.
Qed.

Lemma str_in_spec s l : str_in s l = true <-> In s l.
Proof.
  unfold str_in. rewrite existsb_exists. split.
  - intros (x & Hx & E). apply String.eqb_eq in E. subst; auto.
  - intros H. exists s. split; auto. apply String.eqb_refl.
Qed.
