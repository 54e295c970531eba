(** * Substitution of several symbols, on formal polynomials (proof file). *)
From Coq Require Import String List Arith Bool Lia ZArith Setoid Morphisms Ring Field FunctionalExtensionality.
From Verif Require Import Ops Syms SymsFacts Poly PolyFacts Sem Den Gdual GdualFacts Spec CoefFacts ValueProofs.
Import ListNotations.

Lemma F2_length {A B} (R : A -> B -> Prop) a b : Forall2 R a b -> length a = length b.
Proof. induction 1; simpl; auto. Qed.

Section Compose.
  Context {K : Type} {o : Ops K} {fl : FieldLaws o}.
  Local Open Scope K_scope.
  Add Field KfieldCo : (fl_field (K:=K)).
  Notation sp := (sp K).

  Lemma sub0_eq (a b : K) : a - b = 0 -> a = b.
  Proof. intros H. transitivity (a - b + b); [ring|]. rewrite H. ring. Qed.
  Fixpoint msumV (V : list string) (m : mon) : nat :=
    match V with [] => 0%nat | v :: V' => (m v + msumV V' m)%nat end.
  (** degree and support of the terms *)
  Definition over (V : list string) (l : sp) : Prop :=
    forall t, In t l -> fst (snd t) = msumV V (snd (snd t)) /\ forall s, ~ In s V -> snd (snd t) s = 0%nat.
  Definition sok (s : string) (l : sp) : Prop := forall t, In t l -> (snd (snd t) s <= fst (snd t))%nat.

  (** ** One symbol *)
  Lemma ssubst_app s q a b : ssubst s q (a ++ b) = ssubst s q a ++ ssubst s q b.
  Proof. unfold ssubst. apply flat_map_app. Qed.
  Lemma ssubst_sadd s q (a b : sp) : ssubst s q (sadd a b) = sadd (ssubst s q a) (ssubst s q b).
  Proof. apply ssubst_app. Qed.
  Lemma ssubst_congr s (q q' l l' : sp) : seqv None q q' -> seqv None l l' -> seqv None (ssubst s q l) (ssubst s q' l').
  Proof.
    intros Eq [E]. constructor. intros F _. rewrite !Lf_ssubst.
    transitivity (Lf l (fun d m => Lf (spow q' (m s)) (fun d' m' => F ((d - m s) + d')%nat (monadd (mset m s 0) m')))).
    - apply Lf_ext. intros t _. apply (seqv_elim (spow_proper None _ _ Eq _ _ eq_refl)). simpl. tauto.
    - apply E. simpl. tauto.
  Qed.
  Lemma mset_add a b s : mset (monadd a b) s 0 = monadd (mset a s 0) (mset b s 0).
  Proof. extensionality t. unfold mset, monadd. destruct (String.eqb s t); auto. Qed.
  Lemma ssubst_mul s q (a b : sp) : sok s a -> sok s b ->
    seqv None (ssubst s q (smul a b)) (smul (ssubst s q a) (ssubst s q b)).
  Proof.
    intros Ha Hb. constructor. intros F _. rewrite Lf_ssubst, !Lf_smul, Lf_ssubst.
    apply Lf_ext. intros t Ht.
    transitivity (Lf b (fun d m => Lf (spow q (snd (snd t) s)) (fun d1 m1 =>
      Lf (spow q (m s)) (fun d2 m2 =>
        F ((fst (snd t) - snd (snd t) s) + d1 + ((d - m s) + d2))%nat
          (monadd (monadd (mset (snd (snd t)) s 0) m1) (monadd (mset m s 0) m2)))))).
    - apply Lf_ext. intros u Hu. specialize (Ha t Ht). specialize (Hb u Hu).
      unfold monadd at 1. rewrite (seqv_elim (spow_add None q (snd (snd t) s) (snd (snd u) s))) by (simpl; tauto).
      rewrite Lf_smul. apply Lf_ext_all. intros d1 m1. apply Lf_ext_all. intros d2 m2. f_equal.
      + unfold monadd. lia.
      + rewrite mset_add. rewrite !monadd_assoc. f_equal. rewrite <- !monadd_assoc. f_equal. apply monadd_comm.
    - rewrite Lf_swap. apply Lf_ext_all. intros d1 m1. rewrite Lf_ssubst. apply Lf_ext_all. intros d m.
      apply Lf_ext_all. intros d2 m2. reflexivity.
  Qed.
  Lemma ssubst_free s q (l : sp) : sfree s l -> seqv None (ssubst s q l) l.
  Proof.
    intros H. constructor. intros F _. rewrite Lf_ssubst. apply Lf_ext. intros t Ht.
    unfold sfree in H. rewrite Forall_forall in H. specialize (H t Ht). assert (H0 : (snd (snd t) : mon) s = 0%nat) by exact H. rewrite H0.
    cbn [spow]. unfold s1. rewrite Lf_scon. rewrite monadd_0_r.
    replace (mset (snd (snd t)) s 0) with (snd (snd t)).
    - replace (fst (snd t) - 0 + 0)%nat with (fst (snd t)) by lia. ring.
    - extensionality u. unfold mset. destruct (String.eqb_spec s u); subst; auto.
  Qed.
  Lemma ssubst_var s (q : sp) : seqv None (ssubst s q (svar s)) q.
  Proof.
    constructor. intros F _. rewrite Lf_ssubst. unfold svar. rewrite Lf_cons, Lf_nil. cbn [fst snd].
    replace (mon1 s s) with 1%nat by (unfold mon1; rewrite String.eqb_refl; auto).
    rewrite (seqv_elim (spow_1 None q)) by (simpl; tauto).
    replace (mset (mon1 s) s 0) with mon0.
    - rewrite (Lf_ext_all q _ F); [ring|]. intros d m. rewrite monadd_0_l. reflexivity.
    - extensionality u. unfold mset, mon1, mon0. destruct (String.eqb s u); auto.
  Qed.
  (** Substituting a polynomial without constant term keeps truncated equalities. *)
  Lemma ssubst_trunc n s (q l l' : sp) : vanish 1 q -> seqv (Some n) l l' -> seqv (Some n) (ssubst s q l) (ssubst s q l').
  Proof.
    intros Hq [E]. constructor. intros F HF. rewrite !Lf_ssubst. apply E. intros d m Hd.
    apply (vanish_pow1 q (m s) Hq). intros d' m' Hd'. apply HF. simpl in *. lia.
  Qed.
  Lemma vanish_ssubst k s (q l : sp) : vanish 1 q -> vanish k l -> vanish k (ssubst s q l).
  Proof.
    intros Hq Hl F HF. rewrite Lf_ssubst. apply Hl. intros d m Hd.
    apply (vanish_pow1 q (m s) Hq). intros d' m' Hd'. apply HF. lia.
  Qed.

  Lemma sok_free s (l : sp) : sfree s l -> sok s l.
  Proof. unfold sfree, sok. rewrite Forall_forall. intros H t Ht. assert (E : (snd (snd t) : mon) s = 0%nat) by exact (H t Ht). rewrite E. lia. Qed.
  Lemma sok_scon s c : sok s (scon c).
  Proof. intros t [<-|[]]. simpl. auto. Qed.
  Lemma sok_svar s t : sok s (svar t).
  Proof. intros u [<-|[]]. simpl. unfold mon1. destruct (String.eqb t s); auto. Qed.
  Lemma sok_smul s (a b : sp) : sok s a -> sok s b -> sok s (smul a b).
  Proof.
    intros Ha Hb t Ht. unfold smul in Ht. apply in_flat_map in Ht. destruct Ht as (x & Hx & Ht).
    apply in_map_iff in Ht. destruct Ht as (y & <- & Hy). cbn [fst snd]. unfold monadd.
    specialize (Ha x Hx). specialize (Hb y Hy). lia.
  Qed.
  Lemma sok_spow s (l : sp) n : sok s l -> sok s (spow l n).
  Proof. intros H. induction n; cbn [spow]; [apply sok_scon|apply sok_smul; auto]. Qed.
  Lemma sfree_svar s t : t <> s -> sfree s (svar (K:=K) t).
  Proof. intros H. repeat constructor. simpl. unfold mon1. destruct (String.eqb_spec t s); congruence. Qed.
  Lemma gden_free s (g : gdual K) : ~ In s (gsyms g) -> sfree s (gden (fun x => x) g).
  Proof.
    intros H. unfold sfree, gden, den, tden. rewrite Forall_map. apply Forall_forall. intros y _. cbn [snd].
    apply expo_not_In. auto.
  Qed.

  (** ** All the symbols of a list *)
  Fixpoint pp (V : list string) (G : list sp) (m : mon) : sp :=
    match V, G with v :: V', q :: G' => smul (spow q (m v)) (pp V' G' m) | _, _ => s1 end.
  Definition sev (V : list string) (G : list sp) (l : sp) : sp :=
    flat_map (fun t => smul (scon (fst t)) (pp V G (snd (snd t)))) l.
  Lemma Lf_sev V G l F : Lf (sev V G l) F = Lf l (fun _ m => Lf (pp V G m) F).
  Proof.
    unfold sev. induction l as [|t l IH]; cbn [flat_map]; auto. rewrite Lf_app, IH, Lf_cons, Lf_smul_scon. reflexivity.
  Qed.
  Lemma sev_sadd V G (a b : sp) : sev V G (sadd a b) = sadd (sev V G a) (sev V G b).
  Proof. apply flat_map_app. Qed.
  Lemma pp_congr tr V G G' m : Forall2 (seqv tr) G G' -> seqv tr (pp V G m) (pp V G' m).
  Proof.
    intros H. revert V. induction H as [|x y G G' E H IH]; intros [|v V]; cbn [pp]; try reflexivity.
    rewrite IH, E. reflexivity.
  Qed.
  Lemma sev_congr V G G' (l l' : sp) : Forall2 (seqv None) G G' -> seqv None l l' -> seqv None (sev V G l) (sev V G' l').
  Proof.
    intros HG [E]. constructor. intros F _. rewrite !Lf_sev.
    rewrite (Lf_ext_all l _ (fun _ m => Lf (pp V G' m) F)).
    - apply E. simpl. tauto.
    - intros d m. apply (seqv_elim (pp_congr None V G G' m HG)). simpl. tauto.
  Qed.
  Lemma pp_trunc_congr n V G G' (l : sp) : Forall2 (seqv (Some n)) G G' -> seqv (Some n) (sev V G l) (sev V G' l).
  Proof.
    intros HG. constructor. intros F HF. rewrite !Lf_sev. apply Lf_ext_all. intros d m.
    apply (seqv_elim (pp_congr (Some n) V G G' m HG)). exact HF.
  Qed.
  Lemma pp_vanish V G m : length G = length V -> Forall (vanish 1) G -> vanish (msumV V m) (pp V G m).
  Proof.
    revert G. induction V as [|v V IH]; intros [|q G] L H; cbn [pp msumV]; try discriminate; [apply vanish_0|].
    inversion H; subst. apply vanish_mul; [apply vanish_pow1; auto|apply IH; auto].
  Qed.
  Lemma over_trunc n V G (l l' : sp) : length G = length V -> Forall (vanish 1) G -> over V l -> over V l' ->
    seqv (Some n) l l' -> seqv (Some n) (sev V G l) (sev V G l').
  Proof.
    intros L HG O O' [E]. constructor. intros F HF. rewrite !Lf_sev.
    set (F' := fun d m => if Nat.leb d n then Lf (pp V G m) F else 0).
    assert (Q : forall l, over V l -> Lf l (fun _ m => Lf (pp V G m) F) = Lf l F').
    { clear - HF HG L fl. intros l O. apply Lf_ext. intros t Ht. unfold F'. destruct (O t Ht) as [D _].
      destruct (Nat.leb_spec (fst (snd t)) n) as [X|X]; auto. apply (pp_vanish V G (snd (snd t)) L HG).
      intros d m Hd. apply HF. simpl. lia. }
    rewrite (Q l O), (Q l' O'). apply E. intros d m Hd. unfold F'. simpl in Hd.
    destruct (Nat.leb_spec d n); auto. exfalso; lia.
  Qed.
  Lemma sev_vanish k V G (l : sp) : length G = length V -> Forall (vanish 1) G -> over V l -> vanish k l -> vanish k (sev V G l).
  Proof.
    intros L HG O Hl. destruct k as [|k]; [apply vanish_0|]. apply vanish_seqv. apply vanish_seqv in Hl.
    change s0 with (sev V G s0). apply over_trunc; auto. intros t [].
  Qed.

  (** The variables themselves. *)
  Lemma pp_vars V m tr : NoDup V -> (forall s, ~ In s V -> m s = 0%nat) -> seqv tr (pp V (map (svar (K:=K)) V) m) (smono m (msumV V m)).
  Proof.
    intros HN H0. apply seqv_full. revert m H0. induction V as [|v V IH]; intros m H0; cbn [pp map msumV].
    - replace m with mon0; [reflexivity|]. extensionality s. symmetry. apply H0. auto.
    - inversion HN as [|? ? Hnv HN']; subst.
      assert (E : seqv None (pp V (map (svar (K:=K)) V) m) (pp V (map (svar (K:=K)) V) (mset m v 0))).
      { assert (X : forall W G, ~ In v W -> seqv None (pp W G m) (pp W G (mset m v 0))).
        { clear - fl. induction W as [|w W IW]; intros [|g G] Hv; cbn [pp]; try reflexivity.
          rewrite <- IW by (intros I; apply Hv; right; auto).
          replace (mset m v 0 w) with (m w); [reflexivity|]. unfold mset. destruct (String.eqb_spec v w); auto.
          subst. exfalso. apply Hv. left; auto. }
        apply X; auto. }
      rewrite E, IH; auto.
      2:{ intros s Hs. unfold mset. destruct (String.eqb_spec v s); auto. apply H0. intros [|]; auto. }
      assert (P : seqv None (spow (svar (K:=K) v) (m v)) (smono (fun s => if String.eqb v s then m v else 0%nat) (m v))).
      { generalize (m v). induction n as [|n IHn]; cbn [spow].
        - constructor. intros F _. unfold s1. rewrite Lf_scon, Lf_smono. replace (fun s => if String.eqb v s then 0%nat else 0%nat) with mon0; [ring|].
          extensionality s. unfold mon0. destruct (String.eqb v s); auto.
        - rewrite IHn. constructor. intros F _. rewrite Lf_smul. unfold svar. rewrite Lf_cons, Lf_nil. cbn [fst snd].
          rewrite !Lf_smono. replace (monadd (mon1 v) (fun s => if String.eqb v s then n else 0%nat)) with (fun s => if String.eqb v s then S n else 0%nat).
          + simpl. ring.
          + extensionality s. unfold monadd, mon1. destruct (String.eqb v s); auto. }
      rewrite P. constructor. intros F _. rewrite Lf_smul, !Lf_smono. f_equal.
      + f_equal. clear - Hnv. induction V as [|w V IW]; cbn [msumV]; auto. rewrite IW by (intros I; apply Hnv; right; auto).
        f_equal. unfold mset. destruct (String.eqb_spec v w); auto. subst. exfalso. apply Hnv; left; auto.
      + extensionality s. unfold monadd, mset. destruct (String.eqb_spec v s); subst; lia.
  Qed.
  Lemma sev_vars V (l : sp) : NoDup V -> over V l -> seqv None (sev V (map (svar (K:=K)) V) l) l.
  Proof.
    intros HN O. constructor. intros F _. rewrite Lf_sev. apply Lf_ext. intros t Ht. destruct (O t Ht) as [D Z].
    rewrite (seqv_elim (pp_vars V (snd (snd t)) None HN Z)) by (simpl; tauto). rewrite Lf_smono, D. reflexivity.
  Qed.

  (** ** Sequential substitution *)
  Definition sseq (L : list (string * sp)) (l : sp) : sp := fold_left (fun acc p => ssubst (fst p) (snd p) acc) L l.
  Lemma sok_pp s V H m : Forall (sok s) H -> sok s (pp V H m).
  Proof.
    intros X. revert V. induction X as [|q H Hq X IH]; intros [|v V]; cbn [pp]; try apply sok_scon.
    apply sok_smul; auto. apply sok_spow; auto.
  Qed.
  Lemma ssubst_spow s q (l : sp) n : sok s l -> seqv None (ssubst s q (spow l n)) (spow (ssubst s q l) n).
  Proof.
    intros H. induction n; cbn [spow].
    - apply ssubst_free. repeat constructor.
    - rewrite ssubst_mul by auto using sok_spow. rewrite IHn. reflexivity.
  Qed.
  Lemma ssubst_pp s q V H m : Forall (sok s) H -> seqv None (ssubst s q (pp V H m)) (pp V (map (ssubst s q) H) m).
  Proof.
    intros X. revert V. induction X as [|x H Hx X IH]; intros [|v V]; cbn [pp map];
      try (apply ssubst_free; repeat constructor).
    rewrite ssubst_mul by auto using sok_spow, sok_pp. rewrite IH, ssubst_spow by auto. reflexivity.
  Qed.
  Lemma ssubst_sev s q V H (l : sp) : Forall (sok s) H -> seqv None (ssubst s q (sev V H l)) (sev V (map (ssubst s q) H) l).
  Proof.
    intros X. induction l as [|t l IH]; cbn [sev flat_map]; [reflexivity|].
    fold (sev V H l). fold (sev V (map (ssubst s q) H) l). rewrite ssubst_app. apply sadd_proper; auto.
    rewrite ssubst_mul by auto using sok_scon, sok_pp. rewrite ssubst_pp by auto.
    rewrite (ssubst_free s q (scon (fst t))) by (repeat constructor). reflexivity.
  Qed.
  Lemma sseq_congr L (l l' : sp) : seqv None l l' -> seqv None (sseq L l) (sseq L l').
  Proof.
    revert l l'. induction L as [|[s q] L IH]; intros l l' E; cbn [sseq fold_left fst snd]; auto.
    apply IH. apply ssubst_congr; auto. reflexivity.
  Qed.
  Lemma sseq_trunc n L (l l' : sp) : Forall (fun p => vanish 1 (snd p)) L -> seqv (Some n) l l' ->
    seqv (Some n) (sseq L l) (sseq L l').
  Proof.
    revert l l'. induction L as [|[s q] L IH]; intros l l' H E; cbn [sseq fold_left fst snd]; auto.
    inversion H; subst. apply IH; auto. apply ssubst_trunc; auto.
  Qed.
  Lemma sseq_sev_gen V (l : sp) : forall V2 G1 G2, length G2 = length V2 -> NoDup V2 ->
    Forall (fun q => Forall (fun s => sfree s q) V2) (G1 ++ G2) ->
    seqv None (sseq (combine V2 G2) (sev V (G1 ++ map (svar (K:=K)) V2) l)) (sev V (G1 ++ G2) l).
  Proof.
    induction V2 as [|s V2 IH]; intros G1 [|q G2] L HN HF; try discriminate; cbn [combine map]; [reflexivity|].
    inversion HN; subst. cbn [sseq fold_left fst snd].
    assert (S1 : seqv None (ssubst s q (sev V (G1 ++ svar s :: map (svar (K:=K)) V2) l)) (sev V ((G1 ++ [q]) ++ map (svar (K:=K)) V2) l)).
    { rewrite ssubst_sev.
      - apply sev_congr; [|reflexivity]. rewrite map_app, <- app_assoc. cbn [map app].
        apply Forall_app in HF. destruct HF as [HF1 HF2]. apply Forall2_app.
        + clear - HF1 fl. induction HF1 as [|g G1 Hg HF1 IH]; cbn [map]; constructor; auto.
          inversion Hg; subst. apply ssubst_free; auto.
        + constructor; [apply ssubst_var|].
          match goal with H : ~ In s V2 |- _ => revert H end. clear - fl. induction V2 as [|v V2 IH]; intros Hn; cbn [map]; constructor; auto.
          * apply ssubst_free. apply sfree_svar. intros ->. apply Hn; left; auto.
          * apply IH. intros I; apply Hn; right; auto.
      - apply Forall_app in HF. destruct HF as [HF1 HF2]. apply Forall_app. split.
        + eapply Forall_impl; [|exact HF1]. cbn. intros g Hg. inversion Hg; subst. apply sok_free; auto.
        + constructor; [apply sok_svar|]. rewrite Forall_map. apply Forall_forall. intros. apply sok_svar. }
    eapply transitivity; [apply sseq_congr; exact S1|].
    replace (G1 ++ q :: G2) with ((G1 ++ [q]) ++ G2) by (rewrite <- app_assoc; reflexivity).
    apply IH; auto. rewrite <- app_assoc. cbn [app]. eapply Forall_impl; [|exact HF]. cbn. intros g Hg. inversion Hg; auto.
  Qed.
  Lemma sseq_sev V G (l : sp) : length G = length V -> NoDup V -> over V l ->
    Forall (fun q => Forall (fun s => sfree s q) V) G -> seqv None (sseq (combine V G) l) (sev V G l).
  Proof.
    intros L HN O HF. eapply transitivity; [apply sseq_congr; symmetry; apply sev_vars; eassumption|].
    exact (sseq_sev_gen V l V [] G L HN HF).
  Qed.

  (** ** Gain of one degree: the Picard step *)
  Definition close (k : nat) (a b : sp) : Prop := vanish k (ssub a b).
  Section Ring.
    Variable tr : option nat.
    Add Ring springC : (sp_ring_theory tr) (setoid (seqv_equiv tr) (sp_ring_ext tr)).
    Lemma diff_mul (a b a' b' : sp) : seqv tr (ssub (smul a b) (smul a' b')) (sadd (smul a (ssub b b')) (smul (ssub a a') b')).
    Proof. ring. Qed.
    Lemma sub_zero (a b : sp) : seqv tr (ssub a b) s0 -> seqv tr a b.
    Proof. intros H. transitivity (sadd (ssub a b) b); [ring|]. rewrite H. ring. Qed.
    Lemma sub_zero' (a b : sp) : seqv tr a b -> seqv tr (ssub a b) s0.
    Proof. intros H. rewrite H. ring. Qed.
    Lemma sub_same (a : sp) : seqv tr (ssub a a) s0.
    Proof. ring. Qed.
  End Ring.
  Lemma close_seqv n (a b : sp) : close (S n) a b <-> seqv (Some n) a b.
  Proof. unfold close. rewrite vanish_seqv. split; [apply sub_zero|apply sub_zero']. Qed.
  Lemma vanish_all k (l l' : sp) : seqv None l l' -> vanish k l -> vanish k l'.
  Proof. intros E. apply (vanish_eqv None); auto. intros; exact I. Qed.
  Lemma close_mul u v k (a b a' b' : sp) : vanish u a -> vanish v b' -> close (u + k) a a' -> close (v + k) b b' ->
    close (u + v + k) (smul a b) (smul a' b').
  Proof.
    intros Ha Hb' Ca Cb. unfold close in *. eapply vanish_all; [symmetry; apply diff_mul|]. apply vanish_add.
    - replace (u + v + k)%nat with (u + (v + k))%nat by lia. apply vanish_mul; auto.
    - replace (u + v + k)%nat with (u + k + v)%nat by lia. apply vanish_mul; auto.
  Qed.
  Lemma close_refl k (a : sp) : close k a a.
  Proof. unfold close. apply (vanish_all k s0); [|apply vanish_s0]. symmetry. apply sub_same. Qed.
  Lemma close_pow k (a a' : sp) n : vanish 1 a -> vanish 1 a' -> close (1 + k) a a' -> close (n + k) (spow a n) (spow a' n).
  Proof.
    intros Ha Ha' C. induction n; cbn [spow]; [apply close_refl|].
    apply (close_mul 1 n k); auto using vanish_pow1.
  Qed.
  Lemma close_pp k V G G' m : length G = length V -> Forall (vanish 1) G -> Forall (vanish 1) G' ->
    Forall2 (close (1 + k)) G G' -> close (msumV V m + k) (pp V G m) (pp V G' m).
  Proof.
    intros L H H' C. revert V L. induction C as [|a a' G G' Ca C IH]; intros [|v V] L; try discriminate; cbn [pp msumV];
      [apply close_refl|]. inversion H; inversion H'; subst.
    assert (L' : length G' = length V) by (rewrite <- (F2_length _ _ _ C); simpl in L; lia).
    apply close_mul; auto using vanish_pow1, pp_vanish, close_pow.
  Qed.
  Lemma picard_gain k V G G' (l : sp) : length G = length V -> Forall (vanish 1) G -> Forall (vanish 1) G' ->
    Forall2 (seqv (Some k)) G G' -> over V l -> vanish 2 l -> seqv (Some (S k)) (sev V G l) (sev V G' l).
  Proof.
    intros L H H' C O Hl.
    assert (C' : Forall2 (close (1 + k)) G G').
    { clear - C fl. induction C; constructor; auto. apply close_seqv; auto. }
    constructor. intros F HF. rewrite !Lf_sev.
    apply (sub0_eq (Lf l (fun _ m => Lf (pp V G m) F)) (Lf l (fun _ m => Lf (pp V G' m) F))).
    set (D := fun (_ : nat) m => Lf (ssub (pp V G m) (pp V G' m)) F).
    transitivity (Lf l D).
    { unfold D. rewrite (Lf_ext_all l (fun _ m => Lf (ssub (pp V G m) (pp V G' m)) F)
        (fun d m => Lf (pp V G m) F + - (1) * Lf (pp V G' m) F)).
      - rewrite Lf_plus, Lf_scale. ring.
      - intros d m. rewrite Lf_ssub. ring. }
    transitivity (Lf l (fun d m => if Nat.leb 2 d then 0 else D d m)).
    - apply Lf_ext. intros t Ht. destruct (Nat.leb_spec 2 (fst (snd t))) as [X|X]; auto.
      destruct (O t Ht) as [E _]. unfold D. apply (close_pp k V G G' (snd (snd t)) L H H' C').
      intros d m Hd. apply HF. simpl. lia.
    - apply Hl. intros d m Hd. destruct (Nat.leb_spec 2 d); auto. exfalso; lia.
  Qed.
End Compose.
