(** * Proofs about Taylor maps: composition (proof file). *)
From Coq Require Import String List Arith Bool Lia ZArith Setoid Morphisms Ring Field FunctionalExtensionality.
From Verif Require Import Ops Syms SymsFacts Poly PolyFacts Sem Den Gdual GdualFacts Functions FunStruct Spec CoefFacts CoreProofs
  CalcProofs ValueProofs MiscProofs Compose InvertMap SpecMaps.
Import ListNotations.

Section Seq.
  Context {K : Type} {o : Ops K} {fl : FieldLaws o}.
  Local Open Scope K_scope.
  Add Field KfieldMp : (fl_field (K:=K)).
  Notation idK := (fun x : K => x).
  Notation gd := (gden idK).
  Notation sp := (sp K).
  #[local] Hint Resolve (@valid_gwf K o) (@valid_gnz K o) : gwf.

  Lemma valid_subs g s v : valid g -> valid v -> valid (gsubs g s v).
  Proof.
    intros Hg Hv. apply valid_iff. split; [apply gsubs_gwf; auto with gwf|].
    unfold gnz, gsubs. cbn [gp]. apply ptrim_nz, pfilter_nz, psubs_poly_nz.
  Qed.
  Lemma gd_subs g s v : gwf g -> gwf v -> seqv (Some (gord g)) (gd (gsubs g s v)) (ssubst s (gd v) (gd g)).
  Proof.
    intros Hg Hv. unfold gden, gsubs. cbn [gp].
    assert (Hs : swf (psubs_poly s (gp v) (gp g))) by (apply psubs_poly_swf; [apply Hg|apply Hv]).
    rewrite (den_ptrim idK) by (apply pfilter_swf; auto). rewrite (den_ptruncate idK) by auto.
    apply (den_psubs_poly idK); [apply Hg|apply Hv].
  Qed.
  Lemma subs_syms g s v x : valid g -> valid v -> In x (gsyms (gsubs g s v)) ->
    (In x (gsyms g) /\ x <> s) \/ In x (gsyms v).
  Proof.
    intros Hg Hv H. destruct (string_dec x s) as [->|N]; [right; apply (subs_symbols g s v); auto|].
    unfold gsyms, gsubs in H. cbn [gp] in H. rewrite ptrim_eq in H. cbn [psyms] in H.
    apply usyms_incl in H. cbn [ptruncate pfilter psyms] in H. destruct (psubs_poly_syms s (gp v) (gp g) x H) as [X|X]; [left|right]; auto.
  Qed.

  Definition gseq (L : list (string * gdual K)) (g : gdual K) : gdual K :=
    fold_left (fun a p => gsubs a (fst p) (snd p)) L g.
  Lemma fold_combine (B : list (gdual K)) : forall ss a, (length B <= length ss)%nat ->
    fold_left (fun tmp j => gsubs tmp (dsym (nth j ss EmptyString)) (nth j B gdefault)) (seq 0 (length B)) a
    = gseq (combine (map dsym ss) B) a.
  Proof.
    induction B as [|b B IH]; intros ss a L; cbn [length] in *.
    - destruct ss; reflexivity.
    - destruct ss as [|s ss]; [simpl in L; lia|]. cbn [seq fold_left map combine nth fst snd length] in *.
      cbn [gseq fold_left fst snd]. specialize (IH ss (gsubs a (dsym s) b)). unfold gseq in IH. rewrite <- IH by lia. rewrite <- seq_shift.
      generalize (seq 0 (length B)). intros l. generalize (gsubs a (dsym s) b). induction l as [|j l IHl]; intros x; cbn [map fold_left nth]; auto.
  Qed.
  Lemma gseq_valid L : forall g, valid g -> Forall (fun p => valid (snd p)) L -> valid (gseq L g).
  Proof.
    induction L as [|p L IH]; intros g Hg HL; cbn [gseq fold_left]; auto. inversion HL; subst. apply IH; auto using valid_subs.
  Qed.
  Lemma gseq_ord L : forall g, gord (gseq L g) = gord g.
  Proof. induction L as [|p L IH]; intros g; cbn [gseq fold_left]; auto. unfold gseq in IH. rewrite IH. reflexivity. Qed.
  Definition pden (L : list (string * gdual K)) : list (string * sp) := map (fun p => (fst p, gd (snd p))) L.
  Lemma gseq_den L : forall g, valid g -> Forall (fun p => valid (snd p)) L -> Forall (fun p => vanish 1 (gd (snd p))) L ->
    seqv (Some (gord g)) (gd (gseq L g)) (sseq (pden L) (gd g)).
  Proof.
    induction L as [|p L IH]; intros g Hg HL HV; cbn [gseq fold_left pden map sseq]; [reflexivity|].
    inversion HL; inversion HV; subst.
    assert (E := IH (gsubs g (fst p) (snd p)) (valid_subs _ _ _ Hg H1) H2 H6). unfold gseq, pden, sseq in *.
    change (gord (gsubs g (fst p) (snd p))) with (gord g) in E. rewrite E. cbn [fst snd].
    apply (sseq_trunc (gord g) (map (fun p => (fst p, gd (snd p))) L)); [|apply gd_subs; auto with gwf].
    rewrite Forall_map. exact H6.
  Qed.
  Lemma gseq_syms L : forall g x, valid g -> Forall (fun p => valid (snd p)) L -> In x (gsyms (gseq L g)) ->
    (In x (gsyms g) /\ ~ In x (map fst L)) \/ exists p, In p L /\ In x (gsyms (snd p)).
  Proof.
    induction L as [|p L IH]; intros g x Hg HL H; cbn [gseq fold_left map] in *; [left; split; auto|].
    inversion HL; subst. destruct (IH _ x (valid_subs _ (fst p) _ Hg H2) H3 H) as [[A B]|(q & Hq & A)].
    - apply subs_syms in A; auto. destruct A as [[A C]|A].
      + left. split; auto. intros [D|D]; auto.
      + right. exists p. split; auto. left; auto.
    - right. exists q. split; auto. right; auto.
  Qed.
  Lemma vanish_cc g : gwf g -> constant_cf g = 0 -> vanish 1 (gd g).
  Proof.
    intros Hg H. apply vanish_seqv. assert (E := ghat_vanish idK g). apply vanish_seqv in E.
    unfold ghat in E. rewrite <- (constant_cf_scc idK) in E by auto. cbn beta in E. rewrite H in E.
    rewrite <- E. constructor. intros F _. rewrite Lf_ssub, Lf_scon. ring.
  Qed.
  Lemma cc_vanish g : gwf g -> vanish 1 (gd g) -> constant_cf g = 0.
  Proof. intros Hg H. rewrite (constant_cf_scc idK) by auto. apply scc_vanish. auto. Qed.
  Lemma coef_high g W k : gwf g -> NoDup W -> length k = length W -> (gord g < list_sum k)%nat -> coef g W k = 0.
  Proof.
    intros Hg HW Hk L. rewrite (coef_Lf g W k (gsyms g)) by auto using incl_refl.
    rewrite (Lf_cut (gord g)) by (apply (den_sdle idK), gwf_dle_le; auto).
    apply Lf_zero. intros d m. rewrite list_sum_kdeg in L. unfold Fk, monb.
    destruct (Nat.leb_spec d (gord g)); auto. destruct (Nat.eqb_spec d (kdeg k)); [lia|reflexivity].
  Qed.

  (** The composition without truncation. *)
  Definition gcseq (L : list (string * gdual K)) (g : gdual K) : gdual K :=
    fold_left (fun a p => gcomp a (fst p) (snd p)) L g.
  Lemma gcseq_valid L : forall g, valid g -> Forall (fun p => valid (snd p)) L -> valid (gcseq L g).
  Proof.
    induction L as [|p L IH]; intros g Hg HL; cbn [gcseq fold_left]; auto. inversion HL; subst. apply IH; auto using gcomp_valid.
  Qed.
  Lemma gcomp_den g s v : gwf g -> gwf v -> seqv None (gd (gcomp g s v)) (ssubst s (gd v) (gd g)).
  Proof. intros Hg Hv. unfold gden, gcomp. cbn [gp]. apply (den_psubs_poly idK); [apply Hg|apply Hv]. Qed.
  Lemma gcseq_den L : forall g, valid g -> Forall (fun p => valid (snd p)) L -> seqv None (gd (gcseq L g)) (sseq (pden L) (gd g)).
  Proof.
    induction L as [|p L IH]; intros g Hg HL; cbn [gcseq fold_left pden map sseq]; [reflexivity|].
    inversion HL; subst. assert (E := IH _ (gcomp_valid g (fst p) _ Hg H1) H2). unfold gcseq, pden, sseq in *. rewrite E.
    apply sseq_congr. apply gcomp_den; auto with gwf.
  Qed.
  Lemma assign_update S vals (rho : string -> K) s x t : update (assign S vals rho) s x t = assign (s :: S) (x :: vals) rho t.
  Proof. unfold update. cbn [assign]. rewrite (String.eqb_sym t s). reflexivity. Qed.
  Lemma assign_out S vals (rho : string -> K) t : ~ In t S -> assign S vals rho t = rho t.
  Proof.
    revert vals. induction S as [|s S IH]; intros [|v vals] H; cbn [assign]; auto.
    destruct (String.eqb_spec s t); [subst; exfalso; apply H; left; auto|]. apply IH. intros X; apply H; right; auto.
  Qed.
  Lemma gcseq_value S : forall B g rho, valid g -> Forall valid B ->
    (forall b s, In b B -> In s S -> ~ In s (psyms (gp b))) ->
    value (gcseq (combine S B) g) rho = value g (assign S (map (fun b => value b rho) B) rho).
  Proof.
    induction S as [|s S IH]; intros B g rho Hg HB Hd; cbn [combine gcseq fold_left assign]; auto.
    destruct B as [|b B]; cbn [gcseq fold_left map]; auto. inversion HB; subst. cbn [fst snd].
    assert (E := IH B (gcomp g s b) rho (gcomp_valid g s b Hg H1) H2). unfold gcseq in E. rewrite E.
    - rewrite gcomp_value by auto. apply value_ext. intros t _. rewrite assign_update. cbn [assign].
      destruct (String.eqb_spec s t); auto. apply value_ext. intros u Hu. apply assign_out.
      intros X. apply (Hd b u); auto; [left|right]; auto.
    - intros b' s' Hb' Hs'. apply Hd; right; auto.
  Qed.

  Definition dnm (g : gdual K) : Prop := forall s, In s (psyms (gp g)) -> exists t, s = dsym t.
  Lemma dsym_undsym (g : gdual K) : dnm g -> map dsym (get_symbol_set g) = psyms (gp g).
  Proof.
    intros H. unfold get_symbol_set, dnm in *. induction (psyms (gp g)) as [|s l IH]; simpl; auto. rewrite IH.
    - f_equal. destruct (H s (or_introl eq_refl)) as [t ->]. reflexivity.
    - intros t Ht. apply H. right; auto.
  Qed.
  Lemma tcompose_nth A B i : (length B <= length (get_symbol_set (at_map A 0)))%nat -> (i < length A)%nat ->
    at_map (tcompose A B) i = gseq (combine (map dsym (get_symbol_set (at_map A 0))) B) (at_map A i).
  Proof.
    intros L Hi. unfold tcompose, at_map.
    rewrite (nth_indep _ gdefault (fold_left (fun tmp j => gsubs tmp (dsym (nth j (get_symbol_set (nth 0 A gdefault)) EmptyString)) (nth j B gdefault)) (seq 0 (length B)) gdefault)).
    - rewrite (map_nth (fun a => fold_left (fun tmp j => gsubs tmp (dsym (nth j (get_symbol_set (nth 0 A gdefault)) EmptyString)) (nth j B gdefault)) (seq 0 (length B)) a)).
      apply fold_combine. auto.
    - rewrite map_length. auto.
  Qed.
  Lemma tcompose_length (A B : list (gdual K)) : length (tcompose A B) = length A.
  Proof. unfold tcompose. apply map_length. Qed.
  Lemma combine_Forall {X Y} (P : Y -> Prop) (S : list X) (B : list Y) : Forall P B -> Forall (fun p => P (snd p)) (combine S B).
  Proof. intros H. apply Forall_forall. intros [x y] Hp. apply in_combine_r in Hp. rewrite Forall_forall in H. auto. Qed.

  (** C30 *)
  Lemma compose_spec (A B : list (gdual K)) i :
    Forall valid A -> Forall valid B -> (i < length A)%nat ->
    (forall s, In s (psyms (gp (at_map A 0))) -> exists t, s = dsym t) ->
    (length B <= length (psyms (gp (at_map A 0))))%nat ->
    (forall b s, In b B -> In s (psyms (gp (at_map A 0))) -> ~ In s (psyms (gp b))) ->
    (forall b, In b B -> constant_cf b = 0) ->
    valid (at_map (tcompose A B) i) /\ gord (at_map (tcompose A B) i) = gord (at_map A i) /\
    exists c, valid c /\
      (forall rho, value c rho = value (at_map A i) (assign (psyms (gp (at_map A 0))) (map (fun b => value b rho) B) rho)) /\
      forall W k, NoDup W -> length k = length W ->
        coef (at_map (tcompose A B) i) W k = if Nat.leb (list_sum k) (gord (at_map A i)) then coef c W k else 0.
  Proof.
    intros HA HB Hi Hn HL Hd Hc.
    assert (HL' : (length B <= length (get_symbol_set (at_map A 0)))%nat) by (unfold get_symbol_set; rewrite map_length; auto).
    rewrite tcompose_nth by auto. rewrite dsym_undsym by auto.
    set (V := psyms (gp (at_map A 0))) in *.
    assert (Va : valid (at_map A i)) by (rewrite Forall_forall in HA; apply HA; apply nth_In; auto).
    assert (FB := combine_Forall valid V B HB).
    assert (FV : Forall (fun p => vanish 1 (gd (snd p))) (combine V B)).
    { apply (combine_Forall (fun b => vanish 1 (gd b))). rewrite Forall_forall in *. intros b Hb. apply vanish_cc; auto with gwf. }
    split; [apply gseq_valid; auto|]. split; [apply gseq_ord|].
    exists (gcseq (combine V B) (at_map A i)). split; [apply gcseq_valid; auto|].
    split; [intros rho; apply gcseq_value; auto|].
    intros W k HW Hk. destruct (Nat.leb_spec (list_sum k) (gord (at_map A i))) as [L|L].
    - apply (seqv_coef (Some (gord (at_map A i)))); auto.
      + apply valid_gwf, gseq_valid; auto.
      + apply valid_gwf, gcseq_valid; auto.
      + rewrite gseq_den by auto. apply seqv_full. symmetry. apply gcseq_den; auto.
    - apply coef_high; auto; [apply valid_gwf, gseq_valid; auto|]. rewrite gseq_ord. auto.
  Qed.
End Seq.
