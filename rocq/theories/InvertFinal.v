(** * The properties of [invert_map] (proof file). *)
From Coq Require Import String Ascii List Arith Bool Lia ZArith Setoid Morphisms Ring Field FunctionalExtensionality DecimalString.
From Verif Require Import Ops Syms SymsFacts Poly PolyFacts Sem Den Gdual GdualFacts Functions FunStruct Spec CoefFacts CoreProofs
  CalcProofs ValueProofs MiscProofs Compose InvertMap SpecMaps MapProofs InvertSem InvertProofs InvertMain.
Import ListNotations.

Section Final.
  Context {K : Type} {o : Ops K} {fl : FieldLaws o} {la : Linalg K}.
  Local Open Scope K_scope.
  Add Field KfieldIf : (fl_field (K:=K)).
  Notation idK := (fun x : K => x).
  Notation gd := (gden idK).
  Notation sp := (sp K).
  #[local] Hint Resolve (@valid_gwf K o) (@valid_gnz K o) : gwf.

  Lemma gvar_p_ok prefix j order : (exists c r, prefix = String c r /\ c <> "d"%char) -> (Z.of_nat order < 4294967285)%Z ->
    exists d, gvar (K:=K) 0 (String.append prefix (to_string j)) order = Ok d.
  Proof.
    intros (c & r & -> & Hc) Ho. assert (G := gvar_spec (K:=K) 0 (String.append (String c r) (to_string j)) order).
    destruct (gvar 0 (String.append (String c r) (to_string j)) order) as [d|e]; eauto. exfalso. destruct e; auto.
    - destruct G as [G|(x & G)]; [lia|]. cbn [String.append] in G. inversion G. contradiction.
    - cbn [String.append] in G. discriminate.
  Qed.
  Lemma gvar_p_big prefix j order : (4294967285 <= Z.of_nat order)%Z -> gvar (K:=K) 0 (String.append prefix (to_string j)) order = Throw InvalidArgument.
  Proof. intros H. unfold gvar, check_order, two32. destruct (Z.leb_spec (4294967296 - 1 - 10) (Z.of_nat order)); [reflexivity|lia]. Qed.

  (** [f] is a map that invert_map accepts. *)
  Definition acceptable (f : list (gdual K)) : Prop :=
    f <> [] /\ (forall g, In g f -> get_order g = get_order (at_map f 0)) /\
    (forall g, In g f -> get_symbol_set g = get_symbol_set (at_map f 0)) /\
    length (get_symbol_set (at_map f 0)) = length f /\
    (1 <= get_order (at_map f 0))%nat /\ (Z.of_nat (get_order (at_map f 0)) < 4294967285)%Z /\
    (kabs (la_det (linear_part (psyms (gp (at_map f 0))) f)) <? 1 / kofZ 10000000000) = false.

  Lemma identity_ok n order : (Z.of_nat order < 4294967285)%Z -> exists Id, inv_identity (K:=K) n order = Ok Id.
  Proof.
    intros H. apply mapM_ok. intros i _. destruct (gvar_p_ok "p" i order) as [d ->]; auto; [exists "p"%char, EmptyString; split; auto; discriminate|].
    cbn [rbind]. rewrite <- (map_map (fun k => String.append "p" (to_string k)) dsym). apply extend_ok.
  Qed.
  Lemma minv_ok prefix n order invm : (exists c r, prefix = String c r /\ c <> "d"%char) -> (Z.of_nat order < 4294967285)%Z ->
    exists M, inv_minv (K:=K) prefix n order invm = Ok M.
  Proof. intros Hp H. apply mapM_ok. intros i _. apply row_fold_ok. intros j. apply gvar_p_ok; auto. Qed.

  Lemma invert_unfold (f : list (gdual K)) : Forall valid f -> (forall g s, In g f -> In s (psyms (gp g)) -> exists t, s = dsym t) ->
    (acceptable f /\ exists Id N Minv Minv2,
       inv_identity (length f) (gord (at_map f 0)) = Ok Id /\
       inv_nonlinear (psyms (gp (at_map f 0))) (gord (at_map f 0)) f = Ok N /\
       inv_minv "p" (length f) (gord (at_map f 0)) (la_inv (linear_part (psyms (gp (at_map f 0))) f)) = Ok Minv /\
       inv_minv "pdummy" (length f) (gord (at_map f 0)) (la_inv (linear_part (psyms (gp (at_map f 0))) f)) = Ok Minv2 /\
       invert_map f = Ok (fold_left (fun retval (_ : nat) => tcompose Minv2 (tsub Id (tcompose N retval)))
                  (seq 1 (gord (at_map f 0) - 1)) Minv)) \/
    (~ acceptable f /\ invert_map f = Throw InvalidArgument).
  Proof.
    intros Hv Hd. unfold invert_map.
    destruct (Nat.eqb_spec (length f) 0) as [E0|E0].
    { right. split; auto. intros (X & _). apply X. destruct f; auto. discriminate. }
    destruct (forallb (fun g => Nat.eqb (get_order g) (get_order (at_map f 0))) f) eqn:E1; cbn [negb].
    2:{ right. split; auto. intros (_ & X & _). rewrite <- not_true_iff_false in E1. apply E1. apply forallb_forall.
        intros g Hg. apply Nat.eqb_eq. auto. }
    destruct (forallb (fun g => strings_eqb (get_symbol_set g) (get_symbol_set (at_map f 0))) f) eqn:E2; cbn [negb].
    2:{ right. split; auto. intros (_ & _ & X & _). rewrite <- not_true_iff_false in E2. apply E2. apply forallb_forall.
        intros g Hg. apply strings_eqb_spec. auto. }
    destruct (Nat.eqb_spec (length (get_symbol_set (at_map f 0))) (length f)) as [E3|E3]; cbn [negb].
    2:{ right. split; auto. intros (_ & _ & _ & X & _). contradiction. }
    rewrite forallb_forall in E1, E2.
    assert (HO : forall g, In g f -> gord g = gord (at_map f 0)) by (intros g Hg; apply Nat.eqb_eq, (E1 g Hg)).
    assert (H0 : In (at_map f 0) f) by (apply at_In; lia).
    assert (HS : forall g, In g f -> psyms (gp g) = psyms (gp (at_map f 0))).
    { intros g Hg. apply map_undsym; [intros s; apply Hd; auto|intros s; apply Hd; auto|]. apply strings_eqb_spec, (E2 g Hg). }
    assert (HV : length (psyms (gp (at_map f 0))) = length f) by (unfold get_symbol_set in E3; rewrite map_length in E3; auto).
    assert (SD : map dsym (get_symbol_set (at_map f 0)) = psyms (gp (at_map f 0))) by (apply dsym_undsym; intros s; apply Hd; auto).
    rewrite SD. unfold get_order.
    destruct (Z.le_gt_cases 4294967285 (Z.of_nat (gord (at_map f 0)))) as [Eo|Eo].
    { right. split; [intros (_ & _ & _ & _ & _ & X & _); unfold get_order in X; lia|].
      unfold inv_identity. rewrite (mapM_throw _ _ InvalidArgument); [reflexivity| |destruct (length f); [contradiction|discriminate]].
      intros i _. rewrite gvar_p_big by auto. reflexivity. }
    destruct (identity_ok (length f) (gord (at_map f 0)) Eo) as [Id EId]. rewrite EId. cbn [rbind].
    destruct (Nat.eq_dec (gord (at_map f 0)) 0) as [Ez|Ez].
    { right. split; [intros (_ & _ & _ & _ & X & _); unfold get_order in X; lia|].
      unfold inv_linear. rewrite (mapM_throw _ _ InvalidArgument); [reflexivity| |intros ->; apply E0; reflexivity].
      intros g Hg. unfold extract_terms. rewrite (HO g Hg), Ez. reflexivity. }
    destruct (linear_rows f Hv Hd E0 HO HS HV Ez) as (M & EM & _). rewrite EM. cbn [rbind].
    destruct (nonlinear_rows f Hv Hd E0 HO HS HV) as (N & EN & _). rewrite EN. cbn [rbind].
    rewrite (linear_matrix f Hv Hd E0 HO HS HV M Ez EM). cbn [rbind]. unfold det_tol.
    destruct (kabs (la_det (linear_part (psyms (gp (at_map f 0))) f)) <? 1 / kofZ 10000000000) eqn:Ed.
    { right. split; auto. intros (_ & _ & _ & _ & _ & _ & X). rewrite X in Ed. discriminate. }
    left. set (im := la_inv (linear_part (psyms (gp (at_map f 0))) f)).
    destruct (minv_ok "p" (length f) (gord (at_map f 0)) im) as [Mi EMi]; auto; [exists "p"%char, EmptyString; split; auto; discriminate|].
    destruct (minv_ok "pdummy" (length f) (gord (at_map f 0)) im) as [Mi2 EMi2]; auto; [exists "p"%char, "dummy"%string; split; auto; discriminate|].
    rewrite EMi, EMi2. cbn [rbind]. split.
    - split; [intros ->; apply E0; reflexivity|]. split; [intros g Hg; apply HO; auto|]. split; [intros g Hg; apply strings_eqb_spec, (E2 g Hg)|].
      split; auto. unfold get_order. split; [lia|]. split; auto.
    - exists Id, N, Mi, Mi2. auto.
  Qed.

  Lemma affine_Lf c c0 s n W k : gwf c -> seqv (Some n) (gd c) (sadd (scon c0) (svar s)) ->
    NoDup W -> length k = length W -> (list_sum k <= n)%nat -> coef c W k = affine_coef c0 s W k.
  Proof.
    intros Hc E HW Hk Hn. rewrite (coef_Lf c W k (s :: gsyms c)) by (auto; intros x Hx; right; auto).
    rewrite (seqv_elim E).
    2:{ apply Fk_keep. rewrite <- list_sum_kdeg. exact Hn. }
    rewrite Lf_sadd, Lf_scon. unfold svar. rewrite Lf_cons, Lf_nil. cbn [fst snd].
    unfold affine_coef. rewrite list_sum_kdeg.
    assert (A : Fk (s :: gsyms c) W k 0%nat mon0 = if Nat.eqb (kdeg k) 0 then 1 else 0).
    { unfold Fk. replace (monb (s :: gsyms c) W k 0 mon0) with (Nat.eqb (kdeg k) 0); auto. apply eq_true_iff_eq. rewrite monb_spec, Nat.eqb_eq. split.
      - intros D. split; auto. split; auto. rewrite (kdeg_0_inv k D), Hk. clear. unfold mon0. induction W; simpl; auto. rewrite IHW. reflexivity.
      - intros (D & _). auto. }
    assert (B : Fk (s :: gsyms c) W k 1%nat (mon1 s) = if Nat.eqb (kdeg k) 1 && Nat.eqb (expo W k s) 1 then 1 else 0).
    { unfold Fk. replace (monb (s :: gsyms c) W k 1 (mon1 s)) with (Nat.eqb (kdeg k) 1 && Nat.eqb (expo W k s) 1); auto.
      apply eq_true_iff_eq. rewrite monb_spec, andb_true_iff, !Nat.eqb_eq. split.
      - intros [D X]. destruct (kdeg1_mon1 W k Hk HW D) as (w & Hw & Ew). rewrite Ew in X. unfold mon1 in X.
        destruct (String.eqb_spec w s); [subst w|discriminate]. split; auto. split.
        + rewrite <- Ew. apply map_expo_id; auto.
        + intros t _ Ht. unfold mon1. destruct (String.eqb_spec s t); auto. subst. contradiction.
      - intros (D & Em & Z). split; auto. destruct (in_dec string_dec s W) as [Hs|Hs].
        + rewrite <- Em. rewrite expo_map by auto. unfold mon1. rewrite String.eqb_refl. auto.
        + specialize (Z s (or_introl eq_refl) Hs). unfold mon1 in Z. rewrite String.eqb_refl in Z. discriminate. }
    rewrite A, B. destruct (Nat.eqb (kdeg k) 0), (Nat.eqb (kdeg k) 1 && Nat.eqb (expo W k s) 1); ring.
  Qed.

  Notation LV f := (psyms (gp (at_map f 0))).
  Definition ffull (V : list string) (f N : list (gdual K)) (i : nat) : sp :=
    sadd (lin (entry (linear_part V f) i) (fun j => svar (nth j V EmptyString)) (length f)) (gd (at_map N i)).

  (** What the iteration gives, on the level of power series. *)
  Lemma invert_sem (f r : list (gdual K)) : Forall valid f ->
    (forall g s, In g f -> In s (psyms (gp g)) -> exists t, s = dsym t) ->
    (length f <= 10)%nat ->
    (forall s j, In s (LV f) -> (j < length f)%nat -> s <> dp_name j) ->
    product_is_one (length f) (linear_part (LV f) f) (la_inv (linear_part (LV f) f)) ->
    invert_map f = Ok r ->
    acceptable f /\ NoDup (LV f) /\ length (LV f) = length f /\ (forall g, In g f -> psyms (gp g) = LV f) /\ length r = length f /\
    (forall j, (j < length f)%nat -> valid (at_map r j) /\ gord (at_map r j) = gord (at_map f 0) /\
       incl (gsyms (at_map r j)) (map dp_name (seq 0 (length f))) /\ vanish 1 (gd (at_map r j))) /\
    exists N, forall i, (i < length f)%nat ->
      over (LV f) (gd (at_map N i)) /\ vanish 2 (gd (at_map N i)) /\
      over (LV f) (ffull (LV f) f N i) /\
      seqv None (gd (at_map f i)) (sadd (scon (constant_cf (at_map f i))) (ffull (LV f) f N i)) /\
      seqv (Some (gord (at_map f 0))) (sev (LV f) (map gd r) (ffull (LV f) f N i)) (svar (dp_name i)).
  Proof.
    intros Hv Hd H10 Hfr Hinv E.
    destruct (invert_unfold f Hv Hd) as [[Acc (Id & N & Mi & Mi2 & EId & EN & EMi & EMi2 & E')]|[_ E']];
      rewrite E in E'; [|discriminate]. injection E' as Er. split; auto. destruct Acc as (A0 & A1 & A2 & A3 & A4 & A5 & A6).
    set (V := LV f) in *. set (im := la_inv (linear_part V f)) in *. unfold get_order in *.
    assert (HN0 : length f <> 0%nat) by (destruct f; [contradiction|discriminate]).
    assert (H0 : In (at_map f 0) f) by (apply at_In; lia).
    assert (HS : forall g, In g f -> psyms (gp g) = V).
    { intros g Hg. apply map_undsym; [intros s; apply Hd; auto|intros s; apply Hd; auto|]. apply (A2 g Hg). }
    assert (HV : length V = length f) by (unfold get_symbol_set in A3; rewrite map_length in A3; auto).
    assert (Ho : gord (at_map f 0) <> 0%nat) by lia.
    assert (HVn : NoDup V) by (apply ssorted_NoDup; rewrite Forall_forall in Hv; apply (valid_sorted _ (Hv _ H0))).
    assert (I := Inv_iter f Hv Hd HN0 A1 HS HV Id N Mi Mi2 im Ho H10 Hfr EId EN EMi EMi2 (gord (at_map f 0) - 1) ltac:(lia) 1%nat).
    fold V im in I. rewrite <- Er in I. replace (S (gord (at_map f 0) - 1)) with (gord (at_map f 0)) in I by lia.
    clear Er E. destruct I as [LR HR HF]. do 5 (split; auto). exists N. intros i Hi.
    destruct (nl_facts f Hv Hd HN0 A1 HS HV N EN i Hi) as [ON VN]. fold V in ON. split; auto. split; auto. split; [|split].
    - apply over_app; auto. unfold lin. intros t Ht. apply in_flat_map in Ht. destruct Ht as (j & Hj & Ht). apply in_seq in Hj.
      apply (over_smul V (scon (entry (linear_part V f) i j)) (svar (nth j V EmptyString))); auto using over_scon.
      apply over_svar; auto. apply nth_In. lia.
    - apply (component f Hv Hd HN0 A1 HS HV N EN i Hi).
    - apply (fixed_right (Some (gord (at_map f 0))) V (map gd r) (entry (linear_part V f)) (entry im) (fun i => svar (dp_name i)) (fun i => gd (at_map N i)) (length f) i); auto.
      + rewrite map_length; lia.
      + intros j Hj. rewrite nth_gd by lia. apply HF. auto.
  Qed.

  (** C31: the result is a right inverse. *)
  Lemma invert_right (f r : list (gdual K)) : Forall valid f ->
    (forall g s, In g f -> In s (psyms (gp g)) -> exists t, s = dsym t) ->
    (length f <= 10)%nat ->
    (forall s j, In s (LV f) -> (j < length f)%nat -> s <> dp_name j) ->
    product_is_one (length f) (linear_part (LV f) f) (la_inv (linear_part (LV f) f)) ->
    invert_map f = Ok r ->
    length r = length f /\
    forall i, (i < length f)%nat ->
      valid (at_map r i) /\ get_order (at_map r i) = get_order (at_map f i) /\ constant_cf (at_map r i) = 0 /\
      (forall s, In s (psyms (gp (at_map r i))) -> exists j, (j < length f)%nat /\ s = dp_name j) /\
      exists c, is_composition c (at_map f i) (LV f) r /\
        is_affine (get_order (at_map f i)) c (constant_cf (at_map f i)) (dp_name i).
  Proof.
    intros Hv Hd H10 Hfr Hinv E.
    destruct (invert_sem f r Hv Hd H10 Hfr Hinv E) as (Acc & HVn & HV & HS & LR & HR & N & HN).
    destruct Acc as (A0 & A1 & A2 & A3 & A4 & A5 & A6). set (V := LV f) in *. unfold get_order in *.
    split; auto. intros i Hi. destruct (HR i Hi) as (Vi & Oi & Si & Ni). destruct (HN i Hi) as (ON & VN & OF & Ef & R).
    assert (Oi' : gord (at_map f i) = gord (at_map f 0)) by (apply A1, at_In; auto).
    split; auto. split; [congruence|]. split; [apply cc_vanish; auto with gwf|]. split.
    { intros s Hs. apply Si in Hs. apply in_map_iff in Hs. destruct Hs as (j & <- & Hj). apply in_seq in Hj. exists j. split; auto. lia. }
    assert (VR : Forall valid r) by (apply (Forall_at _ r gdefault (length f)); auto; intros j Hj; apply (HR j Hj)).
    assert (Vf : valid (at_map f i)) by (rewrite Forall_forall in Hv; apply Hv, at_In; auto).
    assert (FB := combine_Forall valid V r VR).
    assert (Dis : forall b s, In b r -> In s V -> ~ In s (psyms (gp b))).
    { intros b s Hb Hs X. destruct (In_nth r b gdefault Hb) as (j & Hj & <-). apply (HR j ltac:(lia)) in X. apply in_map_iff in X.
      destruct X as (i' & <- & Hi'). apply in_seq in Hi'. apply (Hfr (dp_name i') i'); auto. lia. }
    exists (gcseq (combine V r) (at_map f i)). split; [split; [apply gcseq_valid; auto|intros rho; apply gcseq_value; auto]|].
    intros W k HW Hk Hn. rewrite Oi' in Hn. apply (affine_Lf _ _ _ (gord (at_map f 0))); auto; [apply valid_gwf, gcseq_valid; auto|].
    assert (OA : over V (sadd (scon (constant_cf (at_map f i))) (ffull V f N i))) by (apply over_app; auto using over_scon).
    rewrite (seqv_full (Some (gord (at_map f 0))) _ _ (gcseq_den _ _ Vf FB)), pden_combine.
    rewrite (seqv_full (Some (gord (at_map f 0))) _ _ (sseq_congr (combine V (map gd r)) _ _ Ef)).
    rewrite (seqv_full (Some (gord (at_map f 0))) _ _ (sseq_sev V (map gd r) _ ltac:(rewrite map_length; lia) HVn OA
         ltac:(rewrite Forall_map; apply (Forall_at _ r gdefault (length f)); auto; intros j Hj; apply Forall_forall; intros s Hs; apply gden_free; apply Dis; auto; apply at_In; lia))).
    rewrite sev_sadd. apply sadd_proper; [apply sev_scon|exact R].
  Qed.

  (** ... and a left inverse. *)
  Lemma dp_NoDup n : (n <= 10)%nat -> NoDup (map dp_name (seq 0 n)).
  Proof.
    intros H. assert (N := pd_NoDup n H). revert N. generalize (seq 0 n). clear. induction l as [|x l IH]; cbn [map]; intros N; constructor.
    - inversion N; subst. intros X. apply H1. apply in_map_iff in X. destruct X as (y & E & Hy). apply in_map_iff. exists y. split; auto.
      unfold pd_name, to_string. unfold dp_name in E. cbn [String.append] in *. injection E as E. rewrite E. reflexivity.
    - apply IH. inversion N; auto.
  Qed.
  Lemma sev_nth_gd V (F : list sp) (r : list (gdual K)) j : (j < length r)%nat -> nth j (map (fun b => sev V F (gd b)) r) s0 = sev V F (gd (at_map r j)).
  Proof. intros H. rewrite (nth_indep _ s0 (sev V F (gd gdefault))) by (rewrite map_length; auto). exact (map_nth (fun b => sev V F (gd b)) r gdefault j). Qed.

  Lemma invert_left (f r : list (gdual K)) : Forall valid f ->
    (forall g s, In g f -> In s (psyms (gp g)) -> exists t, s = dsym t) ->
    (length f <= 10)%nat ->
    (forall s j, In s (LV f) -> (j < length f)%nat -> s <> dp_name j) ->
    product_is_one (length f) (linear_part (LV f) f) (la_inv (linear_part (LV f) f)) ->
    product_is_one (length f) (la_inv (linear_part (LV f) f)) (linear_part (LV f) f) ->
    (forall g, In g f -> constant_cf g = 0) ->
    invert_map f = Ok r ->
    forall i, (i < length f)%nat ->
      exists c, is_composition c (at_map r i) (map dp_name (seq 0 (length f))) f /\
        is_affine (get_order (at_map r i)) c 0 (nth i (LV f) EmptyString).
  Proof.
    intros Hv Hd H10 Hfr Hinv Hinv2 Hc0 E.
    destruct (invert_sem f r Hv Hd H10 Hfr Hinv E) as (Acc & HVn & HV & HS & LR & HR & N & HN).
    destruct Acc as (A0 & A1 & A2 & A3 & A4 & A5 & A6). set (V := LV f) in *. unfold get_order in *.
    set (P := map dp_name (seq 0 (length f))) in *. intros i Hi.
    assert (HPn : NoDup P) by (apply dp_NoDup; auto).
    assert (LP : length P = length f) by (unfold P; rewrite map_length, seq_length; auto).
    destruct (HR i Hi) as (Vi & Oi & Si & Ni).
    assert (FB := combine_Forall valid P f Hv).
    assert (Dis : forall b s, In b f -> In s P -> ~ In s (psyms (gp b))).
    { intros b s Hb Hs X. rewrite (HS b Hb) in X. apply in_map_iff in Hs. destruct Hs as (j & <- & Hj). apply in_seq in Hj. apply (Hfr (dp_name j) j); auto. lia. }
    exists (gcseq (combine P f) (at_map r i)). split; [split; [apply gcseq_valid; auto|intros rho; apply gcseq_value; auto]|].
    intros W k HW Hk Hn. rewrite Oi in Hn. set (n := gord (at_map f 0)) in *.
    apply (affine_Lf _ _ _ n); auto; [apply valid_gwf, gcseq_valid; auto|].
    rewrite (seqv_full (Some n) _ _ (gcseq_den _ _ Vi FB)), pden_combine.
    assert (OR : forall j, (j < length f)%nat -> over P (gd (at_map r j))).
    { intros j Hj. destruct (HR j Hj) as (? & ? & ? & ?). apply over_gd; auto with gwf. }
    rewrite (seqv_full (Some n) _ _ (sseq_sev P (map gd f) _ ltac:(rewrite map_length; lia) HPn (OR i Hi)
         ltac:(rewrite Forall_map; apply Forall_forall; intros b Hb; apply Forall_forall; intros s Hs; apply gden_free; apply Dis; auto))).
    transitivity (svar (K:=K) (nth i V EmptyString)).
    2:{ constructor. intros F _. rewrite Lf_sadd, Lf_scon. ring. }
    assert (VF : Forall (vanish 1) (map gd f)).
    { rewrite Forall_map. rewrite Forall_forall in *. intros g Hg. apply vanish_cc; auto with gwf. }
    assert (Ef : forall j, (j < length f)%nat -> seqv None (gd (at_map f j)) (ffull V f N j)).
    { intros j Hj. destruct (HN j Hj) as (_ & _ & _ & X & _). rewrite X. rewrite Hc0 by (apply at_In; auto).
      constructor. intros F _. rewrite Lf_sadd, Lf_scon. ring. }
    assert (S := solve_unique V (map (fun b => sev P (map gd f) (gd b)) r) (map (svar (K:=K)) V)
              (entry (linear_part V f)) (entry (la_inv (linear_part V f))) (fun i => gd (at_map N i)) (length f) n HV HVn
              ltac:(rewrite map_length; auto) ltac:(rewrite map_length; auto)).
    rewrite <- sev_nth_gd by lia.
    assert (EV : nth i (map (svar (K:=K)) V) s0 = svar (nth i V EmptyString)).
    { rewrite (nth_indep _ s0 (svar EmptyString)) by (rewrite map_length; lia). apply map_nth. }
    rewrite <- EV. apply S; auto.
    - rewrite Forall_map. apply (Forall_at _ r gdefault (length f)); auto. intros j Hj. apply sev_vanish; auto.
      + rewrite map_length; lia.
      + apply OR; auto.
      + apply (HR j Hj).
    - rewrite Forall_map. apply Forall_forall. intros s _. intros F HF. unfold svar. rewrite Lf_cons, Lf_nil. cbn [fst snd]. rewrite HF by lia. ring.
    - intros j Hj. destruct (HN j Hj) as (? & ? & _). auto.
    - intros j Hj. fold (ffull V f N j). destruct (HN j Hj) as (_ & _ & OF & _ & R).
      rewrite (seqv_full (Some n) _ _ (sev_vars V (ffull V f N j) HVn OF)).
      rewrite <- (map_map gd (sev P (map gd f)) r).
      rewrite <- (seqv_full (Some n) _ _ (sev_sev P (map gd f) V (map gd r) (ffull V f N j))).
      transitivity (sev P (map gd f) (svar (K:=K) (dp_name j))).
      + apply over_trunc; auto.
        * rewrite map_length; lia.
        * apply over_sev. rewrite Forall_map. apply (Forall_at _ r gdefault (length f)); auto.
        * apply over_svar; auto. apply in_map. apply in_seq. lia.
      + assert (ND : nth j P EmptyString = dp_name j).
        { unfold P. rewrite (nth_indep _ EmptyString (dp_name 0)) by (rewrite map_length, seq_length; auto).
          rewrite map_nth, seq_nth by auto. reflexivity. }
        rewrite <- ND. rewrite sev_svar by (auto; try rewrite map_length; lia). rewrite nth_gd by auto. apply seqv_full. auto.
  Qed.

  (** ** Statements in terms of the specification. *)
  Lemma variables_LV (f : list (gdual K)) : variables f = LV f.
  Proof. destruct f; reflexivity. Qed.

  Lemma compose_thm (A B : list (gdual K)) i :
    Forall valid A -> Forall valid B -> (i < length A)%nat -> differentials (variables A) ->
    (length B <= length (variables A))%nat ->
    (forall b s, In b B -> In s (variables A) -> ~ In s (psyms (gp b))) ->
    (forall b, In b B -> constant_cf b = 0) ->
    valid (nth i (tcompose A B) gdefault) /\ get_order (nth i (tcompose A B) gdefault) = get_order (nth i A gdefault) /\
    exists c, is_composition c (nth i A gdefault) (variables A) B /\
      truncation_of (nth i (tcompose A B) gdefault) c (get_order (nth i A gdefault)).
  Proof.
    rewrite variables_LV. intros HA HB Hi Hn HL Hd Hc. destruct (compose_spec A B i HA HB Hi Hn HL Hd Hc) as (V & O & c & Vc & Ec & Tc).
    split; auto. split; auto. exists c. split; [split; auto|]. exact Tc.
  Qed.

  Lemma acceptable_spec (f : list (gdual K)) : (forall g, In g f -> differentials (psyms (gp g))) ->
    (acceptable f <-> invertible_map la_det f).
  Proof.
    intros Hd. unfold acceptable, invertible_map. rewrite variables_LV. split.
    - intros (A0 & A1 & A2 & A3 & A4 & A5 & A6).
      assert (H0 : In (at_map f 0) f) by (apply at_In; destruct f; [contradiction|simpl; lia]).
      assert (HS : forall g, In g f -> psyms (gp g) = LV f).
      { intros g Hg. apply map_undsym; [intros s; apply Hd; auto|intros s; apply Hd; auto|]. apply (A2 g Hg). }
      split; auto. split; [|split; auto].
      + intros g h Hg Hh. split; [rewrite (A1 g), (A1 h)|rewrite (HS g), (HS h)]; auto.
      + intros g Hg. rewrite (HS g Hg), (A1 g Hg). split; auto. unfold get_symbol_set in A3. rewrite map_length in A3. auto.
    - intros (A0 & A1 & A2 & A3).
      assert (H0 : In (at_map f 0) f) by (apply at_In; destruct f; [contradiction|simpl; lia]).
      destruct (A2 _ H0) as (B1 & B2 & B3).
      split; auto. split; [intros g Hg; apply (A1 g (at_map f 0)); auto|].
      split; [intros g Hg; unfold get_symbol_set; f_equal; apply (A1 g (at_map f 0)); auto|].
      unfold get_symbol_set at 1. rewrite map_length. auto.
  Qed.
  Lemma invert_accepts (f : list (gdual K)) : Forall valid f -> (forall g, In g f -> differentials (psyms (gp g))) ->
    (invertible_map la_det f -> exists r, invert_map f = Ok r) /\
    (~ invertible_map la_det f -> invert_map f = Throw InvalidArgument).
  Proof.
    intros Hv Hd. rewrite <- (acceptable_spec f Hd).
    destruct (invert_unfold f Hv (fun g s Hg Hs => Hd g Hg s Hs)) as [[A (Id & N & Mi & Mi2 & _ & _ & _ & _ & E)]|[A E]]; split; intros B; try contradiction; eauto.
  Qed.
  Lemma invert_right_thm (f r : list (gdual K)) : Forall valid f -> (forall g, In g f -> differentials (psyms (gp g))) ->
    (length f <= 10)%nat ->
    (forall j, (j < length f)%nat -> ~ In (dp_name j) (variables f)) ->
    product_is_one (length f) (linear_part (variables f) f) (la_inv (linear_part (variables f) f)) ->
    invert_map f = Ok r ->
    length r = length f /\
    forall i, (i < length f)%nat ->
      let fi := nth i f gdefault in let ri := nth i r gdefault in
      valid ri /\ get_order ri = get_order fi /\ constant_cf ri = 0 /\
      (forall s, In s (psyms (gp ri)) -> exists j, (j < length f)%nat /\ s = dp_name j) /\
      exists c, is_composition c fi (variables f) r /\ is_affine (get_order fi) c (constant_cf fi) (dp_name i).
  Proof.
    rewrite variables_LV. intros Hv Hd H10 Hfr Hinv E.
    apply (invert_right f r Hv (fun g s Hg Hs => Hd g Hg s Hs) H10); auto. intros s j Hs Hj ->. apply (Hfr j); auto.
  Qed.
  Lemma invert_left_thm (f r : list (gdual K)) : Forall valid f -> (forall g, In g f -> differentials (psyms (gp g))) ->
    (length f <= 10)%nat ->
    (forall j, (j < length f)%nat -> ~ In (dp_name j) (variables f)) ->
    product_is_one (length f) (linear_part (variables f) f) (la_inv (linear_part (variables f) f)) ->
    product_is_one (length f) (la_inv (linear_part (variables f) f)) (linear_part (variables f) f) ->
    (forall g, In g f -> constant_cf g = 0) ->
    invert_map f = Ok r ->
    forall i, (i < length f)%nat ->
      let ri := nth i r gdefault in
      exists c, is_composition c ri (map dp_name (seq 0 (length f))) f /\
        is_affine (get_order ri) c 0 (nth i (variables f) EmptyString).
  Proof.
    rewrite variables_LV. intros Hv Hd H10 Hfr Hinv Hinv2 H0 E.
    apply (invert_left f r Hv (fun g s Hg Hs => Hd g Hg s Hs) H10); auto. intros s j Hs Hj ->. apply (Hfr j); auto.
  Qed.
End Final.
