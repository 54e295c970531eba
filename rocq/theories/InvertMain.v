(** * [invert_map] computes the inverse (proof file). *)
From Coq Require Import String List Arith Bool Lia ZArith Setoid Morphisms Ring Field FunctionalExtensionality DecimalString.
From Verif Require Import Ops Syms SymsFacts Poly PolyFacts Sem Den Gdual GdualFacts Functions FunStruct Spec CoefFacts CoreProofs
  CalcProofs ValueProofs MiscProofs Compose InvertMap SpecMaps MapProofs InvertSem InvertProofs.
Import ListNotations.

Lemma strings_eqb_spec a b : strings_eqb a b = true <-> a = b.
Proof.
  revert b. induction a as [|x a IH]; intros [|y b]; cbn [strings_eqb]; split; intros H; try discriminate; auto.
  - apply andb_true_iff in H. destruct H as [H1 H2]. apply String.eqb_eq in H1. apply IH in H2. congruence.
  - inversion H; subst. rewrite String.eqb_refl. apply IH. reflexivity.
Qed.
Lemma map_undsym l l' : (forall s, In s l -> exists t, s = dsym t) -> (forall s, In s l' -> exists t, s = dsym t) ->
  map undsym l = map undsym l' -> l = l'.
Proof.
  revert l'. induction l as [|x l IH]; intros [|y l'] H H' E; try discriminate; auto.
  inversion E as [[E1 E2]]. rewrite (IH l'); auto.
  - f_equal. destruct (H x (or_introl eq_refl)) as [t ->], (H' y (or_introl eq_refl)) as [t' ->]. simpl in E1. congruence.
  - intros; apply H; right; auto.
  - intros; apply H'; right; auto.
Qed.
Lemma map_fst_combine {A B} (V : list A) : forall (R : list B), length R = length V -> map fst (combine V R) = V.
Proof. induction V as [|v V IH]; intros [|q R] L; try discriminate; cbn [combine map fst]; auto. rewrite IH; auto. Qed.
Lemma expo_unit_key V : forall j, NoDup V -> (j < length V)%nat -> expo V (unit_key (length V) j) = mon1 (nth j V EmptyString).
Proof.
  intros j HN Hj. unfold unit_key. extensionality t. unfold mon1.
  assert (G : forall V a, NoDup V -> (a <= j)%nat -> (j < a + length V)%nat ->
     expo V (map (fun i => if Nat.eqb i j then 1%nat else 0%nat) (seq a (length V))) t = if String.eqb (nth (j - a) V EmptyString) t then 1%nat else 0%nat).
  { clear. induction V as [|v V IH]; intros a HN H1 H2; cbn [length] in *; [lia|]. cbn [seq map expo]. inversion HN; subst.
    destruct (Nat.eqb_spec a j) as [->|N].
    - rewrite Nat.sub_diag. cbn [nth]. destruct (String.eqb_spec v t); auto.
      assert (Z : forall W b, (j < b)%nat -> expo W (map (fun i => if Nat.eqb i j then 1%nat else 0%nat) (seq b (length W))) t = 0%nat).
      { clear. induction W as [|w W IH]; intros b Hb; auto. cbn [length seq map expo]. destruct (String.eqb w t).
        - destruct (Nat.eqb_spec b j); auto. lia.
        - apply IH. lia. }
      apply Z. lia.
    - replace (j - a)%nat with (S (j - S a)) by lia. cbn [nth]. rewrite <- IH by (auto; lia).
      destruct (String.eqb_spec v t) as [->|N']; auto.
      rewrite expo_not_In; auto. }
  rewrite (G V 0%nat) by (auto; lia). rewrite Nat.sub_0_r. reflexivity.
Qed.

Section Main.
  Context {K : Type} {o : Ops K} {fl : FieldLaws o} {la : Linalg K}.
  Local Open Scope K_scope.
  Add Field KfieldIm : (fl_field (K:=K)).
  Notation idK := (fun x : K => x).
  Notation gd := (gden idK).
  Notation sp := (sp K).
  #[local] Hint Resolve (@valid_gwf K o) (@valid_gnz K o) : gwf.

  Lemma at_In (A : list (gdual K)) i : (i < length A)%nat -> In (at_map A i) A.
  Proof. intros H. apply nth_In. auto. Qed.

  Lemma pden_combine (V : list string) : forall R : list (gdual K), pden (combine V R) = combine V (map gd R).
  Proof. unfold pden. induction V as [|v W IH]; intros [|q R]; cbn [combine map]; auto. rewrite IH. reflexivity. Qed.

  Section Good.
    Variable f : list (gdual K).
    Let n := length f.
    Let V := psyms (gp (at_map f 0)).
    Let order := gord (at_map f 0).
    Hypothesis Hv : Forall valid f.
    Hypothesis Hd : forall g s, In g f -> In s (psyms (gp g)) -> exists t, s = dsym t.
    Hypothesis Hn0 : n <> 0%nat.
    Hypothesis HO : forall g, In g f -> gord g = order.
    Hypothesis HS : forall g, In g f -> psyms (gp g) = V.
    Hypothesis HV : length V = n.

    Let H0 : In (at_map f 0) f.
    Proof. apply at_In. fold n. lia. Qed.
    Let HVs : ssorted V.
    Proof. rewrite Forall_forall in Hv. apply (valid_sorted _ (Hv _ H0)). Qed.
    Let HVn : NoDup V.
    Proof. apply ssorted_NoDup. exact HVs. Qed.
    Let Hvi i : (i < n)%nat -> valid (at_map f i).
    Proof. intros H. rewrite Forall_forall in Hv. apply Hv, at_In. exact H. Qed.
    Let ssd_V : map dsym (get_symbol_set (at_map f 0)) = V.
    Proof. apply dsym_undsym. intros s. apply Hd. exact H0. Qed.

    Lemma linear_rows : order <> 0%nat -> exists M, inv_linear V f = Ok M /\ length M = n /\
      forall i, (i < n)%nat -> valid (at_map M i) /\ gord (at_map M i) = 1%nat /\ gsyms (at_map M i) = V /\
        (forall F, Lf (gd (at_map M i)) F = Lf (gd (at_map f i)) (fun d m => if Nat.eqb d 1 then F d m else 0)).
    Proof.
      intros Ho. unfold inv_linear.
      assert (E : exists M, mapM (fun g => m <- extract_terms g 1;; extend_symbol_set V m) f = Ok M).
      { apply mapM_ok. intros g Hg. unfold extract_terms. rewrite (HO g Hg). destruct (Nat.ltb_spec order 1); [lia|]. cbn [rbind].
        rewrite <- ssd_V. apply extend_ok. }
      destruct E as [M E]. exists M. split; auto. apply mapM_inv in E. destruct E as [L E]. split; [exact L|].
      intros i Hi. specialize (E i gdefault gdefault Hi). fold (at_map f i) in E. fold (at_map M i) in E.
      destruct (extract_terms (at_map f i) 1) as [m|] eqn:Em; cbn [rbind] in E; [|discriminate].
      apply extract_den in Em; auto. destruct Em as (Vm & Om & Sm & Dm). apply extend_den in E; auto. destruct E as (Ve & Oe & Se & De).
      split; auto. split; [congruence|]. split.
      - rewrite Se, Sm. unfold gsyms. rewrite HS by (apply at_In; exact Hi). rewrite sset_self by auto. apply sunion_idem. auto.
      - intros F. rewrite (seqv_elim De) by (simpl; tauto). apply Dm.
    Qed.
    Lemma linear_matrix M : order <> 0%nat -> inv_linear V f = Ok M -> inv_matrix n M = Ok (linear_part V f).
    Proof.
      intros Ho E. destruct (linear_rows Ho) as (M' & E' & L & H). rewrite E in E'. inversion E'; subst M'. clear E'.
      unfold inv_matrix, linear_part.
      assert (R : forall i, (i < n)%nat -> mapM (fun j => find_cf (at_map M i) (unit_key n j)) (seq 0 n)
                    = Ok (map (fun s => coef (at_map f i) [s] [1%nat]) V)).
      { intros i Hi. destruct (H i Hi) as (Vm & Om & Sm & Dm).
        rewrite (mapM_map _ (fun j => coef (at_map f i) [nth j V EmptyString] [1%nat])).
        - f_equal. rewrite <- HV, <- (map_map (fun j => nth j V EmptyString) (fun s => coef (at_map f i) [s] [1%nat])), map_nth_seq. reflexivity.
        - intros j Hj. apply in_seq in Hj. rewrite find_cf_coef; auto with gwf.
          + f_equal. rewrite Sm. rewrite (coef_ext _ V (unit_key n j) [nth j V EmptyString] [1%nat]) by
              (auto with gwf; intros s; rewrite expo_single; rewrite <- HV, expo_unit_key by (auto; lia); reflexivity).
            assert (HN1 : NoDup [nth j V EmptyString]) by (constructor; [tauto|constructor]).
            rewrite (coef_Lf (at_map M i) _ _ V), (coef_Lf (at_map f i) _ _ V); auto with gwf.
            * rewrite Dm. apply Lf_ext_all. intros d m. unfold Fk, monb. change (kdeg [1%nat]) with 1%nat.
              destruct (Nat.eqb_spec d 1); reflexivity.
            * unfold gsyms. rewrite HS by (apply at_In; exact Hi). apply incl_refl.
            * rewrite Sm. apply incl_refl.
          + rewrite Sm, HV. unfold unit_key. rewrite map_length, seq_length. reflexivity.
          + rewrite list_sum_kdeg, (kdeg_ssum V) by (auto; unfold unit_key; rewrite map_length, seq_length, HV; reflexivity).
            rewrite Om. rewrite <- HV, expo_unit_key by (auto; lia).
            assert (X := over_svar (K:=K) V (nth j V EmptyString) HVn ltac:(apply nth_In; lia)).
            destruct (X _ (or_introl eq_refl)) as [X1 _]. cbn [fst snd] in X1. rewrite msumV_ssum in X1. rewrite <- X1. auto.
          + rewrite Om. unfold two32. simpl. lia. }
      assert (G : forall l l', length l' = length l -> (forall i, (i < length l)%nat ->
          mapM (fun j => find_cf (nth i l' gdefault) (unit_key n j)) (seq 0 n) = Ok (map (fun s => coef (nth i l gdefault) [s] [1%nat]) V)) ->
          mapM (fun m => mapM (fun j => find_cf m (unit_key n j)) (seq 0 n)) l' = Ok (map (fun g => map (fun s => coef g [s] [1%nat]) V) l)).
      { clear. induction l as [|x l IH]; intros [|y l'] L R; try discriminate; auto. cbn [mapM map].
        assert (R0 := R 0%nat ltac:(simpl; lia)). cbn [nth] in R0. rewrite R0. cbn [rbind nth]. rewrite (IH l'); auto. intros i Hi. apply (R (S i)). simpl. lia. }
      apply G; auto.
    Qed.
    Lemma nonlinear_rows : exists N, inv_nonlinear V order f = Ok N /\ length N = n /\
      forall i, (i < n)%nat -> valid (at_map N i) /\ (2 <= order -> gord (at_map N i) = order)%nat /\ gsyms (at_map N i) = V /\
        (forall F, Lf (gd (at_map N i)) F = Lf (gd (at_map f i)) (fun d m => if Nat.leb 2 d then F d m else 0)).
    Proof.
      unfold inv_nonlinear.
      assert (R : forall g, In g f -> exists r, fold_left (fun acc j => a <- acc;; t <- extract_terms g j;; Ok (gadd a t)) (seq 2 (order - 1)) (Ok (gconst 0)) = Ok r /\
        valid r /\ (2 <= order -> gord r = order)%nat /\ (forall s, In s (gsyms r) -> In s V) /\
        forall F, Lf (gd r) F = Lf (gd g) (fun d m => if Nat.leb 2 d then F d m else 0)).
      { intros g Hg. assert (Vg : valid g) by (rewrite Forall_forall in Hv; auto).
        destruct (nonlinear_fold g Vg (seq 2 (order - 1)) (gconst 0)) as (r & E & Vr & Or & Sr & Dr).
        - apply valid_const.
        - apply seq_NoDup.
        - intros j Hj. apply in_seq in Hj. rewrite (HO g Hg). lia.
        - exists r. split; auto. split; auto. split.
          { intros Ho. rewrite Or. replace (order - 1)%nat with (S (order - 2)) by lia. rewrite fold_max_seq by (simpl; lia). lia. }
          split.
          { intros s Hs. destruct (Sr s Hs) as [[]|X]. rewrite <- (HS g Hg). exact X. }
          intros F. rewrite Dr. rewrite (seqv_elim (gden_const idK None 0)) by (simpl; tauto). rewrite Lf_scon.
          transitivity (Lf (gd g) (fun d m => if existsb (Nat.eqb d) (seq 2 (order - 1)) then F d m else 0)); [ring|].
          rewrite (Lf_cut order) by (apply (den_sdle idK); rewrite <- (HO g Hg); apply gwf_dle_le; auto with gwf).
          rewrite (Lf_cut order (gd g) (fun d m => if Nat.leb 2 d then F d m else 0)) by (apply (den_sdle idK); rewrite <- (HO g Hg); apply gwf_dle_le; auto with gwf).
          apply Lf_ext_all. intros d m. destruct (Nat.leb_spec d order) as [L|L]; auto.
          destruct (Nat.leb_spec 2 d) as [L'|L'].
          + replace (existsb (Nat.eqb d) (seq 2 (order - 1))) with true; auto. symmetry. apply existsb_exists. exists d. split; [apply in_seq; lia|apply Nat.eqb_refl].
          + replace (existsb (Nat.eqb d) (seq 2 (order - 1))) with false; auto. symmetry. apply not_true_is_false. intros X.
            apply existsb_exists in X. destruct X as (x & Hx & E'). apply Nat.eqb_eq in E'. apply in_seq in Hx. lia. }
      assert (E : exists N, mapM (fun g => r <- fold_left (fun acc j => a <- acc;; t <- extract_terms g j;; Ok (gadd a t)) (seq 2 (order - 1)) (Ok (gconst 0));;
            extend_symbol_set V r) f = Ok N).
      { apply mapM_ok. intros g Hg. destruct (R g Hg) as (r & -> & _). cbn [rbind]. rewrite <- ssd_V. apply extend_ok. }
      destruct E as [N E]. exists N. split; auto. apply mapM_inv in E. destruct E as [L E]. split; [exact L|].
      intros i Hi. specialize (E i gdefault gdefault Hi). fold (at_map f i) in E. fold (at_map N i) in E.
      destruct (R _ (at_In f i Hi)) as (r & Er & Vr & Or & Sr & Dr). rewrite Er in E. cbn [rbind] in E.
      apply extend_den in E; auto. destruct E as (Ve & Oe & Se & De).
      split; auto. split; [rewrite Oe; auto|]. split.
      - rewrite Se, sset_self by auto. apply ssorted_ext; auto; [apply sunion_sorted; auto|]. intros s. rewrite sunion_In. split; [intros [X|X]; auto|auto].
      - intros F. rewrite (seqv_elim De) by (simpl; tauto). apply Dr.
    Qed.
    (** The components of the map: constant, linear and non linear parts. *)
    Lemma component N : inv_nonlinear V order f = Ok N -> forall i, (i < n)%nat ->
      seqv None (gd (at_map f i)) (sadd (scon (constant_cf (at_map f i)))
        (sadd (lin (entry (linear_part V f) i) (fun j => svar (nth j V EmptyString)) n) (gd (at_map N i)))).
    Proof.
      intros E i Hi. destruct nonlinear_rows as (N' & E' & L & H). rewrite E in E'. inversion E'; subst N'.
      destruct (H i Hi) as (_ & _ & _ & D). constructor. intros F _. rewrite (decompose (at_map f i) F) by auto.
      rewrite !Lf_sadd, Lf_scon, D, Lf_lin. unfold gsyms. rewrite HS by (apply at_In; exact Hi).
      transitivity (constant_cf (at_map f i) * F 0%nat mon0 + (sum_list (fun s => coef (at_map f i) [s] [1%nat] * F 1%nat (mon1 s)) V
        + Lf (gd (at_map f i)) (fun d m => if Nat.leb 2 d then F d m else 0))); [ring|].
      f_equal. f_equal. rewrite <- (map_nth_seq V EmptyString) at 1. rewrite sum_map, HV. apply sum_list_ext. intros j Hj. apply in_seq in Hj.
      unfold svar. rewrite Lf_cons, Lf_nil. cbn [fst snd]. unfold entry, linear_part.
      assert (X : nth i (map (fun g => map (fun s => coef g [s] [1%nat]) V) f) [] = map (fun s => coef (at_map f i) [s] [1%nat]) V).
      { rewrite (nth_indep _ [] ((fun g => map (fun s => coef g [s] [1%nat]) V) gdefault)) by (rewrite map_length; exact Hi).
        exact (map_nth (fun g => map (fun s => coef g [s] [1%nat]) V) f gdefault i). }
      rewrite X. rewrite (nth_indep _ 0 ((fun s => coef (at_map f i) [s] [1%nat]) EmptyString)) by (rewrite map_length; lia).
      rewrite (map_nth (fun s => coef (at_map f i) [s] [1%nat])). ring.
    Qed.
    Lemma nl_facts N : inv_nonlinear V order f = Ok N -> forall i, (i < n)%nat -> over V (gd (at_map N i)) /\ vanish 2 (gd (at_map N i)).
    Proof.
      intros E i Hi. destruct nonlinear_rows as (N' & E' & L & H). rewrite E in E'. inversion E'; subst N'.
      destruct (H i Hi) as (Vn & _ & Sn & D). split.
      - apply over_gd; auto with gwf. rewrite Sn. apply incl_refl.
      - intros F HF. rewrite D. apply Lf_zero. intros d m. destruct (Nat.leb_spec 2 d); auto.
    Qed.

    (** ** The Picard iterations *)
    Section Iter.
      Variables (Id N Minv Minv2 : list (gdual K)) (invm : list (list K)).
      Hypothesis Ho : order <> 0%nat.
      Hypothesis Hn10 : (n <= 10)%nat.
      Hypothesis Hfresh : forall s j, In s V -> (j < n)%nat -> s <> dp_name j.
      Hypothesis EId : inv_identity n order = Ok Id.
      Hypothesis EN : inv_nonlinear V order f = Ok N.
      Hypothesis EM : inv_minv "p" n order invm = Ok Minv.
      Hypothesis EM2 : inv_minv "pdummy" n order invm = Ok Minv2.
      Let P := map dp_name (seq 0 n).

      Record Inv (k : nat) (R : list (gdual K)) : Prop := {
        iv_len : length R = n;
        iv_all : forall j, (j < n)%nat -> valid (at_map R j) /\ gord (at_map R j) = order /\ incl (gsyms (at_map R j)) P /\ vanish 1 (gd (at_map R j));
        iv_fix : forall j, (j < n)%nat -> seqv (Some k) (gd (at_map R j))
                   (lin (ent invm j) (fun i => ssub (svar (dp_name i)) (sev V (map gd R) (gd (at_map N i)))) n)
      }.
      Lemma nth_gd (R : list (gdual K)) j : (j < length R)%nat -> nth j (map gd R) s0 = gd (at_map R j).
      Proof.
        intros H. rewrite (nth_indep _ s0 (gd gdefault)) by (rewrite map_length; exact H). exact (map_nth gd R gdefault j).
      Qed.
      Lemma Forall_at {X} (Q : X -> Prop) (R : list X) d m : length R = m -> (forall j, (j < m)%nat -> Q (nth j R d)) -> Forall Q R.
      Proof.
        clear. intros L H. apply Forall_forall. intros x Hx. destruct (In_nth R x d Hx) as (j & Hj & <-). apply H. lia.
      Qed.
      Let dp_P i : (i < n)%nat -> In (dp_name i) P.
      Proof. intros H. apply in_map_iff. exists i. split; auto. apply in_seq. lia. Qed.

      Lemma Inv_start : Inv 1 Minv.
      Proof.
        destruct (minv_rows "p" n order invm Minv Hn0 Ho EM) as [L H].
        assert (Vn : Forall (vanish 1) (map gd Minv)).
        { rewrite Forall_map. apply (Forall_at _ Minv gdefault n); auto. intros j Hj. destruct (H j Hj) as [_ _ _ D].
          eapply vanish_eqv; [symmetry; exact D|simpl; auto|]. apply lin_vanish. intros; apply vanish_svar. }
        constructor; auto.
        - intros j Hj. destruct (H j Hj) as [V1 O1 S1 D1]. split; auto. split; auto. split.
          + rewrite S1. intros s Hs. apply (fold_sunion_In dp_name) in Hs. destruct Hs as [[]|Hs]. exact Hs.
          + rewrite Forall_map in Vn. rewrite Forall_forall in Vn. apply Vn. apply at_In. lia.
        - intros j Hj. destruct (H j Hj) as [V1 O1 S1 D1]. rewrite (seqv_full (Some 1%nat) _ _ D1). apply lin_congr. intros i Hi.
          destruct (nl_facts N EN i Hi). change (dsym (String.append "p" (to_string i))) with (dp_name i).
          rewrite vanish_rest; auto; [|rewrite map_length; lia]. constructor. intros F _. rewrite Lf_ssub, Lf_s0. ring.
      Qed.

      Lemma Inv_step k R : (1 <= k)%nat -> (S k <= order)%nat -> Inv k R -> Inv (S k) (tcompose Minv2 (tsub Id (tcompose N R))).
      Proof.
        intros Hk1 Hk [LR HR HF].
        destruct (minv_rows "pdummy" n order invm Minv2 Hn0 Ho EM2) as [L2 H2].
        destruct (identity_rows n order Id Ho EId) as [LI HI].
        destruct nonlinear_rows as (N' & E' & LN & HN). rewrite EN in E'. inversion E'; subst N'. clear E'.
        assert (VR : Forall valid R) by (apply (Forall_at _ R gdefault n); auto; intros j Hj; apply (HR j Hj)).
        assert (FR : Forall (fun q => vanish 1 (gd q)) R) by (apply (Forall_at _ R gdefault n); auto; intros j Hj; apply (HR j Hj)).
        assert (N0 : (0 < n)%nat) by lia.
        (* N o R *)
        assert (SN : map dsym (get_symbol_set (at_map N 0)) = V).
        { destruct (HN 0%nat N0) as (_ & _ & SN0 & _). rewrite dsym_undsym; [exact SN0|]. intros s Hs.
          change (psyms (gp (at_map N 0))) with (gsyms (at_map N 0)) in Hs. rewrite SN0 in Hs. apply (Hd (at_map f 0) s H0). exact Hs. }
        assert (LSN : length (get_symbol_set (at_map N 0)) = n).
        { rewrite <- HV, <- SN. rewrite map_length. reflexivity. }
        set (T := tcompose N R).
        assert (LT : length T = n) by (unfold T; rewrite tcompose_length; auto).
        assert (HT : forall i, (i < n)%nat -> valid (at_map T i) /\ gord (at_map T i) = order /\ incl (gsyms (at_map T i)) P /\
                       vanish 2 (gd (at_map T i)) /\ seqv (Some order) (gd (at_map T i)) (sev V (map gd R) (gd (at_map N i)))).
        { intros i Hi. destruct (HN i Hi) as (Vi & Oi & Si & _). destruct (nl_facts N EN i Hi) as [Ov V2].
          unfold T. rewrite tcompose_nth by lia. rewrite SN.
          assert (FB := combine_Forall valid V R VR). assert (FV := combine_Forall (fun q => vanish 1 (gd q)) V R FR).
          assert (D : seqv (Some order) (gd (gseq (combine V R) (at_map N i))) (sev V (map gd R) (gd (at_map N i)))).
          { assert (G := gseq_den (combine V R) (at_map N i) Vi FB FV). rewrite Oi in G by lia. rewrite G. apply seqv_full.
            replace (pden (combine V R)) with (combine V (map gd R)).
            - apply sseq_sev; auto; [rewrite map_length; lia|]. rewrite Forall_map. apply (Forall_at _ R gdefault n); auto.
              intros j Hj. apply Forall_forall. intros s Hs. apply gden_free. intros X. apply (HR j Hj) in X. apply in_map_iff in X.
              destruct X as (i' & <- & Hi'). apply in_seq in Hi'. apply (Hfresh (dp_name i') i'); auto. lia.
            - symmetry. apply pden_combine. }
          split; [apply gseq_valid; auto|]. split; [rewrite gseq_ord; apply Oi; lia|]. split; [|split; auto].
          - intros s Hs. apply gseq_syms in Hs; auto. destruct Hs as [[A B]|([v q] & Hp & A)].
            + exfalso. apply B. rewrite Si in A. rewrite map_fst_combine by lia. exact A.
            + cbn [snd] in A. apply in_combine_r in Hp. destruct (In_nth R q gdefault Hp) as (j & Hj & <-). apply (HR j ltac:(lia)). exact A.
          - assert (X : vanish 2 (sev V (map gd R) (gd (at_map N i)))).
            { apply sev_vanish; auto; [rewrite map_length; lia|]. rewrite Forall_map. exact FR. }
            eapply vanish_eqv; [symmetry; exact D|intros d Hlt; unfold keep; lia|exact X]. }
        (* Id - N o R *)
        set (D := tsub Id T).
        assert (LD : length D = n) by (unfold D, tsub; rewrite map_length, seq_length; auto).
        assert (AD : forall i, (i < n)%nat -> at_map D i = gsub (at_map Id i) (at_map T i)).
        { intros i Hi. unfold D, tsub, at_map.
          rewrite (nth_indep _ gdefault ((fun i => gsub (nth i Id gdefault) (nth i T gdefault)) 0%nat)) by (rewrite map_length, seq_length; lia).
          rewrite (map_nth (fun i => gsub (nth i Id gdefault) (nth i T gdefault))). rewrite seq_nth by lia. reflexivity. }
        assert (HD : forall i, (i < n)%nat -> valid (at_map D i) /\ incl (gsyms (at_map D i)) P /\ vanish 1 (gd (at_map D i)) /\
                       seqv (Some order) (gd (at_map D i)) (ssub (svar (dp_name i)) (sev V (map gd R) (gd (at_map N i))))).
        { intros i Hi. rewrite (AD i Hi). destruct (HI i Hi) as (Vi & Oi & Si & Di). destruct (HT i Hi) as (Vt & Ot & St & Nt & Dt).
          assert (E : seqv None (gd (gsub (at_map Id i) (at_map T i))) (ssub (svar (dp_name i)) (gd (at_map T i)))).
          { rewrite (gden_sub idK) by auto with gwf. rewrite Di. reflexivity. }
          split; [apply valid_sub; auto|]. split; [|split].
          - rewrite gsyms_sub. intros s Hs. apply sunion_In in Hs. destruct Hs; auto.
          - eapply vanish_eqv; [symmetry; exact E|simpl; auto|]. apply vanish_sub; [apply vanish_svar|apply (vanish_le 1 2); auto].
          - rewrite (seqv_full (Some order) _ _ E). rewrite Dt. reflexivity. }
        assert (VD : Forall valid D) by (apply (Forall_at _ D gdefault n); auto; intros j Hj; apply (HD j Hj)).
        assert (FD : Forall (fun q => vanish 1 (gd q)) D) by (apply (Forall_at _ D gdefault n); auto; intros j Hj; apply (HD j Hj)).
        (* Minv2 o D *)
        set (V2 := map pd_name (seq 0 n)).
        assert (S2 : forall i, (i < n)%nat -> gsyms (at_map Minv2 i) = V2).
        { intros i Hi. rewrite (mr_syms _ _ _ _ _ (H2 i Hi)). apply (pd_sorted n). auto. }
        assert (N2 : NoDup V2) by (apply pd_NoDup; auto).
        assert (LV2 : length V2 = n) by (unfold V2; rewrite map_length, seq_length; auto).
        assert (SM : map dsym (get_symbol_set (at_map Minv2 0)) = V2).
        { rewrite dsym_undsym; [apply (S2 0%nat N0)|]. intros s Hs. change (psyms (gp (at_map Minv2 0))) with (gsyms (at_map Minv2 0)) in Hs.
          rewrite (S2 0%nat N0) in Hs. apply in_map_iff in Hs. destruct Hs as (j & <- & _). exists (String.append "pdummy" (to_string j)). reflexivity. }
        assert (LSM : length (get_symbol_set (at_map Minv2 0)) = n).
        { rewrite <- LV2, <- SM. rewrite map_length. reflexivity. }
        set (R' := tcompose Minv2 D).
        assert (LR' : length R' = n) by (unfold R'; rewrite tcompose_length; auto).
        assert (HR' : forall j, (j < n)%nat -> valid (at_map R' j) /\ gord (at_map R' j) = order /\ incl (gsyms (at_map R' j)) P /\
                        vanish 1 (gd (at_map R' j)) /\
                        seqv (Some order) (gd (at_map R' j)) (lin (ent invm j) (fun i => ssub (svar (dp_name i)) (sev V (map gd R) (gd (at_map N i)))) n)).
        { intros j Hj. destruct (H2 j Hj) as [Vi Oi Si Di].
          unfold R'. rewrite tcompose_nth by lia. rewrite SM.
          assert (FB := combine_Forall valid V2 D VD). assert (FV := combine_Forall (fun q => vanish 1 (gd q)) V2 D FD).
          assert (E : seqv (Some order) (gd (gseq (combine V2 D) (at_map Minv2 j))) (lin (ent invm j) (fun i => gd (at_map D i)) n)).
          { assert (G := gseq_den (combine V2 D) (at_map Minv2 j) Vi FB FV). rewrite Oi in G by lia. rewrite G. apply seqv_full.
            replace (pden (combine V2 D)) with (combine V2 (map gd D)).
            - rewrite sseq_sev; auto.
              + rewrite (sev_congr V2 (map gd D) (map gd D) _ (lin (ent invm j) (fun j => svar (nth j V2 EmptyString)) n)).
                * rewrite sev_lin. apply lin_congr. intros i Hi. rewrite sev_svar by (auto; rewrite ?map_length; lia). rewrite nth_gd by lia. reflexivity.
                * clear. induction (map gd D); constructor; auto. reflexivity.
                * rewrite Di. apply lin_congr. intros i Hi. unfold V2.
                  rewrite (nth_indep _ EmptyString (pd_name 0)) by (rewrite map_length, seq_length; auto).
                  rewrite map_nth, seq_nth by auto. reflexivity.
              + rewrite map_length; lia.
              + apply over_gd; auto with gwf. rewrite (S2 j Hj). apply incl_refl.
              + rewrite Forall_map. apply (Forall_at _ D gdefault n); auto.
                intros i Hi. apply Forall_forall. intros s Hs. apply gden_free. intros X. apply (HD i Hi) in X. apply in_map_iff in X.
                destruct X as (i' & <- & Hi'). apply in_seq in Hi'. apply in_map_iff in Hs. destruct Hs as (j' & E2 & Hj'). apply in_seq in Hj'.
                apply (pd_dp j' i'); auto; lia.
            - symmetry. apply pden_combine. }
          split; [apply gseq_valid; auto|]. split; [rewrite gseq_ord; auto|]. split; [|split].
          - intros s Hs. apply gseq_syms in Hs; auto. destruct Hs as [[A B]|([v q] & Hp & A)].
            + exfalso. apply B. rewrite (S2 j Hj) in A. rewrite map_fst_combine by lia. exact A.
            + cbn [snd] in A. apply in_combine_r in Hp. destruct (In_nth D q gdefault Hp) as (i & Hi & <-). apply (HD i ltac:(lia)). exact A.
          - eapply vanish_eqv; [symmetry; exact E|intros d Hlt; unfold keep; lia|]. apply lin_vanish. intros i Hi. apply (HD i Hi).
          - rewrite E. apply lin_congr. intros i Hi. apply (HD i Hi). }
        fold T. fold D. fold R'. constructor; auto.
        - intros j Hj. destruct (HR' j Hj) as (A1 & A2 & A3 & A4 & _). auto.
        - intros j Hj. rewrite <- nth_gd by lia.
          apply (picard_step k V (map gd R) (map gd R') (ent invm) (fun i => svar (dp_name i)) (fun i => gd (at_map N i)) n); auto.
          + rewrite map_length; lia.
          + rewrite map_length; lia.
          + rewrite Forall_map. exact FR.
          + rewrite Forall_map. apply (Forall_at _ R' gdefault n); auto. intros i Hi. apply (HR' i Hi).
          + apply nl_facts. exact EN.
          + intros i Hi. rewrite nth_gd by lia. apply HF. auto.
          + intros i Hi. rewrite nth_gd by lia. apply (seqv_le (S k) order); auto. apply (HR' i Hi).
      Qed.
      Lemma Inv_iter m : (S m <= order)%nat -> forall a, Inv (S m)
        (fold_left (fun retval (_ : nat) => tcompose Minv2 (tsub Id (tcompose N retval))) (seq a m) Minv).
      Proof.
        induction m as [|m IH]; intros Hm a; [apply Inv_start|].
        rewrite seq_S, fold_left_app. cbn [fold_left]. apply Inv_step; [lia|lia|]. apply IH. lia.
      Qed.
    End Iter.
  End Good.
End Main.
