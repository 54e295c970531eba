(** * The conversions of the Python bindings (proof file) *)
From Coq Require Import FunctionalExtensionality String List Arith Bool ZArith Lia Permutation Sorting.Sorted.
From Verif Require Import Ops Syms SymsFacts Poly Gdual Serial PyBind.
Import ListNotations.

Section Py.
  Context {K : Type} {oK : Ops K}.
  Section V.
    Context {V : Type}.
    Implicit Types l m : list (string * V).
    Definition keys l : list string := map fst l.
    Lemma insert_perm (e : string * V) l : Permutation (e :: l) (insert_item e l).
    Proof.
      induction l as [|x l IH]; cbn; auto. destruct (String.compare _ _); auto.
      eapply perm_trans; [apply perm_swap|]. constructor. exact IH.
    Qed.
    Lemma sort_perm l : Permutation l (sort_items l).
    Proof. induction l as [|e l IH]; cbn; auto. eapply perm_trans; [constructor; exact IH|apply insert_perm]. Qed.
    Lemma insert_sorted (e : string * V) l : ~ In (fst e) (keys l) -> ssorted (keys l) -> ssorted (keys (insert_item e l)).
    Proof.
      unfold keys, ssorted. induction l as [|x l IH]; intros N S; cbn.
      - repeat constructor.
      - cbn in N, S. inversion S as [|? ? S' F]; subst. destruct (String.compare (fst e) (fst x)) eqn:E; cbn.
        + apply scmp_eq in E. exfalso. apply N. auto.
        + constructor; [exact S|]. constructor; [exact E|]. rewrite Forall_forall in *. intros y Hy. exact (slt_trans _ _ _ E (F y Hy)).
        + constructor; [apply IH; auto|]. rewrite Forall_forall in *. intros y Hy. apply in_map_iff in Hy. destruct Hy as (p & <- & Hp).
          apply (Permutation_in _ (Permutation_sym (insert_perm e l))) in Hp. destruct Hp as [->|Hp]; [apply scmp_gt; exact E|apply F, in_map; auto].
    Qed.
    Lemma sort_sorted l : NoDup (keys l) -> ssorted (keys (sort_items l)).
    Proof.
      induction l as [|e l IH]; intros H; cbn; [constructor|]. inversion H; subst. apply insert_sorted; [|apply IH; auto].
      intros Hin. apply (Permutation_in _ (Permutation_map fst (Permutation_sym (sort_perm l)))) in Hin. auto.
    Qed.
    Lemma sorted_unique l m : ssorted (keys l) -> ssorted (keys m) -> Permutation l m -> l = m.
    Proof.
      revert m. induction l as [|x l IH]; intros m Sl Sm P.
      - apply Permutation_nil in P. auto.
      - destruct m as [|y m]; [apply Permutation_sym, Permutation_nil in P; discriminate|].
        cbn in Sl, Sm. inversion Sl as [|? ? Sl' Fl]; inversion Sm as [|? ? Sm' Fm]; subst. rewrite Forall_forall in Fl, Fm.
        assert (E : x = y).
        { assert (Hx : In x (y :: m)) by (apply (Permutation_in _ P); left; auto). assert (Hy : In y (x :: l)) by (apply (Permutation_in _ (Permutation_sym P)); left; auto).
          destruct Hx as [|Hx]; auto. destruct Hy as [|Hy]; auto. exfalso.
          apply (slt_irrefl (fst x)). eapply slt_trans; [apply Fl, in_map, Hy|apply Fm, in_map, Hx]. }
        subst y. f_equal. apply IH; auto. apply Permutation_cons_inv in P. auto.
    Qed.
    Lemma sort_items_perm l m : NoDup (keys l) -> Permutation l m -> sort_items l = sort_items m.
    Proof.
      intros N P. apply sorted_unique.
      - apply sort_sorted; auto.
      - apply sort_sorted. eapply Permutation_NoDup; [apply Permutation_map; exact P|auto].
      - eapply perm_trans; [apply Permutation_sym, sort_perm|]. eapply perm_trans; [exact P|apply sort_perm].
    Qed.
    Lemma dfind_in s v l : NoDup (keys l) -> (dfind s l = Some v <-> In (s, v) l).
    Proof.
      induction l as [|[x a] l IH]; intros N; cbn; [split; [discriminate|tauto]|]. cbn in N. inversion N; subst. destruct (String.eqb_spec x s) as [->|E].
      - split; intros H.
        + left. congruence.
        + destruct H as [H|H]; [congruence|]. exfalso. apply H1. change s with (fst (s, v)). apply in_map. auto.
      - rewrite IH by auto. split; [tauto|]. intros [H|H]; [congruence|auto].
    Qed.
    Lemma dfind_perm s l m : NoDup (keys l) -> Permutation l m -> dfind s l = dfind s m.
    Proof.
      intros N P. assert (Nm : NoDup (keys m)) by (eapply Permutation_NoDup; [apply Permutation_map; exact P|auto]).
      destruct (dfind s m) as [v|] eqn:E.
      - apply dfind_in; auto. apply dfind_in in E; auto. apply (Permutation_in _ (Permutation_sym P)). auto.
      - destruct (dfind s l) as [v|] eqn:E'; auto. apply dfind_in in E'; auto. apply (Permutation_in _ P) in E'. apply dfind_in in E'; auto. congruence.
    Qed.
  End V.
  Definition item (e : string * K) : pyobj K * pyobj K := (PyStr (fst e), PyFloat (snd e)).
  Lemma cast_items_ok (l : list (string * K)) : cast_items (map item l) = Ok l.
  Proof. induction l as [|[s x] l IH]; cbn; auto. rewrite IH. reflexivity. Qed.
  Lemma sm_ok (l : list (string * K)) : NoDup (map fst l) -> exists m, py_dict_to_obake_sm (map item l) = Ok m /\ ssorted (map fst m) /\ Permutation l m.
  Proof.
    intros N. unfold py_dict_to_obake_sm. rewrite cast_items_ok. eexists. split; [reflexivity|]. split; [apply sort_sorted; auto|apply sort_perm].
  Qed.
  Lemma gevaluate_perm (g : gdual K) l m : NoDup (map fst l) -> Permutation l m -> gevaluate g l = gevaluate g m.
  Proof.
    intros N P. unfold gevaluate. assert (E : forall s, dfind s l = dfind s m) by (intros; apply dfind_perm; auto).
    assert (F : forallb (fun s => match dfind s l with Some _ => true | None => false end) (psyms (gp g)) =
                forallb (fun s => match dfind s m with Some _ => true | None => false end) (psyms (gp g))).
    { induction (psyms (gp g)); cbn; auto. rewrite IHl0, E. auto. }
    rewrite F. match goal with |- (if ?b then _ else _) = _ => destruct b end; auto. f_equal. f_equal. apply functional_extensionality. intros s. rewrite E. auto.
  Qed.
  Lemma py_evaluate_ok (g : gdual K) l l' : NoDup (map fst l) -> Permutation l l' ->
    py_evaluate g (map item l') = gevaluate g l.
  Proof.
    intros N P. assert (N' : NoDup (map fst l')) by (eapply Permutation_NoDup; [apply Permutation_map; exact P|auto]).
    destruct (sm_ok l' N') as (m & E & _ & Pm). unfold py_evaluate. rewrite E. cbn [rbind]. symmetry. apply gevaluate_perm; auto. eapply perm_trans; eauto.
  Qed.
  Lemma cast_elements_ok (l : list K) : cast_elements (map PyFloat l) = Ok l.
  Proof. induction l as [|x l IH]; cbn; auto. rewrite IH. reflexivity. Qed.
  Lemma load_cast (l : list K) : load_vectorized (cast_vectorized l) = Ok (Some l).
  Proof. unfold load_vectorized, cast_vectorized. rewrite cast_elements_ok. reflexivity. Qed.
  Lemma load_iff (src : pyobj K) c : load_vectorized src = Ok (Some c) <-> exists s, src = PyList s /\ Forall2 (fun o x => cast_double o = Ok x) s c.
  Proof.
    unfold load_vectorized. split.
    - destruct src as [| | |s| | |]; try discriminate. intros H. exists s. split; auto. destruct (cast_elements s) as [c'|] eqn:E; cbn in H; [|discriminate].
      injection H as <-. revert c' E. induction s as [|o s IH]; intros c' E; cbn in E; [injection E as <-; constructor|].
      destruct (cast_double o) as [x|] eqn:Eo; cbn in E; [|discriminate]. destruct (cast_elements s) as [r|]; cbn in E; [|discriminate]. injection E as <-. constructor; auto.
    - intros (s & -> & F). assert (E : cast_elements s = Ok c) by (induction F; cbn; auto; rewrite H; cbn; rewrite IHF; reflexivity). rewrite E. reflexivity.
  Qed.
  Lemma pickle_trip (g : gdual K) : exists o, getstate g = Ok (PyTuple [o]) /\ setstate [o] = Ok g.
  Proof.
    destruct (gdual_trip amp_scalar k0 scalar_trip g) as (w & Hw & Hr). exists (PyBytes w). unfold getstate, setstate. rewrite Hw. cbn [rbind fst].
    split; auto. rewrite <- (app_nil_r w), Hr. reflexivity.
  Qed.
  Lemma setstate_size (t : list (pyobj K)) : length t <> 1 -> setstate t = Throw RuntimeError.
  Proof. destruct t as [|a [|b t]]; cbn; auto; [congruence|]. intros _. destruct a; auto. Qed.
End Py.
