(** * Vectorized coefficients (proof file). *)

From Coq Require Import String List Arith Bool Lia ZArith Setoid Morphisms Ring Field.
From Verif Require Import Ops Syms SymsFacts Poly PolyFacts Sem Den Gdual GdualFacts Functions Spec CoefFacts FunAlg
  Vectorized SpecVec CompRel.
Import ListNotations.

Section Lists.
  Context {K : Type} {o : Ops K}.
  Local Open Scope K_scope.

  Lemma nth_of_at (l : list K) i : nth_of l i = at_ l i.
  Proof. unfold nth_of, at_. destruct l as [|x [|y l]]; auto. Qed.
  Lemma at_1 (l : list K) i : length l = 1%nat -> at_ l i = nth 0 l 0.
  Proof. unfold at_. intros ->. reflexivity. Qed.
  Lemma at_n (l : list K) i : length l <> 1%nat -> at_ l i = nth i l 0.
  Proof. unfold at_. destruct (Nat.eqb_spec (length l) 1); congruence. Qed.
  Lemma at_same (l : list K) i : (i < length l)%nat -> at_ l i = nth i l 0.
  Proof.
    intros H. unfold at_. destruct (Nat.eqb_spec (length l) 1) as [E|E]; auto. rewrite E in H.
    assert (i = 0%nat) by lia. subst. reflexivity.
  Qed.
  Lemma nth_map_lt (f : K -> K) l i : (i < length l)%nat -> nth i (map f l) 0 = f (nth i l 0).
  Proof. revert i; induction l as [|x l IH]; intros [|i] H; simpl in *; try lia; auto. apply IH; lia. Qed.
  Lemma nth_transform2 f (a b : list K) i : length a = length b -> (i < length a)%nat ->
    nth i (transform2 f a b) 0 = f (nth i a 0) (nth i b 0).
  Proof.
    revert b i; induction a as [|x a IH]; intros [|y b] [|i] H H'; simpl in *; try lia; auto. apply IH; lia.
  Qed.
  Lemma at_map (f : K -> K) l i : (i < length l)%nat \/ length l = 1%nat -> at_ (map f l) i = f (at_ l i).
  Proof.
    intros H. unfold at_. rewrite map_length. destruct (Nat.eqb_spec (length l) 1) as [E|E].
    - apply nth_map_lt. lia.
    - apply nth_map_lt. destruct H; lia.
  Qed.

  (** ** The compound operators *)
  Definition in_range (l : list K) (i : nat) : Prop := (i < length l)%nat \/ length l = 1%nat.

  Lemma compound_ok f f1 f2 (a b : list K) : compatible (length a) (length b) ->
    length a <> 0%nat -> length b <> 0%nat ->
    (forall x y, f1 x y = f x y) -> (forall x y, f2 x y = f x y) ->
    exists r, compound f f1 f2 a b = (r, None) /\ length r = Nat.max (length a) (length b) /\
      forall i, in_range a i -> in_range b i -> at_ r i = f (at_ a i) (at_ b i).
  Proof.
    intros Hc Ha Hb E1 E2. unfold compound.
    destruct (Nat.eqb_spec (length b) (length a)) as [E|E].
    { eexists. split; [reflexivity|]. assert (L := transform2_length f a b (eq_sym E)). split; [lia|].
      intros i Hi Hi'. unfold at_. rewrite L, E. destruct (Nat.eqb_spec (length a) 1) as [Q|Q].
      - apply nth_transform2; lia.
      - apply nth_transform2; destruct Hi; lia. }
    destruct (Nat.eqb_spec (length b) 1) as [Eb|Eb].
    { eexists. split; [reflexivity|]. rewrite map_length. split; [lia|]. intros i Hi Hi'.
      rewrite (at_map (fun x => f1 x (nth 0 b 0))) by exact Hi. rewrite E1, (at_1 b) by auto. reflexivity. }
    destruct (Nat.eqb_spec (length a) 1) as [Ea|Ea].
    { eexists. split; [reflexivity|]. rewrite map_length. split; [lia|]. intros i Hi Hi'.
      rewrite (at_map (fun x => f2 (nth 0 a 0) x)) by exact Hi'. rewrite E2, (at_1 a) by auto. reflexivity. }
    exfalso. unfold compatible in Hc. lia.
  Qed.
  Lemma compound_throw f f1 f2 (a b : list K) : ~ compatible (length a) (length b) ->
    compound f f1 f2 a b = (a, Some InvalidArgument).
  Proof.
    intros Hc. unfold compound, compatible in *.
    destruct (Nat.eqb_spec (length b) (length a)); [lia|]. destruct (Nat.eqb_spec (length b) 1); [lia|].
    destruct (Nat.eqb_spec (length a) 1); [lia|reflexivity].
  Qed.
  Lemma elementwise_intro f (a b r : list K) : length a <> 0%nat -> length b <> 0%nat ->
    compatible (length a) (length b) -> length r = Nat.max (length a) (length b) ->
    (forall i, in_range a i -> in_range b i -> at_ r i = f (at_ a i) (at_ b i)) -> elementwise f a b r.
  Proof.
    intros Ha Hb Hc L H. split; auto. intros i Hi. rewrite !nth_of_at.
    apply H; unfold in_range, compatible in *; lia.
  Qed.

  Lemma compound_spec f f1 f2 (a b : list K) : length a <> 0%nat -> length b <> 0%nat ->
    (forall x y, f1 x y = f x y) -> (forall x y, f2 x y = f x y) ->
    (compatible (length a) (length b) -> exists r, compound f f1 f2 a b = (r, None) /\ elementwise f a b r) /\
    (~ compatible (length a) (length b) -> compound f f1 f2 a b = (a, Some InvalidArgument)).
  Proof.
    intros Ha Hb E1 E2. split; [|apply compound_throw]. intros Hc.
    destruct (compound_ok f f1 f2 a b Hc Ha Hb E1 E2) as (r & E & L & H). exists r. split; auto.
    apply elementwise_intro; auto.
  Qed.

  (** ** fma3 *)
  Lemma fma_loop_length ret fx fy i : length (fma_loop (K:=K) ret fx fy i) = length ret.
  Proof. revert i; induction ret as [|r ret IH]; intros i; simpl; auto. Qed.
  Lemma nth_fma_loop ret fx fy : forall s i, (i < length ret)%nat ->
    nth i (fma_loop (K:=K) ret fx fy s) 0 = nth i ret 0 + fx (s + i)%nat * fy (s + i)%nat.
  Proof.
    induction ret as [|r ret IH]; intros s [|i] H; simpl in *; try lia.
    - rewrite Nat.add_0_r. reflexivity.
    - rewrite IH by lia. replace (s + S i)%nat with (S (s + i)) by lia. reflexivity.
  Qed.
  Lemma nth_resize n v (a : list K) i : length a = 1%nat -> v = nth 0 a 0 -> (i < n)%nat ->
    nth i (vresize n v a) 0 = v.
  Proof.
    intros L E H. unfold vresize. destruct a as [|x [|y a]]; simpl in L; try lia. simpl in E. subst v.
    destruct n as [|n]; [lia|]. rewrite firstn_cons, firstn_nil. simpl. destruct i as [|i]; auto.
    assert (i < n)%nat by lia. rewrite Nat.sub_0_r. clear H L. revert i H0. induction n; intros [|i] H0; simpl; try lia; auto.
    apply IHn. lia.
  Qed.
  Lemma fma3_ok (ret x y : list K) : length ret <> 0%nat -> length x <> 0%nat -> length y <> 0%nat ->
    compatible3 (length ret) (length x) (length y) ->
    exists r, vfma3 ret x y = (r, None) /\ elementwise3 ret x y r.
  Proof.
    intros Hr Hx Hy (n & Cr & Cx & Cy).
    assert (B : forall ret' fx fy, length ret' = Nat.max (length ret) (Nat.max (length x) (length y)) ->
              (forall i, (i < length ret')%nat -> nth i ret' 0 = at_ ret i) ->
              (forall i, (i < length ret')%nat -> fx i = at_ x i) -> (forall i, (i < length ret')%nat -> fy i = at_ y i) ->
              exists r, (fma_loop ret' fx fy 0, @None exn) = (r, None) /\ elementwise3 ret x y r).
    { intros ret' fx fy L H1 H2 H3. eexists. split; [reflexivity|]. split; [rewrite fma_loop_length; auto|].
      intros i Hi. rewrite fma_loop_length in Hi. rewrite nth_of_at, at_same by (rewrite fma_loop_length; auto).
      rewrite nth_fma_loop, H1, H2, H3, !nth_of_at by (simpl; auto). reflexivity. }
    assert (RS : forall m i, length ret = 1%nat -> (i < m)%nat -> nth i (vresize m (at_ ret 0) ret) 0 = at_ ret i).
    { intros m i E Hi. rewrite nth_resize; auto; rewrite !(at_1 ret) by auto; auto. }
    unfold vfma3.
    destruct (Nat.eqb_spec (length x) (length y)) as [E1|E1], (Nat.eqb_spec (length x) (length ret)) as [E2|E2]; cbn [andb].
    1: { apply B; auto; try lia. intros; symmetry; apply at_same; auto. }
    all: destruct (Nat.eqb_spec (length ret) 1) as [R1|R1];
      [ destruct (Nat.eqb_spec (length x) 1) as [X1|X1];
        [| destruct (Nat.eqb_spec (length y) 1) as [Y1|Y1]; [| destruct (Nat.eqb_spec (length y) (length x)) as [Z|Z]]]
      | destruct (Nat.eqb_spec (length x) 1) as [X1|X1];
        [ destruct (Nat.eqb_spec (length y) 1) as [Y1|Y1]; [| destruct (Nat.eqb_spec (length y) (length ret)) as [Z|Z]]
        | destruct (Nat.eqb_spec (length y) 1) as [Y1|Y1]; [ destruct (Nat.eqb_spec (length ret) (length x)) as [Z|Z]|]]];
      try (exfalso; lia);
      (apply B; rewrite ?vresize_length; try lia; intros i Hi;
       [ first [rewrite RS by lia; reflexivity | symmetry; apply at_same; lia]
       | rewrite ?(at_1 x) by auto; reflexivity | rewrite ?(at_1 y) by auto; reflexivity ]).
  Qed.
  Lemma fma3_throw (ret x y : list K) : length ret <> 0%nat -> length x <> 0%nat -> length y <> 0%nat ->
    ~ compatible3 (length ret) (length x) (length y) ->
    vfma3 ret x y = (ret, if Nat.eqb (length ret) 1 || Nat.eqb (length x) 1 || Nat.eqb (length y) 1
                          then Some InvalidArgument else None).
  Proof.
    intros Hr Hx Hy C.
    assert (NC : forall n, ((length ret = 1 \/ length ret = n) /\ (length x = 1 \/ length x = n) /\
                            (length y = 1 \/ length y = n))%nat -> False) by (intros n Hn; apply C; exists n; exact Hn).
    pose proof (NC (length x)) as C1. pose proof (NC (length y)) as C2. pose proof (NC (length ret)) as C3.
    clear NC C. unfold vfma3.
    destruct (Nat.eqb_spec (length x) (length y)) as [E1|E1], (Nat.eqb_spec (length x) (length ret)) as [E2|E2]; cbn [andb];
    destruct (Nat.eqb_spec (length ret) 1) as [R1|R1];
      destruct (Nat.eqb_spec (length x) 1) as [X1|X1]; destruct (Nat.eqb_spec (length y) 1) as [Y1|Y1];
      destruct (Nat.eqb_spec (length y) (length x)) as [Z|Z];
      destruct (Nat.eqb_spec (length y) (length ret)) as [Z'|Z'];
      destruct (Nat.eqb_spec (length ret) (length x)) as [Z''|Z'']; cbn [orb]; try reflexivity; exfalso; lia.
  Qed.

  (** ** Comparisons *)
  Lemma list_eqb_nth (a b : list K) : length a = length b ->
    (list_eqb a b = true <-> forall i, (i < length a)%nat -> (nth i a 0 =? nth i b 0) = true).
  Proof.
    revert b; induction a as [|x a IH]; intros [|y b] L; simpl in *; try lia.
    - split; auto. intros _ i Hi. lia.
    - rewrite andb_true_iff, IH by lia. split.
      + intros [H1 H2] [|i] Hi; auto. apply H2. lia.
      + intros H. split; [apply (H 0%nat); lia|]. intros i Hi. apply (H (S i)). lia.
  Qed.
  Lemma forallb_nth (P : K -> bool) l :
    forallb P l = true <-> forall i, (i < length l)%nat -> P (nth i l 0) = true.
  Proof.
    rewrite forallb_forall. split.
    - intros H i Hi. apply H, nth_In, Hi.
    - intros H x Hx. destruct (In_nth l x 0 Hx) as (i & Hi & <-). auto.
  Qed.
  Lemma veqb_spec (a b : list K) : length a <> 0%nat -> length b <> 0%nat -> (forall x y : K, (x =? y) = (y =? x)) ->
    (veqb a b = true <-> compatible (length a) (length b) /\
       forall i, (i < Nat.max (length a) (length b))%nat -> (nth_of a i =? nth_of b i) = true).
  Proof.
    intros Ha Hb Sy. unfold veqb, compatible.
    destruct (Nat.eqb_spec (length a) (length b)) as [E|E].
    { rewrite list_eqb_nth by auto. split.
      - intros H. split; auto. intros i Hi. rewrite !nth_of_at, !at_same by lia. apply H. lia.
      - intros [_ H] i Hi. specialize (H i). rewrite !nth_of_at, !at_same in H by lia. apply H. lia. }
    destruct (Nat.eqb_spec (length a) 1) as [Ea|Ea].
    { rewrite forallb_nth. split.
      - intros H. split; auto. intros i Hi. rewrite !nth_of_at, (at_1 a), (at_same b) by lia. rewrite Sy.
        rewrite <- (at_1 a 0) by lia. apply H. lia.
      - intros [_ H] i Hi. specialize (H i). rewrite !nth_of_at, (at_1 a), (at_same b) in H by lia. rewrite Sy.
        rewrite (at_1 a) by lia. apply H. lia. }
    destruct (Nat.eqb_spec (length b) 1) as [Eb|Eb].
    { rewrite forallb_nth. split.
      - intros H. split; auto. intros i Hi. rewrite !nth_of_at, (at_1 b), (at_same a) by lia.
        rewrite <- (at_1 b 0) by lia. apply H. lia.
      - intros [_ H] i Hi. specialize (H i). rewrite !nth_of_at, (at_1 b), (at_same a) in H by lia.
        rewrite (at_1 b) by lia. apply H. lia. }
    split; [discriminate|]. intros [[?|[?|?]] _]; contradiction.
  Qed.
  Lemma veqb_refl (a : list K) : (forall x : K, (x =? x) = true) -> veqb a a = true.
  Proof.
    intros R. unfold veqb. rewrite Nat.eqb_refl. induction a as [|x a IH]; simpl; auto. rewrite R. exact IH.
  Qed.
  Lemma list_eqb_sym (a b : list K) : (forall x y : K, (x =? y) = (y =? x)) -> list_eqb a b = list_eqb b a.
  Proof. intros S. revert b. induction a as [|x a IH]; intros [|y b]; simpl; auto. rewrite S, IH. reflexivity. Qed.
  Lemma veqb_sym (a b : list K) : (forall x y : K, (x =? y) = (y =? x)) -> veqb a b = veqb b a.
  Proof.
    intros S. unfold veqb. rewrite (Nat.eqb_sym (length b) (length a)), (list_eqb_sym b a) by auto.
    destruct (Nat.eqb_spec (length a) (length b)); auto.
    destruct (Nat.eqb_spec (length a) 1), (Nat.eqb_spec (length b) 1); auto. congruence.
  Qed.
  Lemma veqb_trans (a b c : list K) : length a <> 0%nat -> length b <> 0%nat -> length c <> 0%nat ->
    (forall x y : K, (x =? y) = (y =? x)) ->
    (forall x y z : K, (x =? y) = true -> (y =? z) = true -> (x =? z) = true) ->
    compatible (length a) (length c) ->
    veqb a b = true -> veqb b c = true -> veqb a c = true.
  Proof.
    intros Ha Hb Hc S T C H1 H2. apply veqb_spec in H1; auto. apply veqb_spec in H2; auto.
    apply veqb_spec; auto. destruct H1 as [C1 H1], H2 as [C2 H2]. split; auto. intros i Hi.
    assert (Q : forall u v : list K, length u <> 0%nat -> length v <> 0%nat -> compatible (length u) (length v) ->
        (forall j, (j < Nat.max (length u) (length v))%nat -> (nth_of u j =? nth_of v j) = true) ->
        (i < Nat.max (length u) (length v))%nat \/ (length u = 1 /\ length v = 1)%nat -> (nth_of u i =? nth_of v i) = true).
    { intros u v Hu Hv Cuv H [L|[Lu Lv]]; [apply H; exact L|].
      rewrite !nth_of_at, !at_1, <- (at_1 u 0), <- (at_1 v 0), <- !nth_of_at by auto. apply H. lia. }
    unfold compatible in *. eapply T; [apply (Q a b)|apply (Q b c)]; auto; lia.
  Qed.
  Lemma vgtb_vltb (a b : list K) : vgtb a b = vltb b a.
  Proof.
    unfold vgtb, vltb. rewrite (Nat.eqb_sym (length b) (length a)).
    destruct (Nat.eqb_spec (length a) (length b)); auto.
    destruct (Nat.eqb_spec (length a) 1), (Nat.eqb_spec (length b) 1); auto. congruence.
  Qed.
  Lemma list_ltb_spec (a b : list K) : length a = length b -> (list_ltb a b = true <-> lexicographic a b).
  Proof.
    revert b. induction a as [|x a IH]; intros [|y b] L; simpl in L; try lia.
    - simpl. split; [discriminate|]. intros (p & u & v & a' & b' & E & _). destruct p; discriminate.
    - cbn [list_ltb]. split.
      + intros H. destruct (x <? y) eqn:E1.
        { exists [], x, y, a, b. split; auto. split; auto. exists []. split; auto. split; auto. simpl. intros i Hi. lia. }
        destruct (y <? x) eqn:E2; [discriminate|]. apply IH in H; [|lia].
        destruct H as (p & u & v & a' & b' & -> & (q & -> & Lq & Hq) & Huv).
        exists (x :: p), u, v, a', b'. split; auto. split; auto. exists (y :: q). split; auto. split; [simpl; lia|].
        intros [|i] Hi; simpl in *; auto. apply Hq. lia.
      + intros (p & u & v & a' & b' & E & (q & E' & Lq & Hq) & Huv). destruct p as [|x' p], q as [|y' q]; simpl in Lq; try lia.
        * simpl in E, E'. injection E as -> ->. injection E' as -> ->. rewrite Huv. reflexivity.
        * simpl in E, E'. injection E as -> ->. injection E' as -> ->.
          destruct (Hq 0%nat) as [H1 H2]; [simpl; lia|]. simpl in H1, H2. rewrite H1, H2.
          apply IH; [lia|]. exists p, u, v, a', b'. split; auto. split; auto. exists q. split; auto. split; [lia|].
          intros i Hi. apply (Hq (S i)). simpl. lia.
  Qed.
  Lemma vltb_spec (a b : list K) : length a <> 0%nat -> length b <> 0%nat ->
    (length a = length b -> (vltb a b = true <-> lexicographic a b)) /\
    (length a <> length b -> (vltb a b = true <-> compatible (length a) (length b) /\
       forall i, (i < Nat.max (length a) (length b))%nat -> (nth_of a i <? nth_of b i) = true)).
  Proof.
    intros Ha Hb. unfold vltb, compatible. destruct (Nat.eqb_spec (length a) (length b)) as [E|E]; split; intros Q;
      try contradiction.
    - apply list_ltb_spec; auto.
    - destruct (Nat.eqb_spec (length a) 1) as [Ea|Ea].
      { rewrite forallb_nth. split.
        - intros H. split; auto. intros i Hi. rewrite !nth_of_at, (at_1 a), (at_same b) by lia.
          rewrite <- (at_1 a 0) by lia. apply H. lia.
        - intros [_ H] i Hi. specialize (H i). rewrite !nth_of_at, (at_1 a), (at_same b) in H by lia.
          rewrite (at_1 a) by lia. apply H. lia. }
      destruct (Nat.eqb_spec (length b) 1) as [Eb|Eb].
      { rewrite forallb_nth. split.
        - intros H. split; auto. intros i Hi. rewrite !nth_of_at, (at_1 b), (at_same a) by lia.
          rewrite <- (at_1 b 0) by lia. apply H. lia.
        - intros [_ H] i Hi. specialize (H i). rewrite !nth_of_at, (at_1 b), (at_same a) in H by lia.
          rewrite (at_1 b) by lia. apply H. lia. }
      split; [discriminate|]. intros [[?|[?|?]] _]; contradiction.
  Qed.
End Lists.

(** ** Components *)
Section Components.
  Context {K : Type} {o : Ops K} {fl : FieldLaws o} {e : Elem K} {N i : nat} (Hi : (i < N)%nat).
  Local Open Scope K_scope.
  Add Field KfieldV : (fl_field (K:=K)).
  Notation comp := (component N i).

  Lemma comp_at (v : vec K N) : comp v = at_ (vl v) i.
  Proof. apply nth_of_at. Qed.
  Lemma vec_range (v : vec K N) : in_range (vl v) i.
  Proof. pose proof (sized_cases _ (vl_sized v)). unfold in_range. lia. Qed.
  Lemma vec_nonempty (v : vec K N) : length (vl v) <> 0%nat.
  Proof. pose proof (sized_cases _ (vl_sized v)). lia. Qed.
  Lemma vec_compat (v w : vec K N) : compatible (length (vl v)) (length (vl w)).
  Proof. pose proof (sized_cases _ (vl_sized v)). pose proof (sized_cases _ (vl_sized w)). unfold compatible. lia. Qed.
  Lemma comp_compound f f1 f2 (a b : vec K N) : (forall x y, f1 x y = f x y) -> (forall x y, f2 x y = f x y) ->
    comp (vec_compound f f1 f2 a b) = f (comp a) (comp b).
  Proof.
    intros E1 E2. rewrite !comp_at. unfold vec_compound. cbn [vl].
    destruct (compound_ok f f1 f2 (vl a) (vl b)) as (r & E & _ & H); auto using vec_compat, vec_nonempty.
    rewrite E. cbn [fst]. apply H; apply vec_range.
  Qed.
  Lemma comp_map f (a : vec K N) : comp (vec_map f a) = f (comp a).
  Proof. rewrite !comp_at. apply at_map, vec_range. Qed.
  Lemma comp_num x : comp (vec_num x) = x.
  Proof. reflexivity. Qed.

  #[global] Instance Hom_comp : Hom (OpsVec (N := N)) o comp.
  Proof.
    constructor; try reflexivity; try (intros; apply comp_compound; intros; ring || reflexivity); try (intros; apply comp_map).
    intros a H. cbn in H.
    assert (Sy : forall x y : K, (x =? y) = (y =? x)) by (intros x y; destruct (keqb_spec x y), (keqb_spec y x); congruence).
    apply (veqb_spec (vl a) [0] (vec_nonempty a) (Nat.neq_succ_0 0) Sy) in H.
    destruct H as [_ H]. destruct (vec_range a) as [R|R].
    + specialize (H i). cbn [vl vec_num length] in H. rewrite Nat.max_l in H by lia. specialize (H R).
        apply fl_eqb in H. exact H.
    + specialize (H 0%nat). cbn [vl vec_num length] in H. rewrite R in H. specialize (H (Nat.lt_0_1)).
        apply fl_eqb in H. rewrite nth_of_at, at_1 in H by auto. rewrite comp_at, at_1 by auto. exact H.
  Qed.
  #[global] Instance HomElem_comp : HomElem (ElemVec (N := N)) e comp.
  Proof.
    constructor; try reflexivity; try (intros; apply comp_map). intros; apply comp_compound; auto.
  Qed.

  (** abs *)
  Lemma nth_set_value j k (v : K) a : (j < length a)%nat -> nth k (set_value j v a) 0 = if Nat.eqb k j then v else nth k a 0.
  Proof.
    revert j k; induction a as [|x a IH]; intros [|j] [|k] H; simpl in *; try lia; auto. apply IH. lia.
  Qed.
  Lemma flip_nth (p : list K) m : forall c k, (m <= length c)%nat -> (length c = 1 -> m <= 1)%nat ->
    nth k (fold_left (fun c i => if at_ p i <? 0 then set_value i (- at_ c i) c else c) (seq 0 m) c) 0 =
    if Nat.ltb k m then if at_ p k <? 0 then - nth k c 0 else nth k c 0 else nth k c 0.
  Proof.
    induction m as [|m IH]; intros c k Hm H1; [reflexivity|].
    rewrite seq_S, fold_left_app. cbn [fold_left Nat.add].
    set (F := fold_left _ (seq 0 m) c) in *.
    assert (LF : length F = length c).
    { unfold F. generalize (seq 0 m). intros l. clear. revert c. induction l as [|j l IHl]; intros c; simpl; auto.
      rewrite IHl. destruct (at_ p j <? 0); auto. apply set_value_length. }
    assert (EF : forall k, nth k F 0 = if Nat.ltb k m then if at_ p k <? 0 then - nth k c 0 else nth k c 0 else nth k c 0).
    { intros q. apply IH; lia. }
    destruct (at_ p m <? 0) eqn:Em.
    - rewrite nth_set_value by lia. destruct (Nat.eqb_spec k m) as [->|Hk].
      + rewrite at_same by lia. rewrite EF, Nat.ltb_irrefl, (proj2 (Nat.ltb_lt m (S m))), Em by lia. reflexivity.
      + rewrite EF. destruct (Nat.ltb_spec k m), (Nat.ltb_spec k (S m)); auto; lia.
    - rewrite EF. destruct (Nat.ltb_spec k m), (Nat.ltb_spec k (S m)); auto; try lia.
      assert (k = m) by lia. subst k. rewrite Em. reflexivity.
  Qed.
  Definition flipv (p0 c : vec K N) : vec K N := mkVec (flip (vl p0) (vl c)) (flip_sized p0 c).
  Lemma comp_flip (p0 c : vec K N) : length (vl p0) = N \/ (comp p0 <? 0) = false ->
    comp (flipv p0 c) = if comp p0 <? 0 then - comp c else comp c.
  Proof.
    intros H. rewrite !comp_at in *. unfold flipv. cbn [vl].
    pose proof (flip_length (vl p0) (vl c)) as L.
    destruct p0 as [p Hp], c as [c Hc]. cbn [vl] in *. apply sized_cases in Hp, Hc. unfold flip in *.
    destruct (Nat.eqb_spec (length c) 1) as [E|E].
    - assert (LR := vresize_length (length p) (at_ c 0) c).
      set (c1 := vresize (length p) (at_ c 0) c) in *.
      assert (V : forall k, (k < length p)%nat -> nth k c1 0 = at_ c i).
      { intros k Hk. unfold c1. rewrite nth_resize; auto; rewrite !(at_1 c) by auto; auto. }
      destruct (Nat.eq_dec (length p) 1) as [P1|P1].
      + rewrite at_1 by lia. rewrite flip_nth by lia. rewrite V by lia.
        rewrite (proj2 (Nat.ltb_lt 0 (length p))) by lia. rewrite (at_1 p 0), (at_1 p i) by lia. reflexivity.
      + rewrite at_n by lia. rewrite flip_nth by lia. rewrite V by lia.
        rewrite (proj2 (Nat.ltb_lt i (length p))) by lia. reflexivity.
    - rewrite at_n by lia. destruct (Nat.eq_dec (length p) N) as [P1|P1].
      + rewrite flip_nth by lia. rewrite (proj2 (Nat.ltb_lt i (length p))) by lia. rewrite (at_n c) by lia. reflexivity.
      + destruct H as [H|H]; [contradiction|]. rewrite H. rewrite flip_nth by lia. rewrite (at_n c) by lia.
        assert (length p = 1%nat) by lia. destruct (Nat.ltb_spec i (length p)); auto.
        rewrite H. reflexivity.
  Qed.

  (** [both] implies that the coefficients are the components. *)
  Notation cr := (crel comp).
  Lemma gabs_vec_wf (d : gdual (vec K N)) : gwf d -> gwf (gabs_vec d).
  Proof.
    intros [[Hs Hl Hd] Ho]. unfold gabs_vec. constructor; cbn [gp gord].
    - constructor; cbn [psyms pterms]; auto.
      + unfold klen in *. rewrite Forall_map. cbn. exact Hl.
      + unfold kdist in *. rewrite map_map. cbn. exact Hd.
    - unfold dle in *. cbn [pterms]. rewrite Forall_map. cbn. exact Ho.
  Qed.
  Lemma crel_abs b x y : length (vl (constant_cf x)) = N \/ (comp (constant_cf x) <? 0) = false ->
    (forall z : K, z <> 0 -> (0 <? z) = negb (z <? 0)) -> ((0 : K) <? 0) = false -> 
    cr b x y -> cr b (gabs_vec x) (gabs y).
  Proof.
    intros Hc Ho H00 H. pose proof (crel_cc _ _ _ _ H) as C. destruct H as [W1 W2 O D S].
    assert (SG : ((0 <? constant_cf y) || (constant_cf y =? 0)) = negb (constant_cf y <? 0)).
    { destruct (keqb_spec (constant_cf y) 0) as [E|E].
      - rewrite E, H00. reflexivity.
      - rewrite Ho by auto. apply orb_false_r. }
    assert (DA : seqv None (gden comp (gabs_vec x)) (if constant_cf y <? 0 then sopp (gden comp x) else gden comp x)).
    { unfold gden, gabs_vec, den, tden. cbn [gp psyms pterms]. constructor. intros F _. rewrite map_map. cbn [fst snd].
      rewrite <- C in *. destruct (comp (constant_cf x) <? 0) eqn:E.
      - rewrite Lf_sopp. unfold Lf. induction (pterms (gp x)) as [|t ts IH]; cbn [map fold_right fst snd]; [ring|].
        rewrite IH. fold (flipv (constant_cf x) (snd t)). rewrite comp_flip by (rewrite E; exact Hc). rewrite E. ring.
      - unfold Lf. induction (pterms (gp x)) as [|t ts IH]; cbn [map fold_right fst snd]; [ring|].
        rewrite IH. fold (flipv (constant_cf x) (snd t)). rewrite comp_flip by (rewrite E; exact Hc). rewrite E. ring. }
    unfold gabs. rewrite SG. destruct (constant_cf y <? 0); cbn [negb].
    - constructor; auto using gabs_vec_wf with gwf. rewrite DA, (gden_neg (fun x => x)), D. reflexivity.
    - constructor; auto using gabs_vec_wf with gwf. rewrite DA. exact D.
  Qed.
End Components.

Section BothProofs.
  Context {K : Type} {o : Ops K} {fl : FieldLaws o} {e : Elem K} {N i : nat}.
  Hypothesis Hi : (i < N)%nat.
  Hypothesis Hsign : forall z : K, z <> k0 -> kltb k0 z = negb (kltb z k0).
  Hypothesis H00 : kltb (k0 : K) k0 = false.
  Local Open Scope K_scope.
  Notation comp := (component N i).
  Instance HC : Hom (OpsVec (N := N)) o comp := Hom_comp Hi.
  Instance HE : HomElem (ElemVec (N := N)) e comp := HomElem_comp Hi.

  Lemma rres_ok R (r : res (gdual (vec K N))) (s : res (gdual K)) x y :
    rres R r s -> r = Ok x -> s = Ok y -> R x y.
  Proof. intros H -> ->. exact H. Qed.

  Lemma both_crel p a b : both N i p a b -> crel comp p a b.
  Proof.
    induction 1.
    - apply (crel_default comp).
    - apply (crel_const comp); reflexivity.
    - eapply rres_ok; eauto. apply (crel_var comp). reflexivity.
    - apply (crel_add comp); auto using crel_andb1, crel_andb2.
    - apply (crel_add_sg comp); auto.
    - apply (crel_add_gs comp); auto.
    - apply (crel_sub comp); auto using crel_andb1, crel_andb2.
    - apply (crel_sub_sg comp); auto.
    - apply (crel_sub_gs comp); auto.
    - apply (crel_neg comp); auto.
    - apply (crel_mul comp); auto using crel_andb1, crel_andb2.
    - apply (crel_mul_sg comp); auto.
    - apply (crel_mul_gs comp); auto.
    - apply (crel_div comp); auto using crel_andb1, crel_andb2.
    - apply (crel_div_sg comp); auto.
    - apply (crel_div_gs comp); auto.
    - eapply rres_ok; eauto. apply (crel_extend comp). eassumption.
    - eapply rres_ok; eauto. apply (crel_integrate comp). eassumption.
    - eapply rres_ok; eauto. apply (crel_partial comp). eassumption.
    - apply (crel_subs_val comp); auto.
    - apply (crel_subs comp false); eauto using crel_weaken.
    - eapply rres_ok; eauto. apply (crel_extract comp). eassumption.
    - apply (crel_fun1 comp); auto.
    - eapply rres_ok; eauto. apply (crel_funD comp); auto. destruct H as [->|E].
      + unfold get_symbol_set. f_equal. exact (cr_syms _ _ _ _ IHboth eq_refl).
      + exact E.
    - apply (crel_pow comp); auto using crel_andb1, crel_andb2.
    - apply (crel_pow_int comp); auto.
    - apply (crel_pow_real comp); auto.
      cbn. rewrite !andb_true_r. unfold vltb. cbn. destruct (k0 <? x); auto. destruct (x <? k0); auto.
    - apply (crel_pow_sg comp); auto.
    - exact (proj1 (crel_sin_and_cos comp _ _ _ IHboth)).
    - exact (proj2 (crel_sin_and_cos comp _ _ _ IHboth)).
    - exact (proj1 (crel_sinh_and_cosh comp _ _ _ IHboth)).
    - exact (proj2 (crel_sinh_and_cosh comp _ _ _ IHboth)).
    - apply (crel_abs Hi); auto.
  Qed.
  Lemma both_coef p a b : both N i p a b ->
    (forall W k, NoDup W -> length k = length W -> comp (coef a W k) = coef b W k) /\
    get_order a = get_order b /\ (p = true -> get_symbol_set a = get_symbol_set b).
  Proof.
    intros H. apply both_crel in H. conjs.
    - intros W k HW Hk. apply (crel_coef comp p); auto.
    - exact (cr_ord _ _ _ _ H).
    - intros ->. unfold get_symbol_set. f_equal. exact (cr_syms _ _ _ _ H eq_refl).
  Qed.
End BothProofs.

Section Final.
  Context {K : Type} {o : Ops K}.
  Local Open Scope K_scope.
  (** The four operators, in the form of the property. *)
  Definition operators : list ((K -> K -> K) * (list K -> list K -> outcome) * (list K -> list K -> res (list K))) :=
    [(kadd, vadd_assign, vadd); (ksub, vsub_assign, vsub); (kmul, vmul_assign, vmul); (kdiv, vdiv_assign, vdiv)].
  Lemma operators_spec f assign bin (a b : list K) : (forall x y : K, x + y = y + x) ->
    In (f, assign, bin) operators -> a <> [] -> b <> [] ->
    (compatible (length a) (length b) ->
       exists r, assign a b = (r, None) /\ bin a b = Ok r /\ elementwise f a b r) /\
    (~ compatible (length a) (length b) ->
       assign a b = (a, Some InvalidArgument) /\ bin a b = Throw InvalidArgument).
  Proof.
    intros Cm Hin Ha Hb.
    assert (La : length a <> 0%nat) by (destruct a; simpl; [congruence|lia]).
    assert (Lb : length b <> 0%nat) by (destruct b; simpl; [congruence|lia]).
    assert (G : exists f1 f2, assign = compound f f1 f2 /\ bin = (fun a b => by_value (assign a b)) /\
      (forall x y, f1 x y = f x y) /\ (forall x y, f2 x y = f x y)).
    { destruct Hin as [E|[E|[E|[E|[]]]]]; inversion E; subst; do 2 eexists; (split; [reflexivity|]);
        (split; [reflexivity|]); split; intros; auto. }
    destruct G as (f1 & f2 & -> & -> & E1 & E2).
    destruct (compound_spec f f1 f2 a b La Lb E1 E2) as [P Q]. split; intros C.
    - destruct (P C) as (r & E & R). exists r. unfold by_value. rewrite E. auto.
    - specialize (Q C). unfold by_value. rewrite Q. auto.
  Qed.
  Lemma fma3_spec (ret x y : list K) : ret <> [] -> x <> [] -> y <> [] ->
    (compatible3 (length ret) (length x) (length y) -> exists r, vfma3 ret x y = (r, None) /\ elementwise3 ret x y r) /\
    (~ compatible3 (length ret) (length x) (length y) -> fst (vfma3 ret x y) = ret /\
       ((length ret = 1 \/ length x = 1 \/ length y = 1)%nat -> snd (vfma3 ret x y) = Some InvalidArgument) /\
       (length ret <> 1%nat -> length x <> 1%nat -> length y <> 1%nat -> snd (vfma3 ret x y) = None)).
  Proof.
    intros Hr Hx Hy.
    assert (Lr : length ret <> 0%nat) by (destruct ret; simpl; [congruence|lia]).
    assert (Lx : length x <> 0%nat) by (destruct x; simpl; [congruence|lia]).
    assert (Ly : length y <> 0%nat) by (destruct y; simpl; [congruence|lia]).
    split; intros C; [apply fma3_ok; auto|]. rewrite fma3_throw by auto. cbn [fst snd]. split; auto. split.
    - intros [E|[E|E]]; rewrite E, Nat.eqb_refl, ?orb_true_r; auto.
    - intros. rewrite !(proj2 (Nat.eqb_neq _ _)) by auto. reflexivity.
  Qed.
  Lemma nonempty (a : list K) : a <> [] -> length a <> 0%nat.
  Proof. destruct a; simpl; [congruence|lia]. Qed.
  Lemma eq_spec (a b : list K) : a <> [] -> b <> [] -> (forall x y : K, (x =? y) = (y =? x)) ->
    (veqb a b = true <-> compatible (length a) (length b) /\
       forall i, (i < Nat.max (length a) (length b))%nat -> (nth_of a i =? nth_of b i) = true).
  Proof. intros Ha Hb. apply veqb_spec; apply nonempty; auto. Qed.
  Lemma neq_spec (a b : list K) : a <> [] -> b <> [] -> (forall x y : K, (x =? y) = (y =? x)) ->
    (vneqb a b = true <-> ~ (compatible (length a) (length b) /\
       forall i, (i < Nat.max (length a) (length b))%nat -> (nth_of a i =? nth_of b i) = true)).
  Proof.
    intros Ha Hb Sy. rewrite <- (eq_spec a b Ha Hb Sy). unfold vneqb. rewrite negb_true_iff.
    symmetry. apply not_true_iff_false.
  Qed.
  Lemma eq_trans_compat (a b c : list K) : a <> [] -> b <> [] -> c <> [] ->
    (forall x y : K, (x =? y) = (y =? x)) ->
    (forall x y z : K, (x =? y) = true -> (y =? z) = true -> (x =? z) = true) ->
    compatible (length a) (length c) -> veqb a b = true -> veqb b c = true -> veqb a c = true.
  Proof. intros Ha Hb Hc. apply veqb_trans; apply nonempty; auto. Qed.
  Lemma lt_spec (a b : list K) : a <> [] -> b <> [] ->
    (length a = length b -> (vltb a b = true <-> lexicographic a b)) /\
    (length a <> length b -> (vltb a b = true <-> compatible (length a) (length b) /\
       forall i, (i < Nat.max (length a) (length b))%nat -> (nth_of a i <? nth_of b i) = true)).
  Proof. intros Ha Hb. apply vltb_spec; apply nonempty; auto. Qed.
  Lemma vec_never_throws (N : nat) (a b : vec K N) :
    vadd (vl a) (vl b) = Ok (vl (kadd a b)) /\ vsub (vl a) (vl b) = Ok (vl (ksub a b)) /\
    vmul (vl a) (vl b) = Ok (vl (kmul a b)) /\ vdiv (vl a) (vl b) = Ok (vl (kdiv a b)).
  Proof.
    assert (G : forall f f1 f2, by_value (compound f f1 f2 (vl a) (vl b)) = Ok (vl (vec_compound f f1 f2 a b))).
    { intros f f1 f2. unfold vec_compound, by_value. cbn [vl].
      destruct (compound f f1 f2 (vl a) (vl b)) as [r [x|]] eqn:E; auto. exfalso. unfold compound in E.
      pose proof (sized_cases _ (vl_sized a)). pose proof (sized_cases _ (vl_sized b)).
      destruct (Nat.eqb_spec (length (vl b)) (length (vl a))); [discriminate|].
      destruct (Nat.eqb_spec (length (vl b)) 1); [discriminate|].
      destruct (Nat.eqb_spec (length (vl a)) 1); [discriminate|]. lia. }
    conjs; apply G.
  Qed.
End Final.

Section Reading.
  Context {K : Type} {o : Ops K} {fl : FieldLaws o} {e : Elem K} {N i : nat}.
  Hypothesis Hi : (i < N)%nat.
  Hypothesis Hsign : forall z : K, z <> k0 -> kltb k0 z = negb (kltb z k0).
  Hypothesis H00 : kltb (k0 : K) k0 = false.
  Local Open Scope K_scope.
  Notation comp := (component N i).
  Add Field KfieldV2 : (fl_field (K:=K)).
  Instance HC2 : Hom (OpsVec (N := N)) o comp := Hom_comp Hi.

  Lemma both_read a b : both N i true a b ->
    comp (constant_cf a) = constant_cf b /\
    (forall k, same_result N i (find_cf a k) (find_cf b k)) /\
    (forall k, same_result N i (get_derivative a k) (get_derivative b k)) /\
    (forall d, same_result N i (gevaluate a d) (gevaluate b (map (fun q => (fst q, comp (snd q))) d))).
  Proof.
    intros H. apply (both_crel Hi Hsign H00) in H. conjs.
    - eapply (crel_cc comp); eauto.
    - intros k. apply (crel_find_cf comp); auto.
    - intros k. apply (crel_get_derivative comp); auto.
    - intros d. apply (crel_evaluate comp); auto.
  Qed.
  Lemma both_const_read p a b : both N i p a b -> comp (constant_cf a) = constant_cf b.
  Proof. intros H. apply (both_crel Hi Hsign H00) in H. eapply (crel_cc comp); eauto. Qed.

  Lemma abs_vec_coef (d : gdual (vec K N)) : length (vl (constant_cf d)) = N ->
    get_order (gabs_vec d) = get_order d /\ get_symbol_set (gabs_vec d) = get_symbol_set d /\
    forall W k, comp (coef (gabs_vec d) W k) =
      if comp (constant_cf d) <? 0 then - comp (coef d W k) else comp (coef d W k).
  Proof.
    intros HL. split; [reflexivity|]. split; [reflexivity|]. intros W k. rewrite !(h_coef comp).
    unfold gabs_vec, gsyms. cbn [gp psyms pterms].
    assert (E : forall t : key * vec K N, comp (mkVec (flip (vl (constant_cf d)) (vl (snd t))) (flip_sized (constant_cf d) (snd t))) =
      if comp (constant_cf d) <? 0 then - comp (snd t) else comp (snd t)).
    { intros t. exact (comp_flip Hi (constant_cf d) (snd t) (or_introl HL)). }
    destruct (comp (constant_cf d) <? 0).
    - induction (pterms (gp d)) as [|t ts IH]; cbn [map fold_right fst snd]; [ring|].
      rewrite IH, E. match goal with |- context [fold_right ?f ?a ts] => generalize (fold_right f a ts) end.
      intros z. destruct (same_mono _ _ _ _); ring.
    - induction (pterms (gp d)) as [|t ts IH]; cbn [map fold_right fst snd]; [ring|].
      rewrite IH, E. destruct (same_mono _ _ _ _); reflexivity.
  Qed.
End Reading.
