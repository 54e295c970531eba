(** * Enumeration of the exponents and extraction of the terms (proof file). *)
From Coq Require Import String List Arith Bool Lia ZArith.
From Verif Require Import Ops Syms Poly Gdual Functions Spec PolyFacts GdualFacts CoefFacts Bounding SpecBounding.
Import ListNotations.

Lemma NoDup_app_intro {A} (a b : list A) : NoDup a -> NoDup b -> (forall x, In x a -> ~ In x b) -> NoDup (a ++ b).
Proof.
  induction a as [|x a IH]; intros Ha Hb Hd; cbn [app]; auto. inversion_clear Ha. constructor.
  - rewrite in_app_iff. intros [H1|H1]; [contradiction|]. apply (Hd x); auto. left; auto.
  - apply IH; auto. intros y Hy. apply Hd. right; auto.
Qed.
Lemma NoDup_map_inj {A B} (f : A -> B) l : (forall x y, In x l -> In y l -> f x = f y -> x = y) -> NoDup l -> NoDup (map f l).
Proof.
  induction l as [|x l IH]; intros Hf Hl; cbn [map]; constructor; inversion_clear Hl.
  - intros H1. apply in_map_iff in H1. destruct H1 as [y [E Hy]]. apply Hf in E; [subst; contradiction|right; auto|left; auto].
  - apply IH; auto. intros a b Ha Hb. apply Hf; right; auto.
Qed.
Lemma nodup_flat_map {A B} (f : A -> list B) l : NoDup l -> (forall a, In a l -> NoDup (f a)) ->
  (forall a b x, In a l -> In b l -> In x (f a) -> In x (f b) -> a = b) -> NoDup (flat_map f l).
Proof.
  induction l as [|a l IH]; intros Hl Hf Hd; cbn [flat_map]; [constructor|].
  inversion_clear Hl. apply NoDup_app_intro.
  - apply Hf. left; auto.
  - apply IH; auto. + intros; apply Hf; right; auto. + intros; eapply Hd; eauto; right; auto.
  - intros x Hx Hx'. apply in_flat_map in Hx'. destruct Hx' as [b [Hb Hxb]].
    assert (a = b) by (apply (Hd a b x); auto; [left; auto|right; auto]). subst. contradiction.
Qed.

Lemma app_eq_len {A} (a b c d : list A) : length a = length c -> a ++ b = c ++ d -> a = c /\ b = d.
Proof.
  revert c. induction a as [|x a IH]; intros [|y c] L E; try discriminate; auto.
  cbn in E. injection E as E1 E2. apply IH in E2; [|cbn in L; lia]. destruct E2; subst; auto.
Qed.

Section Comb.
  Variable cap : nat.
  Variable capped : bool.
  Let keep (copy : list nat) : bool := (Nat.leb (list_sum copy) cap && capped) || negb capped.
  Let step (result : list (list nat)) (limit : nat) :=
    flat_map (fun comb => filter keep (map (fun i => comb ++ [i]) (seq 0 (S limit)))) result.

  Lemma keep_spec c : keep c = true <-> (capped = true -> list_sum c <= cap).
  Proof.
    unfold keep. destruct capped; cbn [negb andb orb]; rewrite ?andb_true_r, ?orb_false_r, ?andb_false_r; cbn.
    - rewrite Nat.leb_le. tauto.
    - split; auto. discriminate.
  Qed.
  Lemma step_In R l x : In x (step R l) <-> exists c i, In c R /\ i <= l /\ x = c ++ [i] /\ keep x = true.
  Proof.
    unfold step. rewrite in_flat_map. split.
    - intros [c [Hc Hx]]. apply filter_In in Hx. destruct Hx as [Hx Hk]. apply in_map_iff in Hx. destruct Hx as [i [E Hi]].
      apply in_seq in Hi. exists c, i. subst. repeat split; auto. lia.
    - intros (c & i & Hc & Hi & E & Hk). exists c. split; auto. apply filter_In. split; auto. apply in_map_iff. exists i. split; auto. apply in_seq. lia.
  Qed.
  Lemma fold_In limits : forall R x, In x (fold_left step limits R) <->
    exists c idx, In c R /\ below limits idx /\ x = c ++ idx /\ (limits <> [] -> keep x = true).
  Proof.
    induction limits as [|l limits IH]; intros R x; cbn [fold_left].
    - split.
      + intros H. exists x, []. rewrite app_nil_r. repeat split; auto. constructor.
      + intros (c & idx & Hc & Hb & E & _). inversion Hb; subst. rewrite app_nil_r. auto.
    - rewrite IH. split.
      + intros (c & idx & Hc & Hb & E & Hk). apply step_In in Hc. destruct Hc as (c' & i & Hc' & Hi & E' & Hk').
        exists c', (i :: idx). subst. rewrite <- app_assoc in *. cbn [app] in *. repeat split; auto. constructor; auto.
        intros _. destruct limits as [|l' limits].
        * inversion Hb; subst. rewrite <- Hk'. reflexivity.
        * apply Hk. discriminate.
      + intros (c & idx & Hc & Hb & E & Hk). inversion Hb as [|i l' idx' ls' Hi Hb' E1 E2]; subst.
        exists (c ++ [i]), idx'. rewrite <- app_assoc. cbn [app]. repeat split; auto.
        * apply step_In. exists c, i. repeat split; auto. specialize (Hk ltac:(discriminate)). rewrite keep_spec in *.
          intros Hc2. specialize (Hk Hc2). rewrite !list_sum_app in *. cbn [list_sum fold_right] in *. unfold list_sum in *. cbn [fold_right] in *. lia.
        * intros _. apply Hk. discriminate.
  Qed.
  Lemma fold_NoDup limits : forall R n, NoDup R -> (forall c, In c R -> length c = n) -> NoDup (fold_left step limits R).
  Proof.
    induction limits as [|l limits IH]; intros R n HR Hn; cbn [fold_left]; auto.
    apply (IH _ (S n)).
    - apply nodup_flat_map; auto.
      + intros c Hc. apply NoDup_filter. apply NoDup_map_inj; [|apply seq_NoDup]. intros i j _ _ E. apply app_inv_head in E. congruence.
      + intros a b x Ha Hb Hxa Hxb. apply filter_In in Hxa. apply filter_In in Hxb. destruct Hxa as [Hxa _], Hxb as [Hxb _].
        apply in_map_iff in Hxa. apply in_map_iff in Hxb. destruct Hxa as [i [Ei _]], Hxb as [j [Ej _]]. subst x.
        apply app_eq_len in Ej; [|rewrite (Hn a), (Hn b); auto]. destruct Ej; congruence.
    - intros x Hx. apply step_In in Hx. destruct Hx as (c & i & Hc & _ & -> & _). rewrite app_length, (Hn c) by auto. cbn. lia.
  Qed.
End Comb.

Lemma generate_combinations_spec (limits : list nat) (capped : bool) : limits <> [] ->
  NoDup (generate_combinations limits capped) /\
  forall idx, In idx (generate_combinations limits capped) <->
    below limits idx /\ (capped = true -> list_sum idx <= fold_right Nat.max 0 limits).
Proof.
  intros Hl. unfold generate_combinations. destruct limits as [|l limits]; [congruence|]. split.
  - apply (fold_NoDup (fold_right Nat.max 0 (l :: limits)) capped (l :: limits) [[]] 0).
    + constructor; [intros []|constructor].
    + intros c [<-|[]]. reflexivity.
  - intros idx. rewrite (fold_In (fold_right Nat.max 0 (l :: limits)) capped (l :: limits) [[]] idx). split.
    + intros (c & i & [<-|[]] & Hb & -> & Hk). cbn [app] in *. split; auto. apply keep_spec. auto.
    + intros [Hb Hk]. exists [], idx. cbn [app]. split; [left; auto|]. split; auto. split; auto. intros _. apply keep_spec. auto.
Qed.

Section Extract.
  Context {K : Type} {o : Ops K}.
  Local Open Scope K_scope.

  Lemma get_poly_loop (g : gdual K) (f : key -> K) (combs : list key) : (forall k, In k combs -> find_cf g k = Ok (f k)) ->
    forall ce, fold_left (fun acc exps => ce <- acc;; cf <- find_cf g exps;;
                 Ok (if negb (cf =? 0) then (fst ce ++ [cf], snd ce ++ [exps]) else ce)) combs (Ok ce)
    = Ok (fst ce ++ map f (filter (fun k => negb (f k =? 0)) combs), snd ce ++ filter (fun k => negb (f k =? 0)) combs).
  Proof.
    induction combs as [|k combs IH]; intros Hf ce; cbn [fold_left filter map].
    - rewrite !app_nil_r. destruct ce; reflexivity.
    - cbn [rbind]. rewrite Hf by (left; auto). cbn [rbind]. rewrite IH by (intros; apply Hf; right; auto).
      destruct (negb (f k =? 0)); cbn [fst snd map]; rewrite ?map_app; cbn [map]; rewrite <- ?app_assoc; reflexivity.
  Qed.
  Lemma combine_map_fst (f : key -> K) l : combine l (map f l) = map (fun k => (k, f k)) l.
  Proof. induction l; cbn [combine map]; congruence. Qed.
  Lemma below_repeat d n idx : below (repeat d n) idx <-> length idx = n /\ Forall (fun i => i <= d)%nat idx.
  Proof.
    unfold below. revert n. induction idx as [|i idx IH]; intros [|n]; cbn [repeat length].
    - split; intros; auto.
    - split; [intros H; inversion H|intros [H _]; discriminate].
    - split; [intros H; inversion H|intros [H _]; discriminate].
    - split.
      + intros H. inversion_clear H. apply IH in H1. destruct H1. split; [lia|constructor; auto].
      + intros [L H]. inversion_clear H. constructor; auto. apply IH. split; auto.
  Qed.
  Lemma max_repeat d n : n <> 0%nat -> fold_right Nat.max 0%nat (repeat d n) = d.
  Proof. induction n as [|[|n] IH]; intros H; [lia|cbn; lia|]. cbn [repeat fold_right] in *. rewrite IH by lia. lia. Qed.
  Lemma le_list_sum i l : In i l -> (i <= list_sum l)%nat.
  Proof. induction l as [|x l IH]; intros []; cbn [list_sum fold_right]; subst; [lia|]. unfold list_sum in *. specialize (IH H). lia. Qed.

  Definition poly_combs (g : gdual K) : list key :=
    let ndim := get_symbol_set_size g in
    if Nat.eqb ndim 1 then map (fun i => [i]) (seq 0 (S (gdegree g)))
    else if Nat.ltb 1 ndim then generate_combinations (repeat (gdegree g) ndim) true
    else [].
  Lemma poly_combs_spec (g : gdual K) : psyms (gp g) <> [] -> NoDup (poly_combs g) /\
    forall k, In k (poly_combs g) <-> length k = length (psyms (gp g)) /\ (list_sum k <= gdegree g)%nat.
  Proof.
    intros Hs. unfold poly_combs, get_symbol_set_size. destruct (Nat.eqb_spec (length (psyms (gp g))) 1) as [E|E].
    - split.
      + apply NoDup_map_inj; [|apply seq_NoDup]. intros i j _ _ H. congruence.
      + intros k. rewrite in_map_iff, E. split.
        * intros [i [<- Hi]]. apply in_seq in Hi. cbn. split; auto. lia.
        * intros [Hk Hd]. destruct k as [|i [|j k]]; try discriminate. exists i. split; auto. apply in_seq. cbn in Hd. lia.
    - destruct (Nat.ltb_spec 1 (length (psyms (gp g)))) as [L|L]; [|destruct (psyms (gp g)) as [|? [|? ?]]; cbn in *; [congruence|lia|lia]].
      assert (Hn : repeat (gdegree g) (length (psyms (gp g))) <> []) by (destruct (length (psyms (gp g))); [lia|discriminate]).
      destruct (generate_combinations_spec _ true Hn) as [N I]. split; auto.
      intros k. rewrite I, below_repeat, max_repeat by lia. split.
      + intros [[Hk _] Hd]. auto.
      + intros [Hk Hd]. repeat split; auto. apply Forall_forall. intros i Hi. apply le_list_sum in Hi. lia.
  Qed.

  Definition pcoef (g : gdual K) (k : key) : K := match pfind k (gp g) with Some v => v | None => 0 end.
  Lemma gdegree_ge (g : gdual K) t : In t (pterms (gp g)) -> (list_sum (fst t) <= gdegree g)%nat.
  Proof.
    unfold gdegree, pdegree. intros H. rewrite list_sum_kdeg. induction (pterms (gp g)) as [|u l IH]; destruct H; cbn [fold_right]; subst; [lia|].
    specialize (IH H). lia.
  Qed.
  Lemma gdegree_le_order (g : gdual K) : valid g -> (gdegree g <= gord g)%nat.
  Proof.
    intros Hg. unfold gdegree, pdegree. assert (H := valid_order g Hg). revert H. induction (pterms (gp g)) as [|u l IH]; intros H; cbn [fold_right]; [lia|].
    specialize (IH (fun t Ht => H t (or_intror Ht))). assert (X := H u (or_introl eq_refl)). rewrite list_sum_kdeg in X. lia.
  Qed.
  Lemma get_poly_eq (g : gdual K) : valid g -> (Z.of_nat (gord g) < 4294967296)%Z -> psyms (gp g) <> [] ->
    get_poly g = Ok (map (pcoef g) (filter (fun k => negb (pcoef g k =? 0)) (poly_combs g)), filter (fun k => negb (pcoef g k =? 0)) (poly_combs g)).
  Proof.
    intros Hg Ho Hs. unfold get_poly. fold (poly_combs g). rewrite (get_poly_loop g (pcoef g)).
    - reflexivity.
    - intros k Hk. apply poly_combs_spec in Hk; auto. destruct Hk as [Hl Hd]. unfold find_cf, get_symbol_set_size.
      assert (D := gdegree_le_order g Hg). rewrite list_sum_kdeg in Hd. rewrite Z.mod_small by (unfold two32; lia).
      destruct (Z.ltb_spec (Z.of_nat (gord g)) (Z.of_nat (kdeg k))); [lia|]. rewrite Hl, Nat.eqb_refl. cbn [negb].
      unfold pcoef. destruct (pfind k (gp g)); reflexivity.
  Qed.
  Lemma get_poly_spec (g : gdual K) : valid g -> (Z.of_nat (get_order g) < 4294967296)%Z -> (0 =? 0) = true ->
    exists coeffs exps, get_poly g = Ok (coeffs, exps) /\
      (psyms (gp g) = [] -> coeffs = [] /\ exps = []) /\
      (psyms (gp g) <> [] -> NoDup exps /\ length coeffs = length exps /\
         forall k c, In (k, c) (combine exps coeffs) <-> In (k, c) (pterms (gp g))).
  Proof.
    intros Hg Ho H00. destruct (psyms (gp g)) as [|s V] eqn:E.
    - exists [], []. split; [|split; auto; congruence]. unfold get_poly, get_symbol_set_size. rewrite E. reflexivity.
    - assert (Hs : psyms (gp g) <> []) by (rewrite E; discriminate).
      eexists _, _. split; [apply get_poly_eq; auto|]. split; [discriminate|]. intros _.
      destruct (poly_combs_spec g Hs) as [N I]. split; [apply NoDup_filter; auto|]. split; [apply map_length|].
      intros k c. rewrite combine_map_fst, in_map_iff. split.
      + intros [k' [Ek Hk]]. injection Ek as -> <-. apply filter_In in Hk. destruct Hk as [_ Hk]. unfold pcoef in *.
        destruct (pfind k (gp g)) as [v|] eqn:Ev; [apply tfind_In; exact Ev|]. rewrite H00 in Hk. discriminate.
      + intros H. exists k. assert (Ev : pfind k (gp g) = Some c).
        { apply tfind_Some; auto. apply (valid_distinct g Hg). }
        assert (Ec : pcoef g k = c) by (unfold pcoef; rewrite Ev; reflexivity). rewrite Ec. split; auto.
        apply filter_In. rewrite Ec. split; [apply I; split|].
        * apply (valid_length g Hg (k, c) H).
        * apply (gdegree_ge g (k, c) H).
        * assert (Z0 := valid_nonzero g Hg (k, c) H). cbn [snd] in Z0. rewrite Z0. reflexivity.
  Qed.
End Extract.
