(** * The statements of Properties_Bounding.v and their examples (proof file). *)
From Coq Require Import String List Arith Bool Lia ZArith Permutation QArith Qcanon Reals Lra.
From Verif Require Import Ops Syms Poly Gdual Functions Spec PolyFacts GdualFacts CoefFacts Compose Bounding SpecBounding BinomProofs BoundPoly TensorProofs BernProofs CycleProofs BoundsMain BoundsFinal CoreProofs ValueProofs MiscProofs Samples MapSamples.
Import ListNotations.
Open Scope string_scope. Open Scope list_scope. Open Scope nat_scope.

(** ** C32 *)
Lemma combos (limits : list nat) (capped : bool) : limits <> [] ->
  NoDup (generate_combinations limits capped) /\
  forall idx, In idx (generate_combinations limits capped) <->
    below limits idx /\ (capped = true -> list_sum idx <= fold_right Nat.max 0 limits).
Proof. exact (generate_combinations_spec limits capped). Qed.
Lemma poly_terms (K : Type) (o : Ops K) (fl : FieldLaws o) (g : gdual K) : valid g -> psyms (gp g) <> [] -> (Z.of_nat (get_order g) < 4294967296)%Z ->
  exists coeffs exps, get_poly g = Ok (coeffs, exps) /\ NoDup exps /\ length coeffs = length exps /\
    forall k c, In (k, c) (combine exps coeffs) <-> In (k, c) (pterms (gp g)).
Proof.
  intros Hg Hs Ho. destruct (get_poly_spec g Hg Ho (keqb_refl _)) as (c & e & E & _ & H). destruct (H Hs) as (? & ? & ?). eauto 10.
Qed.
Lemma combos_empty : exists limits idx, below limits idx /\ ~ In idx (generate_combinations limits false).
Proof. exists [], []. split; [constructor|intros []]. Qed.
Lemma poly_const : exists (g : gdual Qc) k c, valid g /\ (Z.of_nat (get_order g) < 4294967296)%Z /\ In (k, c) (pterms (gp g)) /\ get_poly g = Ok ([], []).
Proof.
  exists (gconst (q 2)), [], (q 2). split; [apply valid_const|]. split; [cbn; lia|]. split; [left; reflexivity|vm_compute; reflexivity].
Qed.

(** ** C34 *)
Section Q.
  Context {K : Type} {o : Ops K} {fl : FieldLaws o}.
  Local Open Scope K_scope.
  Add Field KfieldBS : (fl_field (K:=K)).
  Lemma q_reparam md (dom : list (string * (K * K))) dim s a b : (dim < length md)%nat -> (nth dim md 0 <= 62)%nat ->
    nth_error dom dim = Some (s, (a, b)) ->
    exists Q, get_q_matrix md dom dim = Ok Q /\ is_matrix (nth dim md 0 + 1)%nat (nth dim md 0 + 1)%nat Q /\
      forall (c : nat -> K) t,
        sum_to (nth dim md 0 + 1)%nat (fun i => sum_to (nth dim md 0 + 1)%nat (fun k => cell Q i k * c k) * kpow t i)
        = sum_to (nth dim md 0 + 1)%nat (fun k => c k * kpow (a + (b - a) * t) k).
  Proof.
    intros Hd Hn E. destruct (q_spec md dom dim _ s a b Hd eq_refl Hn E) as (Q & EQ & MQ & CQ). exists Q. split; auto. split; auto.
    intros c t. set (n := nth dim md 0%nat) in *.
    transitivity (sum_to (n + 1)%nat (fun i => sum_to (n + 1)%nat (fun k => cell Q i k * c k * kpow t i))).
    { apply sum_to_ext. intros i Hi. symmetry. apply sum_to_scal_r. }
    rewrite sum_to_swap. apply sum_to_ext. intros k Hk.
    rewrite <- (q_columns n k a b t) by lia. rewrite <- sum_to_scal. apply sum_to_ext. intros i Hi. rewrite CQ by lia. ring.
  Qed.
End Q.

(** ** C35, C36 *)
Lemma undsym_dsym V : map undsym (map dsym V) = V.
Proof. rewrite map_map. rewrite <- (map_id V) at 2. apply map_ext. reflexivity. Qed.
Section R.
  Variables (g : gdual R) (V : list string) (ex : list (string * R)) (dom : list (string * (R * R))) (I : string -> R * R) (e : string -> R)
            (iter : list (string * (R * R)) -> list (string * (R * R))).
  Local Open Scope R_scope.
  Notation box := (relative_box V I e).
  Hypothesis Hg : valid g.
  Hypothesis HV : psyms (gp g) = map dsym V.
  Hypothesis Ho : (Z.of_nat (get_order g) < 4294967296)%Z.
  Hypothesis H62 : forall t, In t (pterms (gp g)) -> (list_sum (fst t) <= 62)%nat.
  Hypothesis Nd : NoDup (map fst dom).
  Hypothesis Ne : NoDup (map fst ex).
  Hypothesis Hl : forall s, In s V -> In (s, I s) dom /\ In (s, e s) ex.
  Hypothesis Hit : forall l, Permutation (iter l) l.

  Lemma Hdeg : (gdegree g <= 62)%nat.
  Proof.
    unfold gdegree, pdegree. assert (X := H62). clear - X. induction (pterms (gp g)) as [|t l IH]; cbn [fold_right]; [lia|].
    specialize (IH (fun t H => X t (or_intror H))). assert (Y := X t (or_introl eq_refl)). rewrite list_sum_kdeg in Y. lia.
  Qed.
  Lemma Hshift : shifted_domain g ex dom = Ok box.
  Proof.
    rewrite (shifted_spec g ex dom I e Nd Ne).
    - unfold get_symbol_set. rewrite HV, undsym_dsym. reflexivity.
    - unfold get_symbol_set. rewrite HV, undsym_dsym. exact Hl.
  Qed.
  Lemma Hlen : length (iter box) = length (psyms (gp g)).
  Proof. rewrite (Permutation_length (Hit box)), HV. unfold relative_box. rewrite !map_length. reflexivity. Qed.

  Lemma enclose_any : exists lo hi, get_bounds iter g ex dom = Ok (lo, hi) /\
    forall rho, inside (map dsym V) (map snd (iter box)) rho -> lo <= value g rho <= hi.
  Proof. rewrite <- HV. exact (enclose g ex dom box iter Hg Ho Hdeg Hshift Hlen). Qed.

  Lemma inside_box (pt rho : string -> R) : (forall s, In s V -> fst (I s) <= pt s <= snd (I s)) -> (forall s, In s V -> rho (dsym s) = pt s - e s) ->
    inside (map dsym V) (map snd box) rho.
  Proof.
    unfold inside, relative_box. intros H1 H2. clear - H1 H2. induction V as [|s l IH]; cbn [map]; constructor.
    - cbn [fst snd]. rewrite H2 by (left; auto). specialize (H1 s (or_introl eq_refl)). lra.
    - apply IH; intros; [apply H1|apply H2]; right; auto.
  Qed.
  Lemma enclose_same : map snd (iter box) = map snd box -> exists lo hi, get_bounds iter g ex dom = Ok (lo, hi) /\
    forall pt rho, (forall s, In s V -> fst (I s) <= pt s <= snd (I s)) -> (forall s, In s V -> rho (dsym s) = pt s - e s) ->
      lo <= value g rho <= hi.
  Proof.
    intros H. destruct enclose_any as (lo & hi & E & B). exists lo, hi. split; auto. intros pt rho H1 H2. apply B. rewrite H. apply (inside_box pt); auto.
  Qed.
  Lemma ordered_same : iter box = box -> map snd (iter box) = map snd box.
  Proof. intros ->. reflexivity. Qed.
  Lemma one_same : (length V <= 1)%nat -> map snd (iter box) = map snd box.
  Proof.
    intros H. assert (X := Hit box). unfold relative_box in *. destruct V as [|s [|]]; cbn [map length] in *; [|
      apply Permutation_sym, Permutation_length_1_inv in X; rewrite X; auto|lia].
    apply Permutation_sym, Permutation_nil in X. rewrite X. reflexivity.
  Qed.
  Lemma equal_same : (forall s t, In s V -> In t V -> fst (I s) - e s = fst (I t) - e t /\ snd (I s) - e s = snd (I t) - e t) -> map snd (iter box) = map snd box.
  Proof.
    intros H. assert (X := Permutation_map snd (Hit box)).
    assert (G : forall l l' : list (R * R), Permutation l l' -> (forall a b, In a l' -> In b l' -> a = b) -> l = l').
    { intros l l' P Q. apply (nth_ext _ _ (0, 0) (0, 0)); [apply Permutation_length; auto|]. intros n Hn. apply Q.
      - apply (Permutation_in _ P). apply nth_In. auto.
      - apply nth_In. rewrite <- (Permutation_length P). auto. }
    apply G; auto. unfold relative_box. rewrite map_map. cbn [snd]. intros a b Ha Hb. apply in_map_iff in Ha. apply in_map_iff in Hb.
    destruct Ha as [s [<- Hs]]. destruct Hb as [t [<- Ht]]. destruct (H s t Hs Ht) as [-> ->]. reflexivity.
  Qed.

  Lemma enclose_one : (length V <= 1)%nat -> exists lo hi, get_bounds iter g ex dom = Ok (lo, hi) /\
    forall pt rho, (forall s, In s V -> fst (I s) <= pt s <= snd (I s)) -> (forall s, In s V -> rho (dsym s) = pt s - e s) ->
      lo <= value g rho <= hi.
  Proof. intros H. apply enclose_same, one_same, H. Qed.
  Lemma enclose_equal : (forall s t, In s V -> In t V -> fst (I s) - e s = fst (I t) - e t /\ snd (I s) - e s = snd (I t) - e t) ->
    exists lo hi, get_bounds iter g ex dom = Ok (lo, hi) /\
    forall pt rho, (forall s, In s V -> fst (I s) <= pt s <= snd (I s)) -> (forall s, In s V -> rho (dsym s) = pt s - e s) ->
      lo <= value g rho <= hi.
  Proof. intros H. apply enclose_same, equal_same, H. Qed.

  Lemma corners : forall coeffs exps, get_poly g = Ok (coeffs, exps) -> exps <> [] ->
    exists M, get_titi_bernstein_patch_ndim_generalbox coeffs exps (iter box) = Ok M /\
      get_bounds iter g ex dom = Ok (min_of (concat M), max_of (concat M)) /\
      forall (c : nat -> bool) rho,
        (forall d, (d < length V)%nat -> rho (nth d (map dsym V) EmptyString)
           = let I := snd (nth d (iter box) (EmptyString, (0, 0))) in if c d then snd I else fst I) ->
        In (value g rho) (concat M).
  Proof.
    intros coeffs exps Ep Hne.
    destruct (bounds_cases g ex dom iter box Hg Ho Hdeg Hshift ltac:(rewrite Hlen; lia)) as [[E0 _]|(coeffs' & exps' & md & M & Ep' & Hs & Lmd & _ & EM & E & SM & HM)].
    - exfalso. rewrite Ep in E0. injection E0 as _ ->. auto.
    - rewrite Ep in Ep'. injection Ep' as <- <-. exists M. split; auto. split; auto. intros c rho Hr.
      rewrite HV in *. rewrite map_length in *.
      rewrite <- (HM (fun d => if c d then 1 else 0)).
      + apply (wsum_vertex md M (fun d => if c d then 1 else 0) (map (fun d => if c d then nth d md 0%nat else 0%nat) (seq 0 (length md)))); auto.
        * apply below_nth. rewrite map_length, seq_length. split; auto. intros i Hi. rewrite (nth_map_seq (fun d => if c d then nth d md 0%nat else 0%nat)) by auto. destruct (c i); lia.
        * intros d k0 Hd Hk0. rewrite (nth_map_seq (fun d => if c d then nth d md 0%nat else 0%nat)) by auto. destruct (c d); [exact (bern_at_1 _ k0 Hk0)|exact (bern_at_0 _ k0 Hk0)].
      + intros d Hd. rewrite (Hr d Hd). unfold nth_lo, nth_hi. cbn. destruct (c d); ring.
  Qed.

  Lemma linear_exact : (forall t i, In t (pterms (gp g)) -> (nth i (fst t) 0 <= 1)%nat) -> (forall s, In s V -> fst (I s) <= snd (I s)) ->
    exists lo hi rho rho', get_bounds iter g ex dom = Ok (lo, hi) /\
      inside (map dsym V) (map snd (iter box)) rho /\ inside (map dsym V) (map snd (iter box)) rho' /\
      value g rho = lo /\ value g rho' = hi.
  Proof.
    intros H1 HI. destruct (attained g ex dom box iter Hg Ho Hdeg Hshift Hlen H1) as (lo & hi & c & c' & E & E1 & E2).
    assert (F : Forall (fun J => fst J <= snd J) (map snd (iter box))).
    { apply (@Permutation_Forall _ _ (map snd box)); [apply Permutation_map, Permutation_sym, Hit|].
      unfold relative_box. rewrite map_map. cbn [snd]. apply Forall_forall. intros J HJ. apply in_map_iff in HJ. destruct HJ as [s [<- Hs]]. cbn [fst snd]. specialize (HI s Hs). lra. }
    assert (T : forall c : nat -> bool, forall d, (d < length (psyms (gp g)))%nat -> 0 <= (fun d => if c d then 1 else 0) d <= 1) by (intros c0 d _; destruct (c0 d); lra).
    eexists lo, hi, _, _. rewrite <- HV. split; [exact E|].
    split; [apply (point_inside g box iter Hg Hdeg Hlen (fun d => if c d then 1 else 0) (T c) F)|].
    split; [apply (point_inside g box iter Hg Hdeg Hlen (fun d => if c' d then 1 else 0) (T c') F)|]. auto.
  Qed.
End R.

(** ** Counterexample: dx + 2 dy on [0,1] x [0,3], iterated in reverse order. *)
Local Open Scope R_scope.
Definition lin2 : gdual R := mkG (mkPoly ["dx"; "dy"] [([1; 0]%nat, 1); ([0; 1]%nat, 2)]) 1.
Lemma lin2_valid : valid lin2.
Proof.
  constructor; cbn [lin2 gp psyms pterms gord].
  - repeat constructor.
  - intros t [<-|[<-|[]]]; reflexivity.
  - cbn. repeat constructor; intros H; cbn in H; intuition discriminate.
  - intros t [<-|[<-|[]]]; cbn; unfold Reqb; destruct (Req_EM_T _ _); auto; exfalso; lra.
  - intros t [<-|[<-|[]]]; cbn; lia.
Qed.
Definition dom2 : list (string * (R * R)) := [("x", (0, 1)); ("y", (0, 3))].
Definition ex2 : list (string * R) := [("x", 0); ("y", 0)].
Definition I2 (s : string) : R * R := if String.eqb s "x" then (0, 1) else (0, 3).
Lemma nodup_xy {A} (a b : A) : NoDup (map fst [("x", a); ("y", b)]).
Proof. cbn. repeat constructor; intros H; cbn in H; intuition discriminate. Qed.
Lemma lin2_lookup s : In s ["x"; "y"] -> In (s, I2 s) dom2 /\ In (s, 0) ex2.
Proof. intros [<-|[<-|[]]]; cbn; auto. Qed.
Lemma lin2_value rho : value lin2 rho = rho "dx" + 2 * rho "dy".
Proof. unfold value, sum_list, mono_at. cbn. ring. Qed.
Lemma reversed_refuted : exists (g : gdual R) V dom ex iter pt lo hi,
  valid g /\ psyms (gp g) = map dsym V /\ (forall l, Permutation (iter l) l) /\
  get_bounds iter g ex dom = Ok (lo, hi) /\
  (forall s, In s V -> exists a b, In (s, (a, b)) dom /\ In (s, 0) ex /\ a <= pt (dsym s) <= b) /\ ~ value g pt <= hi.
Proof.
  destruct (linear_exact lin2 ["x"; "y"] ex2 dom2 I2 (fun _ => 0) (fun l => rev l)) as (lo & hi & rho & rho' & E & In1 & In2 & E1 & E2).
  - exact lin2_valid.
  - reflexivity.
  - cbn; lia.
  - intros t [<-|[<-|[]]]; cbn; lia.
  - apply nodup_xy.
  - apply nodup_xy.
  - apply lin2_lookup.
  - intros l. apply Permutation_sym, Permutation_rev.
  - intros t i [<-|[<-|[]]]; destruct i as [|[|i]]; cbn; try lia; destruct i; lia.
  - intros s [<-|[<-|[]]]; cbn; lra.
  - exists lin2, ["x"; "y"], dom2, ex2, (fun l => rev l), (fun s => if String.eqb s "dx" then 1 else 3), lo, hi.
    split; [exact lin2_valid|]. split; [reflexivity|]. split; [intros l; apply Permutation_sym, Permutation_rev|]. split; [exact E|]. split.
    + intros s [<-|[<-|[]]].
      * exists 0, 1. cbn. repeat split; auto; lra.
      * exists 0, 3. cbn. repeat split; auto; lra.
    + rewrite <- E2, !lin2_value. clear - In2. unfold inside, relative_box in In2. cbn in In2.
      inversion_clear In2 as [|? ? ? ? A In3]. inversion_clear In3 as [|? ? ? ? B _]. cbn in A, B. cbn. intros L. unfold dsym in *. lra.
Qed.

(** The hypotheses of the bounds are met by the same polynomial. *)
Lemma lin2_case : valid lin2 /\ psyms (gp lin2) = map dsym ["x"; "y"] /\ (Z.of_nat (get_order lin2) < 4294967296)%Z /\
  (forall t, In t (pterms (gp lin2)) -> (list_sum (fst t) <= 62)%nat) /\ NoDup (map fst dom2) /\ NoDup (map fst ex2) /\
  (forall s, In s ["x"; "y"] -> In (s, I2 s) dom2 /\ In (s, 0) ex2) /\ (forall s, In s ["x"; "y"] -> fst (I2 s) <= snd (I2 s)) /\
  (forall t i, In t (pterms (gp lin2)) -> (nth i (fst t) 0 <= 1)%nat) /\ length (pterms (gp lin2)) = 2%nat.
Proof.
  split; [exact lin2_valid|]. split; [reflexivity|]. split; [cbn; lia|]. split; [intros t [<-|[<-|[]]]; cbn; lia|].
  split; [apply nodup_xy|]. split; [apply nodup_xy|]. split; [exact lin2_lookup|]. split; [intros s [<-|[<-|[]]]; cbn; lra|].
  split; [|reflexivity]. intros t i [<-|[<-|[]]]; destruct i as [|[|i]]; cbn; try lia; destruct i; lia.
Qed.

Lemma corner_case : exists (coeffs : list R) exps, get_poly lin2 = Ok (coeffs, exps) /\ exps <> [].
Proof.
  destruct (poly_terms R OpsR FieldLawsR lin2 lin2_valid ltac:(discriminate) ltac:(cbn; lia)) as (c & e & E & ND & L & H).
  exists c, e. split; auto. intros ->. assert (X : In ([1; 0]%nat, 1) (combine (@nil (list nat)) c)) by (apply H; left; reflexivity). destruct X.
Qed.

Lemma bounds_computed : (get_bounds (fun l => l) (gadd (gmul_sg (q 3) (gmul mx mx)) my) [("x", q 0); ("y", q 0)] [("x", (- q 1, q 2)%Qc); ("y", (q 0, q 1))]
  = Ok (- q 6, q 13)%Qc).
Proof. vm_compute. repeat f_equal; apply Qc_is_canon; vm_compute; reflexivity. Qed.
