(** * Passes over the dimensions: weighted sums are preserved (proof file). *)
From Coq Require Import String List Arith Bool Lia ZArith Permutation.
From Verif Require Import Ops Syms Poly Gdual Functions Spec Bounding SpecBounding BinomProofs TensorProofs BernProofs.
Import ListNotations.


Lemma size_pos ds : 0 < size ds.
Proof. induction ds as [|d ds IH]; cbn [size fold_right]; [lia|]. fold (size ds). nia. Qed.
Lemma size_cons d ds : size (d :: ds) = S d * size ds.
Proof. reflexivity. Qed.
Lemma size_snoc ds d : size (ds ++ [d]) = size ds * S d.
Proof. induction ds as [|x ds IH]; cbn [app]; rewrite ?size_cons; [cbn; lia|]. rewrite IH. lia. Qed.
Lemma size_perm a b : Permutation a b -> size a = size b.
Proof. induction 1; rewrite ?size_cons; lia. Qed.
Lemma rot_perm {A} n (l : list A) : Permutation (rot n l) l.
Proof. unfold rot. rewrite <- (firstn_skipn n l) at 3. apply Permutation_app_comm. Qed.
Lemma rot_length {A} n (l : list A) : length (rot n l) = length l.
Proof. apply Permutation_length, rot_perm. Qed.
Lemma rot_0 {A} (l : list A) : rot 0 l = l.
Proof. unfold rot. cbn. apply app_nil_r. Qed.
Lemma rot_all {A} (l : list A) : rot (length l) l = l.
Proof. unfold rot. rewrite skipn_all, firstn_all. reflexivity. Qed.
Lemma skipn_cons {A} n (l : list A) d : n < length l -> skipn n l = nth n l d :: skipn (S n) l.
Proof. revert l; induction n as [|n IH]; intros [|x l] H; cbn [length] in *; try lia; auto. cbn [skipn nth]. rewrite IH by lia. reflexivity. Qed.
Lemma firstn_snoc {A} n (l : list A) d : n < length l -> firstn (S n) l = firstn n l ++ [nth n l d].
Proof. revert l; induction n as [|n IH]; intros [|x l] H; cbn [length] in *; try lia; auto. cbn [firstn nth app]. rewrite <- IH by lia. reflexivity. Qed.
Lemma rot_step {A} n (l : list A) d : n < length l -> rot n l = nth n l d :: skipn (S n) l ++ firstn n l /\
  rot (S n) l = (skipn (S n) l ++ firstn n l) ++ [nth n l d].
Proof. intros H. unfold rot. rewrite (skipn_cons n l d), (firstn_snoc n l d), app_assoc by auto. auto. Qed.
Lemma rot_map {A B} (f : A -> B) n l : rot n (map f l) = map f (rot n l).
Proof. unfold rot. rewrite map_app, skipn_map, firstn_map. reflexivity. Qed.
Lemma map_nth_seq {A} (l : list A) d : map (fun i => nth i l d) (seq 0 (length l)) = l.
Proof.
  apply (nth_ext _ _ d d); [rewrite map_length, seq_length; auto|]. intros i Hi. rewrite map_length, seq_length in Hi.
  rewrite (nth_map_seq (fun i => nth i l d)) by auto. reflexivity.
Qed.

(** the products of the code *)
Lemma fold_prod (f : nat -> nat) (p : nat -> bool) l : forall c,
  fold_left (fun c m => if p m then (c * (f m + 1)) else c) l c = c * size (map f (filter p l)).
Proof.
  induction l as [|m l IH]; intros c; cbn [fold_left filter]; [cbn; lia|]. rewrite IH. destruct (p m); cbn [map]; rewrite ?size_cons; nia.
Qed.
Lemma filter_perm {A} (p : A -> bool) a b : Permutation a b -> Permutation (filter p a) (filter p b).
Proof.
  induction 1; cbn [filter]; auto.
  - destruct (p x); auto.
  - destruct (p x), (p y); auto. apply perm_swap.
  - eapply Permutation_trans; eauto.
Qed.
Lemma filter_all {A} (p : A -> bool) l : (forall x, In x l -> p x = true) -> filter p l = l.
Proof.
  induction l as [|x l IH]; intros H; cbn [filter]; auto. rewrite (H x) by (left; auto). rewrite IH by (intros; apply H; right; auto). reflexivity.
Qed.
Lemma fold_left_ext_fun {A B} (f g : A -> B -> A) l : (forall a b, f a b = g a b) -> forall a, fold_left f l a = fold_left g l a.
Proof. intros H. induction l as [|x l IH]; intros a; cbn [fold_left]; auto. rewrite H. apply IH. Qed.

Lemma rot_seq2 n N : 1 < N -> n < N -> exists os, rot n (seq 0 N) = n :: (n + 1) mod N :: os /\ NoDup (n :: (n + 1) mod N :: os).
Proof.
  intros HN Hn. destruct (rot_step n (seq 0 N) 0) as [E _]; [rewrite seq_length; auto|]. rewrite seq_nth in E by auto. cbn [Nat.add] in E.
  assert (D : NoDup (rot n (seq 0 N))) by (eapply Permutation_NoDup; [symmetry; apply rot_perm|apply seq_NoDup]).
  destruct (Nat.eq_dec (S n) N) as [L|L].
  - rewrite skipn_all2 in E by (rewrite seq_length; lia). cbn [app] in E.
    replace ((n + 1) mod N) with 0 by (replace (n + 1) with N by lia; rewrite Nat.mod_same; lia).
    destruct n as [|n]; [lia|]. destruct N as [|N]; [lia|]. cbn [seq firstn] in E. exists (firstn n (seq 1 N)). rewrite <- E. auto.
  - rewrite (skipn_cons (S n) (seq 0 N) 0) in E by (rewrite seq_length; lia). rewrite seq_nth in E by lia. cbn [app Nat.add] in E.
    rewrite Nat.mod_small by lia. rewrite Nat.add_1_r. eexists. rewrite <- E at 2. split; [exact E|exact D].
Qed.

Section Cycle.
  Context {K : Type} {o : Ops K} {fl : FieldLaws o}.
  Local Open Scope K_scope.
  Add Field KfieldCP : (fl_field (K:=K)).
  Notation matrix := (list (list K)).

  Fixpoint weight (ds : list nat) (ws : list (nat -> K)) (j : nat) : K :=
    match ds, ws with
    | d :: ds', w :: ws' => w (j mod S d)%nat * weight ds' ws' (j / S d)%nat
    | _, _ => 1
    end.
  Definition wsum (ds : list nat) (ws : list (nat -> K)) (M : matrix) : K :=
    match ds, ws with
    | d :: rest, w :: ws' => sum_to (S d) (fun i => sum_to (size rest) (fun j => w i * weight rest ws' j * cell M i j))
    | _, _ => 0
    end.

  Lemma weight_snoc ds : forall ws d w b i, length ws = length ds -> (b < size ds)%nat -> (i <= d)%nat ->
    weight (ds ++ [d]) (ws ++ [w]) (b + i * size ds) = weight ds ws b * w i.
  Proof.
    induction ds as [|x ds IH]; intros [|v ws] d w b i L Hb Hi; try discriminate.
    - cbn [app weight]. change (size []) with 1%nat in *. replace b with 0%nat by lia. rewrite Nat.mul_1_r. cbn [Nat.add]. rewrite Nat.mod_small by lia. ring.
    - cbn [app weight]. rewrite size_cons in *. replace (b + i * (S x * size ds))%nat with (b + (i * size ds) * S x)%nat by lia.
      rewrite Nat.mod_add, Nat.div_add by lia. rewrite IH; auto; [ring|apply Nat.div_lt_upper_bound; lia].
  Qed.

  Lemma wsum_matmul d rest (w w' : nat -> K) ws (B M : matrix) : is_matrix (S d) (S d) B -> shape (d :: rest) M ->
    (forall k, (k <= d)%nat -> sum_to (S d) (fun i => w' i * cell B i k) = w k) ->
    shape (d :: rest) (matmul B M) /\ wsum (d :: rest) (w' :: ws) (matmul B M) = wsum (d :: rest) (w :: ws) M.
  Proof.
    intros HB HM Hw. cbn [shape wsum] in *. destruct (matmul_spec _ _ _ _ _ HB HM ltac:(lia) ltac:(lia)) as [HP CP]. split; auto.
    transitivity (sum_to (S d) (fun i => sum_to (size rest) (fun j => sum_to (S d) (fun k => w' i * cell B i k * (weight rest ws j * cell M k j))))).
    { apply sum_to_ext. intros i Hi. apply sum_to_ext. intros j Hj. rewrite CP by auto. rewrite <- sum_to_scal. apply sum_to_ext. intros k Hk. ring. }
    transitivity (sum_to (size rest) (fun j => sum_to (S d) (fun k => sum_to (S d) (fun i => w' i * cell B i k) * (weight rest ws j * cell M k j)))).
    { rewrite sum_to_swap. apply sum_to_ext. intros j Hj. rewrite sum_to_swap. apply sum_to_ext. intros k Hk. rewrite sum_to_scal_r. reflexivity. }
    rewrite sum_to_swap. apply sum_to_ext. intros k Hk. apply sum_to_ext. intros j Hj. rewrite Hw by lia. ring.
  Qed.

  Lemma cycle_cells (M : matrix) md dim d0 d1 rest : (1 < length md)%nat -> (dim < length md)%nat ->
    rot dim md = d0 :: d1 :: rest -> shape (d0 :: d1 :: rest) M ->
    shape (d1 :: rest ++ [d0]) (get_cycled_2d_array_vec M md dim) /\
    forall a b i, (a <= d1)%nat -> (b < size rest)%nat -> (i <= d0)%nat ->
      cell (get_cycled_2d_array_vec M md dim) a (b + i * size rest) = cell M i (a + b * S d1).
  Proof.
    intros HN Hd Er HM. unfold get_cycled_2d_array_vec.
    destruct (Nat.eqb_spec (length md) 1) as [E|_]; [lia|].
    destruct (rot_seq2 dim (length md) HN Hd) as [os [Eo No]]. set (next := ((dim + 1) mod length md)%nat) in *.
    assert (Emd : rot dim md = map (fun i => nth i md 0%nat) (rot dim (seq 0 (length md)))).
    { rewrite <- rot_map. f_equal. symmetry. apply map_nth_seq. }
    rewrite Eo, Er in Emd. cbn [map] in Emd. injection Emd as E0 E1 E2.
    assert (Hd1 : (nth next md 0 + 1 = S d1)%nat) by lia. rewrite Hd1.
    assert (Np := No). inversion_clear No as [|? ? Na Nb]. inversion_clear Nb as [|? ? Nc Ne].
    assert (P := rot_perm dim (seq 0 (length md))). rewrite Eo in P.
    assert (Ecols : fold_left (fun c m => if Nat.eqb m next then c else (c * (nth m md 0 + 1))%nat) (seq 0 (length md)) 1%nat = size (rest ++ [d0])).
    { rewrite (fold_left_ext_fun _ (fun c m => if negb (Nat.eqb m next) then (c * (nth m md 0 + 1))%nat else c)) by (intros c m; destruct (Nat.eqb m next); reflexivity).
      rewrite (fold_prod (fun m => nth m md 0%nat)), Nat.mul_1_l.
      rewrite (size_perm _ _ (Permutation_map _ (filter_perm (fun m => negb (Nat.eqb m next)) _ _ (Permutation_sym P)))).
      cbn [filter]. rewrite Nat.eqb_refl. cbn [negb]. destruct (Nat.eqb_spec dim next) as [X|X]; [exfalso; apply Na; left; auto|]. cbn [negb].
      rewrite filter_all by (intros x Hx; destruct (Nat.eqb_spec x next); subst; auto).
      cbn [map]. rewrite <- E2, <- E0, size_cons, size_snoc. lia. }
    assert (Estr : fold_left (fun c m => if negb (Nat.eqb m (dim mod length md)) && negb (Nat.eqb m next) then (c * (nth m md 0 + 1))%nat else c) (seq 0 (length md)) 1%nat = size rest).
    { rewrite Nat.mod_small by auto. rewrite (fold_prod (fun m => nth m md 0%nat) (fun m => negb (Nat.eqb m dim) && negb (Nat.eqb m next))), Nat.mul_1_l.
      rewrite (size_perm _ _ (Permutation_map _ (filter_perm (fun m => negb (Nat.eqb m dim) && negb (Nat.eqb m next)) _ _ (Permutation_sym P)))).
      cbn [filter]. rewrite !Nat.eqb_refl. cbn [negb andb]. rewrite andb_false_r.
      rewrite filter_all; [rewrite <- E2; reflexivity|].
      intros x Hx. destruct (Nat.eqb_spec x dim); [subst; exfalso; apply Na; right; auto|]. destruct (Nat.eqb_spec x next); [subst; contradiction|reflexivity]. }
    rewrite Ecols, Estr. clear Ecols Estr.
    cbn [shape] in HM. rewrite (is_matrix_row _ _ M 0 HM) by lia. replace (length M) with (S d0) by (symmetry; apply HM).
    rewrite (fold_left_nested (fun c i j => Bounding.mset c (j mod S d1)%nat (j / S d1 + i * size rest)%nat (mget M i j)) (fun _ => seq 0 (size (d1 :: rest))) (seq 0 (S d0))).
    set (L := flat_map _ _).
    assert (HL : forall i j, In (i, j) L <-> (i < S d0 /\ j < size (d1 :: rest))%nat).
    { intros i j. unfold L. rewrite in_flat_map. split.
      - intros [x [Hx H]]. apply in_map_iff in H. destruct H as [y [E Hy]]. injection E as -> ->. apply in_seq in Hx. apply in_seq in Hy. lia.
      - intros [H1 H2]. exists i. split; [apply in_seq; lia|]. apply in_map_iff. exists j. split; auto. apply in_seq. lia. }
    set (fi := fun ij : nat * nat => (snd ij mod S d1)%nat). set (fj := fun ij : nat * nat => (snd ij / S d1 + fst ij * size rest)%nat).
    set (fv := fun ij : nat * nat => mget M (fst ij) (snd ij)).
    assert (Hrange : forall x, In x L -> (fi x < S d1)%nat /\ (fj x < size (rest ++ [d0]))%nat).
    { intros [i j] Hx. apply HL in Hx. unfold fi, fj. cbn [fst snd]. split; [apply Nat.mod_upper_bound; lia|].
      rewrite size_cons in Hx. assert (j / S d1 < size rest)%nat by (apply Nat.div_lt_upper_bound; lia).
      rewrite size_snoc. nia. }
    split.
    - cbn [shape]. apply (writes_matrix (S d1) (size (rest ++ [d0])) fi fj fv). apply zeros_matrix.
    - intros a b i Ha Hb Hi. apply (writes_cell (S d1) (size (rest ++ [d0])) fi fj fv); auto.
      + apply zeros_matrix.
      + intros [i' j'] Hx Ea Eb. apply HL in Hx. unfold fi, fj, fv in *. cbn [fst snd] in *. unfold mget, cell.
        assert (Hdiv : (j' / S d1 < size rest)%nat) by (apply Nat.div_lt_upper_bound; [lia|rewrite size_cons in Hx; lia]).
        assert (j' / S d1 = b /\ i' = i)%nat as [Ej Ei].
        { assert (X := Nat.div_mod_unique (size rest) i' i (j' / S d1) b Hdiv Hb). destruct X as [X1 X2]. nia. auto. }
        subst i'. replace j' with (a + b * S d1)%nat; auto. rewrite (Nat.div_mod j' (S d1)) by lia. rewrite Ea, Ej. lia.
      + left. exists (i, (a + b * S d1)%nat). split; [apply HL; rewrite size_cons; nia|]. unfold fi, fj. cbn [fst snd].
        rewrite Nat.mod_add, Nat.div_add by lia. rewrite Nat.mod_small, Nat.div_small by lia. auto.
  Qed.

  Lemma cycle_wsum (M : matrix) md dim d rest w ws : (dim < length md)%nat -> rot dim md = d :: rest -> length ws = length rest ->
    shape (d :: rest) M ->
    shape (rest ++ [d]) (get_cycled_2d_array_vec M md dim) /\
    wsum (rest ++ [d]) (ws ++ [w]) (get_cycled_2d_array_vec M md dim) = wsum (d :: rest) (w :: ws) M.
  Proof.
    intros Hd Er Lw HM. assert (Ln := rot_length dim md). rewrite Er in Ln. cbn [length] in Ln.
    destruct rest as [|d1 rest].
    - destruct ws; [|discriminate]. unfold get_cycled_2d_array_vec. cbn [length] in Ln. rewrite <- Ln. cbn [Nat.eqb app]. auto.
    - destruct ws as [|w1 ws]; [discriminate|]. cbn [length] in *.
      destruct (cycle_cells M md dim d d1 rest) as [Hs Hc]; auto; [lia|]. cbn [app]. split; auto.
      cbn [wsum]. rewrite size_snoc.
      transitivity (sum_to (S d1) (fun a => sum_to (S d) (fun i => sum_to (size rest) (fun b => w i * (w1 a * weight rest ws b) * cell M i (a + b * S d1))))).
      { apply sum_to_ext. intros a Ha. rewrite sum_to_blocks. apply sum_to_ext. intros i Hi. apply sum_to_ext. intros b Hb.
        rewrite Hc, weight_snoc by lia. ring. }
      rewrite sum_to_swap. apply sum_to_ext. intros i Hi. rewrite size_cons, sum_to_blocks, sum_to_swap. apply sum_to_ext. intros b Hb.
      apply sum_to_ext. intros a Ha. cbn [weight]. rewrite Nat.mod_add, Nat.div_add by lia.
      rewrite Nat.mod_small, Nat.div_small by lia. cbn [Nat.add]. ring.
  Qed.

  (** A pass over all the dimensions *)
  Lemma pass_wsum (md : list nat) (B : nat -> matrix) (W W' : list (nat -> K)) (M : matrix) :
    md <> [] -> length W = length md -> length W' = length md -> shape md M ->
    (forall dim, (dim < length md)%nat -> is_matrix (S (nth dim md 0%nat)) (S (nth dim md 0%nat)) (B dim) /\
       forall k, (k <= nth dim md 0%nat)%nat ->
         sum_to (S (nth dim md 0%nat)) (fun i => nth dim W' (fun _ => 0) i * cell (B dim) i k) = nth dim W (fun _ => 0) k) ->
    forall n, (n <= length md)%nat ->
    shape (rot n md) (fold_left (fun L dim => get_cycled_2d_array_vec (matmul (B dim) L) md dim) (seq 0 n) M) /\
    wsum (rot n md) (skipn n W ++ firstn n W') (fold_left (fun L dim => get_cycled_2d_array_vec (matmul (B dim) L) md dim) (seq 0 n) M)
      = wsum md W M.
  Proof.
    intros Hne LW LW' HM HB. induction n as [|n IH]; intros Hn.
    - rewrite rot_0. cbn. rewrite app_nil_r. auto.
    - destruct IH as [Hs Hw]; [lia|]. rewrite seq_S, fold_left_app. cbn [fold_left Nat.add].
      set (L := fold_left _ _ _) in *. destruct (rot_step n md 0%nat Hn) as [E1 E2].
      destruct (HB n Hn) as [HBm HBw]. set (w := nth n W (fun _ => 0)) in *. set (w' := nth n W' (fun _ => 0)) in *.
      set (ws := skipn (S n) W ++ firstn n W').
      assert (Lws : length ws = length (skipn (S n) md ++ firstn n md)).
      { unfold ws. rewrite !app_length, !skipn_length, !firstn_length. lia. }
      rewrite (skipn_cons n W (fun _ => 0)) in Hw by lia. fold w in Hw. cbn [app] in Hw. fold ws in Hw.
      rewrite E1 in Hs, Hw.
      destruct (wsum_matmul (nth n md 0%nat) _ w w' ws (B n) L HBm Hs HBw) as [Hs2 Hw2].
      destruct (cycle_wsum (matmul (B n) L) md n _ _ w' ws Hn E1 Lws Hs2) as [Hs3 Hw3].
      rewrite E2. split; auto.
      rewrite (firstn_snoc n W' (fun _ => 0)) by lia. fold w'. rewrite app_assoc. fold ws. rewrite Hw3, Hw2. exact Hw.
  Qed.
  Lemma pass_full (md : list nat) (B : nat -> matrix) (W W' : list (nat -> K)) (M : matrix) :
    md <> [] -> length W = length md -> length W' = length md -> shape md M ->
    (forall dim, (dim < length md)%nat -> is_matrix (S (nth dim md 0%nat)) (S (nth dim md 0%nat)) (B dim) /\
       forall k, (k <= nth dim md 0%nat)%nat ->
         sum_to (S (nth dim md 0%nat)) (fun i => nth dim W' (fun _ => 0) i * cell (B dim) i k) = nth dim W (fun _ => 0) k) ->
    shape md (fold_left (fun L dim => get_cycled_2d_array_vec (matmul (B dim) L) md dim) (seq 0 (length md)) M) /\
    wsum md W' (fold_left (fun L dim => get_cycled_2d_array_vec (matmul (B dim) L) md dim) (seq 0 (length md)) M) = wsum md W M.
  Proof.
    intros Hne LW LW' HM HB. destruct (pass_wsum md B W W' M Hne LW LW' HM HB (length md) (le_n _)) as [Hs Hw].
    rewrite rot_all in Hs, Hw. rewrite skipn_all2, firstn_all2 in Hw by lia. auto.
  Qed.

  (** Indices of a column *)
  Fixpoint digits (ds : list nat) (j : nat) : list nat :=
    match ds with
    | [] => []
    | d :: ds' => (j mod S d)%nat :: digits ds' (j / S d)%nat
    end.
  Lemma flat_lt ds : forall idx, below ds idx -> (flat ds idx < size ds)%nat.
  Proof.
    induction ds as [|d ds IH]; intros idx H; inversion H; subst; cbn [flat]; [cbn; lia|]. rewrite size_cons. assert (X := IH _ H4). nia.
  Qed.
  Lemma digits_flat ds : forall idx, below ds idx -> digits ds (flat ds idx) = idx.
  Proof.
    induction ds as [|d ds IH]; intros idx H; inversion H; subst; cbn [flat digits]; auto.
    rewrite (Nat.mul_comm (S d)), Nat.mod_add, Nat.div_add by lia. rewrite Nat.mod_small, Nat.div_small by lia. cbn [Nat.add]. rewrite IH; auto.
  Qed.
  Lemma flat_digits ds : forall j, (j < size ds)%nat -> flat ds (digits ds j) = j.
  Proof.
    induction ds as [|d ds IH]; intros j H; cbn [flat digits]; [cbn in H; lia|].
    rewrite IH by (rewrite size_cons in H; apply Nat.div_lt_upper_bound; lia). rewrite (Nat.div_mod j (S d)) at 3 by lia. lia.
  Qed.
  Lemma digits_below ds : forall j, below ds (digits ds j).
  Proof.
    induction ds as [|d ds IH]; intros j; cbn [digits]; constructor; [|apply IH].
    assert (X := Nat.mod_upper_bound j (S d) ltac:(lia)). lia.
  Qed.
  Fixpoint wprod (ws : list (nat -> K)) (idx : list nat) : K :=
    match ws, idx with
    | w :: ws', i :: idx' => w i * wprod ws' idx'
    | _, _ => 1
    end.
  Lemma weight_flat ds : forall ws idx, length ws = length ds -> below ds idx -> weight ds ws (flat ds idx) = wprod ws idx.
  Proof.
    induction ds as [|d ds IH]; intros [|w ws] idx L H; try discriminate; inversion H; subst; cbn [flat weight wprod]; auto.
    rewrite (Nat.mul_comm (S d)), Nat.mod_add, Nat.div_add by lia. rewrite Nat.mod_small, Nat.div_small by lia. cbn [Nat.add]. rewrite IH; auto.
  Qed.

  (** Weights concentrated on one index *)
  Definition delta (i : nat) : nat -> K := fun k => if Nat.eqb k i then 1 else 0.
  Lemma weight_delta ds : forall ws j j', length ws = length ds -> (j < size ds)%nat -> (j' < size ds)%nat ->
    Forall2 (fun w di => forall k, (k <= fst di)%nat -> w k = delta (snd di) k) ws (combine ds (digits ds j)) ->
    weight ds ws j' = if Nat.eqb j' j then 1 else 0.
  Proof.
    induction ds as [|d ds IH]; intros [|w ws] j j' L Hj Hj' F; try discriminate.
    - cbn in Hj, Hj'. replace j with 0%nat by lia. replace j' with 0%nat by lia. reflexivity.
    - cbn [digits combine] in F. inversion_clear F as [|? ? ? ? H H0]. assert (H' : forall k, (k <= d)%nat -> w k = delta (j mod S d) k) by exact H. clear H. cbn [weight]. rewrite size_cons in *.
      assert (D1 := Nat.div_mod j (S d) ltac:(lia)). assert (D2 := Nat.div_mod j' (S d) ltac:(lia)).
      assert (U1 := Nat.mod_upper_bound j (S d) ltac:(lia)). assert (U2 := Nat.mod_upper_bound j' (S d) ltac:(lia)).
      rewrite (IH ws (j / S d)%nat (j' / S d)%nat); auto; try (apply Nat.div_lt_upper_bound; lia).
      rewrite H' by lia. unfold delta.
      destruct (Nat.eqb_spec j' j) as [E3|N3].
      + subst j'. rewrite !Nat.eqb_refl. ring.
      + destruct (Nat.eqb_spec (j' mod S d) (j mod S d)) as [E1|N1]; cbv iota; [|ring].
        destruct (Nat.eqb_spec (j' / S d) (j / S d)) as [E2|N2]; cbv iota; [|ring].
        exfalso. apply N3. rewrite D1, D2, E1, E2. reflexivity.
  Qed.
  Lemma wsum_delta d rest w ws (M : matrix) i j : length ws = length rest -> (i <= d)%nat -> (j < size rest)%nat ->
    (forall k, (k <= d)%nat -> w k = delta i k) ->
    Forall2 (fun w di => forall k, (k <= fst di)%nat -> w k = delta (snd di) k) ws (combine rest (digits rest j)) ->
    wsum (d :: rest) (w :: ws) M = cell M i j.
  Proof.
    intros L Hi Hj Hw F. cbn [wsum].
    rewrite (sum_to_pick (S d) i); [|lia|].
    - rewrite (sum_to_pick (size rest) j); [|lia|].
      + rewrite Hw by auto. rewrite (weight_delta rest ws j j) by auto. unfold delta. rewrite !Nat.eqb_refl. ring.
      + intros k Hk N. rewrite (weight_delta rest ws j k) by auto. destruct (Nat.eqb_spec k j); [contradiction|ring].
    - intros k Hk N. apply sum_to_zero. intros l Hl. rewrite Hw by lia. unfold delta. destruct (Nat.eqb_spec k i); [contradiction|ring].
  Qed.
  Lemma weight_total ds : forall ws, length ws = length ds ->
    Forall2 (fun w d => sum_to (S d) w = 1) ws ds -> sum_to (size ds) (weight ds ws) = 1.
  Proof.
    induction ds as [|d ds IH]; intros [|w ws] L F; try discriminate.
    - change (size []) with 1%nat. rewrite sum_to_S, sum_to_0. cbn [weight]. ring.
    - inversion_clear F. rewrite size_cons, sum_to_blocks.
      transitivity (sum_to (size ds) (fun b => weight ds ws b * sum_to (S d) w)).
      + apply sum_to_ext. intros b Hb. rewrite <- sum_to_scal. apply sum_to_ext. intros a Ha. cbn [weight].
        rewrite Nat.mod_add, Nat.div_add by lia. rewrite Nat.mod_small, Nat.div_small by lia. cbn [Nat.add]. ring.
      + transitivity (sum_to (size ds) (weight ds ws)); [apply sum_to_ext; intros b _; rewrite H; ring|]. apply IH; auto.
  Qed.

  Lemma flat_snoc ds : forall idx d i, below ds idx -> flat (ds ++ [d]) (idx ++ [i]) = (flat ds idx + i * size ds)%nat.
  Proof.
    induction ds as [|x ds IH]; intros idx d i H; inversion H; subst; cbn [app flat]; [cbn; lia|]. rewrite size_cons, IH by auto. lia.
  Qed.
  Lemma cycle_entry (M : matrix) md dim : (dim < length md)%nat -> shape (rot dim md) M ->
    shape (rot (S dim) md) (get_cycled_2d_array_vec M md dim) /\
    forall idx, below (rot dim md) idx -> entry (rot (S dim) md) (get_cycled_2d_array_vec M md dim) (rot 1 idx) = entry (rot dim md) M idx.
  Proof.
    intros Hd HM. destruct (Nat.eq_dec (length md) 1) as [L1|L1].
    - destruct md as [|d [|]]; try discriminate. assert (dim = 0%nat) as -> by (cbn in Hd; lia). unfold get_cycled_2d_array_vec. cbn [length Nat.eqb rot skipn firstn app] in *.
      unfold rot in *. cbn [skipn firstn app] in *. split; auto. intros idx H. inversion H as [|i ? idx' ? H1 H2]; subst. inversion H2; subst. reflexivity.
    - destruct (rot_step dim md 0%nat Hd) as [E1 E2]. assert (Lr := rot_length dim md). rewrite E1 in Lr. rewrite E1, E2 in *.
      destruct (skipn (S dim) md ++ firstn dim md) as [|d1 rest]; [cbn in Lr; lia|]. set (d0 := nth dim md 0%nat) in *.
      destruct (cycle_cells M md dim d0 d1 rest ltac:(lia) Hd E1 HM) as [S1 Ce]. split; [exact S1|].
      intros idx H. inversion H as [|i ? idx1 ? Hi H1]; subst. inversion H1 as [|a ? idx2 ? Ha H2]; subst.
      unfold entry, rot. cbn [skipn firstn app tl nth]. cbn [flat]. rewrite flat_snoc by exact H2.
      rewrite Ce; auto; [|apply flat_lt; exact H2]. f_equal. lia.
  Qed.
  Lemma flat_bij ds : (forall idx, below ds idx -> (flat ds idx < size ds)%nat) /\
    (forall idx idx', below ds idx -> below ds idx' -> flat ds idx = flat ds idx' -> idx = idx') /\
    (forall j, (j < size ds)%nat -> exists idx, below ds idx /\ flat ds idx = j).
  Proof.
    split; [apply flat_lt|]. split.
    - intros idx idx' H H' E. rewrite <- (digits_flat ds idx H), E. apply digits_flat; auto.
    - intros j Hj. exists (digits ds j). split; [apply digits_below|apply flat_digits; auto].
  Qed.
End Cycle.
