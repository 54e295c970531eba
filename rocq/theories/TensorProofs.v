(** * Matrices and weighted sums over them (proof file). *)
From Coq Require Import String List Arith Bool Lia ZArith.
From Verif Require Import Ops Syms Poly Gdual Functions Spec Bounding SpecBounding BinomProofs.
Import ListNotations.

Section Sums.
  Context {K : Type} {o : Ops K} {fl : FieldLaws o}.
  Local Open Scope K_scope.
  Add Field KfieldTP : (fl_field (K:=K)).
  Implicit Types f g : nat -> K.

  Lemma sum_to_0 f : sum_to 0 f = 0.
  Proof. reflexivity. Qed.
  Lemma sum_to_S n f : sum_to (S n) f = sum_to n f + f n.
  Proof.
    unfold sum_to. rewrite seq_S. cbn [Nat.add]. unfold sum_list. generalize (seq 0 n). intros l.
    induction l as [|x l IH]; cbn [app fold_right]; [ring|]. rewrite IH. ring.
  Qed.
  Lemma sum_to_ext n f g : (forall i, (i < n)%nat -> f i = g i) -> sum_to n f = sum_to n g.
  Proof.
    induction n as [|n IH]; intros H; [reflexivity|]. rewrite !sum_to_S, IH by (intros; apply H; lia). rewrite H by lia. reflexivity.
  Qed.
  Lemma sum_to_zero n f : (forall i, (i < n)%nat -> f i = 0) -> sum_to n f = 0.
  Proof. induction n as [|n IH]; intros H; [reflexivity|]. rewrite sum_to_S, IH by (intros; apply H; lia). rewrite H by lia. ring. Qed.
  Lemma sum_to_plus n f g : sum_to n (fun i => f i + g i) = sum_to n f + sum_to n g.
  Proof. induction n as [|n IH]; [rewrite !sum_to_0; ring|]. rewrite !sum_to_S, IH. ring. Qed.
  Lemma sum_to_scal n c f : sum_to n (fun i => c * f i) = c * sum_to n f.
  Proof. induction n as [|n IH]; [rewrite !sum_to_0; ring|]. rewrite !sum_to_S, IH. ring. Qed.
  Lemma sum_to_scal_r n c f : sum_to n (fun i => f i * c) = sum_to n f * c.
  Proof. induction n as [|n IH]; [rewrite !sum_to_0; ring|]. rewrite !sum_to_S, IH. ring. Qed.
  Lemma sum_to_swap n m (f : nat -> nat -> K) :
    sum_to n (fun i => sum_to m (fun j => f i j)) = sum_to m (fun j => sum_to n (fun i => f i j)).
  Proof.
    induction n as [|n IH].
    - rewrite sum_to_0. symmetry. apply sum_to_zero. intros; apply sum_to_0.
    - rewrite sum_to_S, IH, <- sum_to_plus. apply sum_to_ext. intros j _. rewrite sum_to_S. reflexivity.
  Qed.
  Lemma sum_to_app n m f : sum_to (n + m) f = sum_to n f + sum_to m (fun i => f (n + i)%nat).
  Proof.
    induction m as [|m IH]; [rewrite Nat.add_0_r, sum_to_0; ring|]. rewrite Nat.add_succ_r, !sum_to_S, IH. ring.
  Qed.
  Lemma sum_to_blocks n m f : sum_to (n * m) f = sum_to m (fun i => sum_to n (fun b => f (b + i * n)%nat)).
  Proof.
    induction m as [|m IH]; [rewrite Nat.mul_0_r; reflexivity|]. rewrite Nat.mul_succ_r, sum_to_app, sum_to_S, IH. f_equal.
    apply sum_to_ext. intros i _. f_equal. lia.
  Qed.
  Lemma sum_to_pick n k f : (k < n)%nat -> (forall i, (i < n)%nat -> i <> k -> f i = 0) -> sum_to n f = f k.
  Proof.
    induction n as [|n IH]; intros Hk H; [lia|]. rewrite sum_to_S. destruct (Nat.eq_dec k n) as [->|N].
    - rewrite sum_to_zero; [ring|]. intros i Hi. apply H; lia.
    - rewrite IH; [|lia|intros i Hi Hik; apply H; lia]. rewrite (H n) by lia. ring.
  Qed.
  Lemma sum_list_ext {A} (l : list A) (f g : A -> K) : (forall x, In x l -> f x = g x) -> sum_list f l = sum_list g l.
  Proof.
    unfold sum_list. induction l as [|x l IH]; intros H; cbn [fold_right]; auto. rewrite H by (left; auto).
    rewrite IH by (intros; apply H; right; auto). reflexivity.
  Qed.
  Lemma sum_list_scal {A} (l : list A) (c : K) (f : A -> K) : sum_list (fun x => c * f x) l = c * sum_list f l.
  Proof. unfold sum_list. induction l as [|x l IH]; cbn [fold_right]; [ring|]. rewrite IH. ring. Qed.
  Lemma sum_list_to {A} (l : list A) n (f : A -> nat -> K) :
    sum_to n (fun i => sum_list (fun x => f x i) l) = sum_list (fun x => sum_to n (f x)) l.
  Proof.
    unfold sum_list. induction l as [|x l IH]; cbn [fold_right]; [apply sum_to_zero; auto|].
    rewrite <- IH, <- sum_to_plus. reflexivity.
  Qed.
  Lemma fold_left_sum {A} (l : list A) (f : A -> K) : forall c, fold_left (fun c x => c + f x) l c = c + sum_list f l.
  Proof. unfold sum_list. induction l as [|x l IH]; intros c; cbn [fold_left fold_right]; [ring|]. rewrite IH. ring. Qed.
End Sums.

Section Mats.
  Context {K : Type} {o : Ops K}.
  Local Open Scope K_scope.
  Notation matrix := (list (list K)).

  Lemma set_nth_length {A} (i : nat) (v : A) l : length (set_nth i v l) = length l.
  Proof. revert i; induction l as [|x l IH]; intros [|i]; cbn [set_nth length]; auto. Qed.
  Lemma set_nth_nth {A} (i j : nat) (v d : A) l : (i < length l)%nat ->
    nth j (set_nth i v l) d = if Nat.eqb i j then v else nth j l d.
  Proof.
    revert i j; induction l as [|x l IH]; intros [|i] [|j] H; cbn [set_nth nth length Nat.eqb] in *; try lia; auto. apply IH. lia.
  Qed.
  Lemma is_matrix_row r c (M : matrix) i : is_matrix r c M -> (i < r)%nat -> length (nth i M []) = c.
  Proof. intros [L F] H. rewrite Forall_forall in F. apply F. apply nth_In. lia. Qed.
  Lemma set_nth_Forall {A} (P : A -> Prop) i v l : P v -> Forall P l -> Forall P (set_nth i v l).
  Proof. intros Pv. revert i. induction l as [|x l IH]; intros [|i] H; cbn [set_nth]; auto; inversion_clear H; constructor; auto. Qed.
  Lemma set_nth_out {A} i (v : A) l : (length l <= i)%nat -> set_nth i v l = l.
  Proof. revert i; induction l as [|x l IH]; intros [|i] H; cbn [set_nth length] in *; auto; [lia|]. rewrite IH by lia. reflexivity. Qed.
  Lemma mset_matrix r c (M : matrix) i j v : is_matrix r c M -> is_matrix r c (mset M i j v).
  Proof.
    intros HM. destruct (le_lt_dec r i) as [H|H].
    - unfold mset. rewrite set_nth_out; auto. destruct HM as [-> _]. auto.
    - split; unfold mset.
      + rewrite set_nth_length. apply HM.
      + apply set_nth_Forall; [|apply HM]. rewrite set_nth_length. apply (is_matrix_row r); auto.
  Qed.
  Lemma cell_mset r c (M : matrix) i j v i' j' : is_matrix r c M -> (i < r)%nat -> (j < c)%nat ->
    cell (mset M i j v) i' j' = if Nat.eqb i i' && Nat.eqb j j' then v else cell M i' j'.
  Proof.
    intros HM Hi Hj. unfold cell, mset. rewrite set_nth_nth by (destruct HM; lia).
    destruct (Nat.eqb_spec i i') as [<-|N]; cbn [andb]; auto.
    rewrite set_nth_nth by (rewrite (is_matrix_row r c); auto). destruct (Nat.eqb_spec j j'); auto.
  Qed.
  Lemma zeros_matrix r c : is_matrix r c (zeros r c).
  Proof.
    unfold zeros. split; [apply repeat_length|]. apply Forall_forall. intros x Hx. apply repeat_spec in Hx. subst. apply repeat_length.
  Qed.
  Lemma cell_zeros r c i j : cell (zeros r c) i j = 0.
  Proof.
    unfold cell, zeros. destruct (nth_in_or_default i (repeat (repeat (0 : K) c) r) []) as [H|H].
    - apply repeat_spec in H. rewrite H. destruct (nth_in_or_default j (repeat (0 : K) c) 0) as [H1|H1]; auto. apply repeat_spec in H1. auto.
    - rewrite H. destruct j; reflexivity.
  Qed.
  Lemma writes_matrix {A} r c (fi fj : A -> nat) (fv : A -> K) l : forall M, is_matrix r c M ->
    is_matrix r c (fold_left (fun M x => mset M (fi x) (fj x) (fv x)) l M).
  Proof. induction l as [|x l IH]; intros M HM; cbn [fold_left]; auto. apply IH. apply mset_matrix; auto. Qed.
  (** Writing into cells: the final content of a cell, when all the writes into it agree. *)
  Lemma writes_cell {A} r c (fi fj : A -> nat) (fv : A -> K) l i j w : forall M, is_matrix r c M ->
    (forall x, In x l -> (fi x < r)%nat /\ (fj x < c)%nat) ->
    (forall x, In x l -> fi x = i -> fj x = j -> fv x = w) ->
    (exists x, In x l /\ fi x = i /\ fj x = j) \/ cell M i j = w ->
    cell (fold_left (fun M x => mset M (fi x) (fj x) (fv x)) l M) i j = w.
  Proof.
    induction l as [|x l IH]; intros M HM Hr Hw H; cbn [fold_left].
    - destruct H as [[x [[] _]]|H]; auto.
    - apply IH.
      + apply mset_matrix; auto.
      + intros; apply Hr; right; auto.
      + intros; apply Hw; auto; right; auto.
      + destruct (Hr x (or_introl eq_refl)) as [Hi Hj]. rewrite (cell_mset r c) by auto.
        destruct (Nat.eqb_spec (fi x) i) as [E|N]; [destruct (Nat.eqb_spec (fj x) j) as [E'|N']|]; cbn [andb].
        * right. apply Hw; auto. left; auto.
        * destruct H as [[y [[<-|Hy] [E1 E2]]]|H]; [contradiction|left; eauto|right; auto].
        * destruct H as [[y [[<-|Hy] [E1 E2]]]|H]; [contradiction|left; eauto|right; auto].
  Qed.
  Lemma fold_left_nested {A B C} (f : C -> A -> B -> C) (L : A -> list B) l : forall c,
    fold_left (fun c i => fold_left (fun c j => f c i j) (L i) c) l c =
    fold_left (fun c ij => f c (fst ij) (snd ij)) (flat_map (fun i => map (pair i) (L i)) l) c.
  Proof.
    induction l as [|i l IH]; intros c; cbn [fold_left flat_map]; auto.
    rewrite fold_left_app, <- IH. f_equal. clear IH. revert c. induction (L i) as [|j m IHm]; intros c; cbn [fold_left map fst snd]; auto.
  Qed.
  Lemma nth_map_seq {A} (f : nat -> A) n i d : (i < n)%nat -> nth i (map f (seq 0 n)) d = f i.
  Proof.
    intros H. rewrite (nth_indep _ d (f 0%nat)) by (rewrite map_length, seq_length; auto).
    rewrite (map_nth f). rewrite seq_nth by auto. reflexivity.
  Qed.
  Lemma map_seq_matrix r c (f : nat -> nat -> K) : is_matrix r c (map (fun i => map (f i) (seq 0 c)) (seq 0 r)).
  Proof.
    split; [rewrite map_length, seq_length; auto|]. apply Forall_forall. intros x Hx. apply in_map_iff in Hx. destruct Hx as [i [<- _]].
    rewrite map_length, seq_length. auto.
  Qed.
  Lemma cell_map_seq r c (f : nat -> nat -> K) i j : (i < r)%nat -> (j < c)%nat ->
    cell (map (fun i => map (f i) (seq 0 c)) (seq 0 r)) i j = f i j.
  Proof. intros Hi Hj. unfold cell. rewrite nth_map_seq by auto. apply nth_map_seq. auto. Qed.

  (** transpose *)
  Lemma transpose_spec r c (M : matrix) : is_matrix r c M -> (0 < r)%nat ->
    is_matrix c r (transpose M) /\ forall i j, (i < c)%nat -> (j < r)%nat -> cell (transpose M) i j = cell M j i.
  Proof.
    intros HM Hr. unfold transpose. rewrite (is_matrix_row r c) by auto. replace (length M) with r by (symmetry; apply HM).
    split; [apply (map_seq_matrix c r (fun j i => mget M i j))|]. intros i j Hi Hj. apply (cell_map_seq c r (fun j i => mget M i j)); auto.
  Qed.
  Lemma transpose_empty : transpose ([] : matrix) = [].
  Proof. reflexivity. Qed.

  Lemma matrix_ext r c (A B : matrix) : is_matrix r c A -> is_matrix r c B ->
    (forall i j, (i < r)%nat -> (j < c)%nat -> cell A i j = cell B i j) -> A = B.
  Proof.
    intros [La Fa] [Lb Fb] H. apply (nth_ext A B [] []); [congruence|]. intros i Hi. rewrite La in Hi.
    assert (Ha : length (nth i A []) = c) by (apply (is_matrix_row r); [split; auto|auto]).
    assert (Hb : length (nth i B []) = c) by (apply (is_matrix_row r); [split; auto|auto]).
    apply (nth_ext _ _ (0 : K) (0 : K)); [congruence|]. intros j Hj. apply H; lia.
  Qed.
  Lemma transpose_involutive r c (M : matrix) : is_matrix r c M -> (0 < r)%nat -> (0 < c)%nat -> transpose (transpose M) = M.
  Proof.
    intros HM Hr Hc. destruct (transpose_spec r c M HM Hr) as [H1 C1]. destruct (transpose_spec c r _ H1 Hc) as [H2 C2].
    apply (matrix_ext r c); auto. intros i j Hi Hj. rewrite C2, C1 by auto. reflexivity.
  Qed.

  Context {fl : FieldLaws o}.
  Add Field KfieldTP2 : (fl_field (K:=K)).
  Lemma matmul_spec p q r (A B : matrix) : is_matrix p q A -> is_matrix q r B -> (0 < p)%nat -> (0 < q)%nat ->
    is_matrix p r (matmul A B) /\
    forall i j, (i < p)%nat -> (j < r)%nat -> cell (matmul A B) i j = sum_to q (fun k => cell A i k * cell B k j).
  Proof.
    intros HA HB Hp Hq. unfold matmul. rewrite (is_matrix_row p q A), (is_matrix_row q r B) by auto.
    replace (length A) with p by (symmetry; apply HA).
    set (f := fun i j => fold_left (fun c k => c + mget A i k * mget B k j) (seq 0 q) 0).
    split; [apply (map_seq_matrix p r f)|]. intros i j Hi Hj. rewrite (cell_map_seq p r f) by auto. unfold f.
    rewrite fold_left_sum. unfold sum_to, mget, cell. ring.
  Qed.
  Lemma matmul_assoc p q r s (A B C : matrix) : is_matrix p q A -> is_matrix q r B -> is_matrix r s C ->
    (0 < p)%nat -> (0 < q)%nat -> (0 < r)%nat -> matmul (matmul A B) C = matmul A (matmul B C).
  Proof.
    intros HA HB HC Hp Hq Hr. destruct (matmul_spec p q r A B) as [M1 C1]; auto. destruct (matmul_spec q r s B C) as [M2 C2]; auto.
    destruct (matmul_spec p r s (matmul A B) C) as [M3 C3]; auto. destruct (matmul_spec p q s A (matmul B C)) as [M4 C4]; auto.
    apply (matrix_ext p s); auto. intros i j Hi Hj. rewrite C3, C4 by auto.
    transitivity (sum_to r (fun k => sum_to q (fun l => cell A i l * cell B l k * cell C k j))).
    - apply sum_to_ext. intros k Hk. rewrite C1 by auto. rewrite <- sum_to_scal_r. reflexivity.
    - rewrite sum_to_swap. apply sum_to_ext. intros l Hl. rewrite C2 by auto. rewrite <- sum_to_scal. apply sum_to_ext. intros k _. ring.
  Qed.
  Lemma matmul_transpose p q r (A B : matrix) : is_matrix p q A -> is_matrix q r B -> (0 < p)%nat -> (0 < q)%nat -> (0 < r)%nat ->
    transpose (matmul A B) = matmul (transpose B) (transpose A).
  Proof.
    intros HA HB Hp Hq Hr. destruct (matmul_spec p q r A B) as [M1 C1]; auto.
    destruct (transpose_spec _ _ _ HA Hp) as [TA CA]. destruct (transpose_spec _ _ _ HB Hq) as [TB CB].
    destruct (transpose_spec _ _ _ M1 Hp) as [T1 D1].
    destruct (matmul_spec r q p (transpose B) (transpose A)) as [M2 C2]; auto.
    apply (matrix_ext r p); auto. intros i j Hi Hj. rewrite D1, C1, C2 by auto. apply sum_to_ext. intros k Hk.
    rewrite CA, CB by auto. ring.
  Qed.
End Mats.
