(** * The Bernstein patch represents the polynomial (proof file). *)
From Coq Require Import String List Arith Bool Lia ZArith Permutation Field.
From Verif Require Import Ops Syms Poly Gdual Functions Spec PolyFacts GdualFacts CoefFacts Compose Bounding SpecBounding BinomProofs BoundPoly TensorProofs BernProofs CycleProofs.
Import ListNotations.

(** ** Maximal degrees *)
Lemma below_nth md e : below md e <-> length e = length md /\ forall i, i < length md -> nth i e 0 <= nth i md 0.
Proof.
  unfold below. split.
  - intros H. split; [apply (F2_length _ _ _ H)|]. induction H; intros i Hi; cbn [length] in Hi; [lia|]. destruct i; cbn [nth]; auto. apply IHForall2. lia.
  - revert e. induction md as [|d md IH]; intros [|x e] [L H]; try discriminate; constructor.
    + apply (H 0). cbn. lia.
    + apply IH. cbn in L. split; [lia|]. intros i Hi. apply (H (S i)). cbn. lia.
Qed.

Lemma maxdeg_loop N exps : forall md0, length md0 = N -> (forall e, In e exps -> length e = N) ->
  exists md, fold_left (fun acc row => md <- acc;;
                 if negb (Nat.eqb (length row) N) then Throw InvalidArgument
                 else Ok (map (fun i => Nat.max (nth i md 0) (nth i row 0)) (seq 0 N))) exps (Ok md0) = Ok md /\
    length md = N /\ (forall e, In e exps -> below md e) /\ below md md0 /\
    forall i, i < N -> nth i md 0 = nth i md0 0 \/ exists e, In e exps /\ nth i md 0 = nth i e 0.
Proof.
  induction exps as [|r exps IH]; intros md0 L0 Hl; cbn [fold_left].
  - exists md0. repeat split; auto. + intros e []. + apply below_nth. auto.
  - cbn [rbind]. rewrite (Hl r), Nat.eqb_refl by (left; auto). cbn [negb].
    set (md1 := map (fun i => Nat.max (nth i md0 0) (nth i r 0)) (seq 0 N)).
    assert (L1 : length md1 = N) by (unfold md1; rewrite map_length, seq_length; auto).
    assert (N1 : forall i, i < N -> nth i md1 0 = Nat.max (nth i md0 0) (nth i r 0)).
    { intros i Hi. unfold md1. rewrite (nth_map_seq (fun i => Nat.max (nth i md0 0) (nth i r 0))) by auto. reflexivity. }
    destruct (IH md1 L1 (fun e He => Hl e (or_intror He))) as (md & E & Lm & Hb & Hb0 & Hex).
    apply below_nth in Hb0. destruct Hb0 as [_ Hb0]. exists md. split; [exact E|]. split; [exact Lm|]. split; [|split].
    + intros e [<-|He]; auto. apply below_nth. split; [rewrite (Hl r); auto; left; auto|]. intros i Hi. specialize (Hb0 i Hi). rewrite N1 in Hb0 by lia. lia.
    + apply below_nth. split; [congruence|]. intros i Hi. specialize (Hb0 i Hi). rewrite N1 in Hb0 by lia. lia.
    + intros i Hi. destruct (Hex i Hi) as [H|[e [He H]]].
      * rewrite N1 in H by auto. destruct (Nat.max_spec (nth i md0 0) (nth i r 0)) as [[_ X]|[_ X]]; rewrite X in H; [right; exists r; split; auto; left; auto|left; auto].
      * right. exists e. split; auto. right; auto.
Qed.

Lemma maxdeg_spec N exps : 1 <= N -> exps <> [] -> (forall e, In e exps -> length e = N) ->
  exists md, get_max_degrees exps N = Ok md /\ length md = N /\ (forall e, In e exps -> below md e) /\
    forall i, i < N -> exists e, In e exps /\ nth i md 0 = nth i e 0.
Proof.
  intros HN Hne Hl.
  assert (Hfirst : length (nth 0 exps []) = N) by (apply Hl; apply nth_In; destruct exps; [congruence|cbn; lia]).
  unfold get_max_degrees. destruct (Nat.ltb_spec 1 N) as [L|L].
  - rewrite Hfirst. destruct (maxdeg_loop N exps (repeat 0 N)) as (md & E & Lm & Hb & Hb0 & Hex); auto; [apply repeat_length|].
    exists md. repeat split; auto. intros i Hi. destruct (Hex i Hi) as [H|H]; auto.
    destruct exps as [|e exps]; [congruence|]. exists e. split; [left; auto|].
    specialize (Hb e (or_introl eq_refl)). apply below_nth in Hb. destruct Hb as [_ Hb]. specialize (Hb i ltac:(lia)).
    assert (X : nth i (repeat 0 N) 0 = 0). { destruct (nth_in_or_default i (repeat 0 N) 0) as [Y|Y]; auto. apply repeat_spec in Y. auto. }
    lia.
  - assert (E1 : N = 1) by lia. clear Hfirst. subst N. cbn [Nat.eqb].
    assert (G : forall m, exists m', fold_left (fun m row => fold_left Nat.max row m) exps m = m' /\ m <= m' /\
              (forall e, In e exps -> nth 0 e 0 <= m') /\ (m' = m \/ exists e, In e exps /\ m' = nth 0 e 0)).
    { clear Hne. induction exps as [|r exps IH]; intros m; cbn [fold_left].
      - exists m. repeat split; auto. intros e [].
      - assert (Lr := Hl r (or_introl eq_refl)). destruct r as [|x [|y r]]; try discriminate. cbn [fold_left].
        destruct (IH (fun e He => Hl e (or_intror He)) (Nat.max m x)) as (m' & E & H1 & H2 & H3). exists m'. repeat split; auto.
        + lia.
        + intros e [<-|He]; auto. cbn [nth]. lia.
        + destruct H3 as [H3|[e [He H3]]].
          * destruct (Nat.max_spec m x) as [[_ X]|[_ X]]; rewrite X in H3; [right; exists [x]; split; auto; left; auto|left; auto].
          * right. exists e. split; auto. right; auto. }
    destruct (G 0) as (m & -> & H1 & H2 & H3). exists [m]. repeat split; auto.
    + intros e He. assert (Le := Hl e He). destruct e as [|x [|y e]]; try discriminate. constructor; [apply (H2 [x] He)|constructor].
    + intros i Hi. replace i with 0 by lia. cbn [nth]. destruct H3 as [->|H3]; auto.
      destruct exps as [|e exps]; [congruence|]. exists e. split; [left; auto|]. specialize (H2 e (or_introl eq_refl)). lia.
Qed.

Lemma tl_skipn {A} n (l : list A) : tl (skipn n l) = skipn (S n) l.
Proof. revert l; induction n as [|n IH]; intros [|x l]; auto. apply IH. Qed.

Section Main.
  Context {K : Type} {o : Ops K} {fl : FieldLaws o}.
  Local Open Scope K_scope.
  Add Field KfieldBM : (fl_field (K:=K)).
  Notation matrix := (list (list K)).

  Lemma ndim_spec N (coeffs : list K) exps : exps <> [] -> length coeffs = length exps -> (forall e, In e exps -> length e = N) ->
    get_ndim coeffs exps = Ok N.
  Proof.
    intros Hne L Hl. unfold get_ndim. rewrite L. destruct exps as [|e exps]; [congruence|]. cbn [length Nat.eqb orb negb nth].
    rewrite Nat.eqb_refl. cbn [negb]. rewrite (Hl e) by (left; auto).
    replace (forallb (fun row => Nat.eqb (length row) N) (e :: exps)) with true; auto.
    symmetry. apply forallb_forall. intros x Hx. rewrite (Hl x Hx). apply Nat.eqb_refl.
  Qed.

  Lemma lstar_spec d md : fold_left (fun l i => (l * (nth i (d :: md) 0 + 1))%nat) (seq 1 (length (d :: md) - 1)) 1%nat = size md.
  Proof.
    cbn [length]. rewrite Nat.sub_succ, Nat.sub_0_r.
    etransitivity; [exact (fold_prod (fun m => nth m (d :: md) 0%nat) (fun _ => true) (seq 1 (length md)) 1%nat)|]. rewrite Nat.mul_1_l. f_equal.
    rewrite filter_all by auto. rewrite <- seq_shift, map_map. cbn [nth]. apply map_nth_seq.
  Qed.
  Lemma column_loop ds : forall idx off md comb j s, skipn off md = ds -> skipn off comb = idx -> length idx = length ds ->
    fold_left (fun '(j_val, stride) q => ((j_val + nth q comb 0 * stride)%nat, (stride * (nth q md 0 + 1))%nat)) (seq off (length ds)) (j, s)
    = ((j + s * flat ds idx)%nat, (s * size ds)%nat).
  Proof.
    induction ds as [|d ds IH]; intros [|i idx] off md comb j s E1 E2 L; try discriminate; cbn [length seq fold_left flat].
    - f_equal; [lia|cbn; lia].
    - assert (N1 : nth off md 0%nat = d).
      { rewrite <- (firstn_skipn off md), E1. rewrite app_nth2; rewrite firstn_length; [|lia].
        assert (off < length md)%nat. { destruct (le_lt_dec (length md) off); auto. rewrite skipn_all2 in E1 by auto. discriminate. }
        rewrite Nat.min_l, Nat.sub_diag by lia. reflexivity. }
      assert (N2 : nth off comb 0%nat = i).
      { rewrite <- (firstn_skipn off comb), E2. rewrite app_nth2; rewrite firstn_length; [|lia].
        assert (off < length comb)%nat. { destruct (le_lt_dec (length comb) off); auto. rewrite skipn_all2 in E2 by auto. discriminate. }
        rewrite Nat.min_l, Nat.sub_diag by lia. reflexivity. }
      assert (S1 : skipn (S off) md = ds).
      { rewrite <- (tl_skipn off md), E1. reflexivity. }
      assert (S2 : skipn (S off) comb = idx).
      { rewrite <- (tl_skipn off comb), E2. reflexivity. }
      rewrite N1, N2. rewrite (IH idx (S off) md comb) by (auto; cbn in L; lia). rewrite size_cons. f_equal; lia.
  Qed.
  Lemma column_spec d md i idx : length idx = length md -> column_index (length (d :: md)) (d :: md) (i :: idx) = flat md idx.
  Proof.
    intros L. unfold column_index. cbn [length]. rewrite Nat.sub_succ, Nat.sub_0_r.
    rewrite (column_loop md idx 1 (d :: md) (i :: idx)) by auto. cbn [fst]. lia.
  Qed.

  Lemma get_coefficient_sum comb : forall (coeffs : list K) exps, NoDup exps -> length coeffs = length exps ->
    get_coefficient comb coeffs exps = sum_list (fun ec => if list_eq_dec Nat.eq_dec (fst ec) comb then snd ec else 0) (combine exps coeffs).
  Proof.
    intros coeffs exps. revert coeffs. induction exps as [|e exps IH]; intros [|c coeffs] ND L; try discriminate; [reflexivity|].
    inversion_clear ND. cbn [combine get_coefficient tl nth]. unfold sum_list. cbn [fold_right fst snd].
    fold (sum_list (fun ec => if list_eq_dec Nat.eq_dec (fst ec) comb then snd ec else 0) (combine exps coeffs)).
    destruct (list_eq_dec Nat.eq_dec e comb) as [->|N].
    - rewrite (sum_list_ext _ _ (fun _ => 0)).
      + unfold sum_list. assert (Z0 : forall l : list (key * K), fold_right (fun _ a => 0 + a) 0 l = 0).
        { induction l as [|x l IHl]; cbn [fold_right]; auto. rewrite IHl. ring. }
        rewrite Z0. ring.
      + intros [e c'] He. cbn [fst snd]. destruct (list_eq_dec Nat.eq_dec e comb) as [->|]; auto. apply in_combine_l in He. contradiction.
    - rewrite IH by (auto; cbn in L; lia). ring.
  Qed.

  Lemma a_matrix_spec N (coeffs : list K) exps md : (1 <= N)%nat -> exps <> [] -> length coeffs = length exps -> (forall e, In e exps -> length e = N) ->
    get_max_degrees exps N = Ok md -> length md = N ->
    exists A, get_a_matrix_vec coeffs exps = Ok A /\ shape md A /\
      forall d rest, md = d :: rest -> forall i j, (i <= d)%nat -> (j < size rest)%nat ->
        cell A i j = get_coefficient (i :: digits rest j) coeffs exps.
  Proof.
    intros HN Hne L Hl Emd Lmd. unfold get_a_matrix_vec. rewrite (ndim_spec N) by auto. cbn [rbind]. rewrite Emd. cbn [rbind].
    destruct md as [|d rest]; [cbn in Lmd; lia|]. eexists. split; [reflexivity|].
    rewrite <- Lmd. rewrite lstar_spec. cbn [nth]. rewrite Nat.add_1_r.
    set (gc := generate_combinations (d :: rest) false).
    assert (Hgc : forall idx, In idx gc <-> below (d :: rest) idx).
    { intros idx. unfold gc. rewrite (proj2 (generate_combinations_spec (d :: rest) false ltac:(discriminate))). split; [tauto|]. intros H; split; auto; discriminate. }
    set (fi := fun comb : list nat => nth 0 comb 0%nat). set (fj := fun comb => column_index (length (d :: rest)) (d :: rest) comb).
    set (fv := fun comb => get_coefficient comb coeffs exps).
    split.
    - cbn [shape]. apply (writes_matrix (S d) (size rest) fi fj fv). apply zeros_matrix.
    - intros d' rest' E i j Hi Hj. injection E as <- <-.
      assert (Hin : In (i :: digits rest j) gc) by (apply Hgc; constructor; auto; apply digits_below).
      apply (writes_cell (S d) (size rest) fi fj fv).
      + apply zeros_matrix.
      + intros x Hx. apply Hgc in Hx. inversion Hx as [|i0 ? idx ? H1 H2]; subst. unfold fi, fj. cbn [nth].
        rewrite column_spec by (apply (F2_length _ _ _ H2)). split; [lia|]. apply flat_lt. exact H2.
      + intros x Hx E1 E2. apply Hgc in Hx. inversion Hx as [|i0 ? idx ? H1 H2]; subst. unfold fi, fj, fv in *. cbn [nth] in *.
        rewrite column_spec by (apply (F2_length _ _ _ H2)). rewrite digits_flat by exact H2. reflexivity.
      + left. exists (i :: digits rest j). split; auto. unfold fi, fj. cbn [nth]. split; auto.
        rewrite column_spec by (apply (F2_length _ _ _ (digits_below rest j))). apply flat_digits. auto.
  Qed.

  Lemma a_matrix_wsum (coeffs : list K) exps d rest (A : matrix) w ws : NoDup exps -> length coeffs = length exps ->
    (forall e, In e exps -> below (d :: rest) e) -> length ws = length rest ->
    (forall i j, (i <= d)%nat -> (j < size rest)%nat -> cell A i j = get_coefficient (i :: digits rest j) coeffs exps) ->
    wsum (d :: rest) (w :: ws) A = sum_list (fun ec => snd ec * wprod (w :: ws) (fst ec)) (combine exps coeffs).
  Proof.
    intros ND L Hb Lw HA. cbn [wsum].
    transitivity (sum_to (S d) (fun i => sum_to (size rest) (fun j => sum_list (fun ec => w i * weight rest ws j * (if list_eq_dec Nat.eq_dec (fst ec) (i :: digits rest j) then snd ec else 0)) (combine exps coeffs)))).
    { apply sum_to_ext. intros i Hi. apply sum_to_ext. intros j Hj. rewrite HA by lia. rewrite get_coefficient_sum by auto. rewrite sum_list_scal. reflexivity. }
    transitivity (sum_list (fun ec => sum_to (S d) (fun i => sum_to (size rest) (fun j => w i * weight rest ws j * (if list_eq_dec Nat.eq_dec (fst ec) (i :: digits rest j) then snd ec else 0)))) (combine exps coeffs)).
    { rewrite <- sum_list_to. apply sum_to_ext. intros i Hi. rewrite <- sum_list_to. reflexivity. }
    apply sum_list_ext. intros [e c] He. cbn [fst snd]. apply in_combine_l in He. specialize (Hb e He).
    inversion Hb as [|i0 ? idx ? H1 H2]; subst.
    assert (Hf := flat_lt rest idx H2).
    rewrite (sum_to_pick (S d) i0); [|lia|].
    - rewrite (sum_to_pick (size rest) (flat rest idx)); [|auto|].
      + rewrite digits_flat by exact H2. destruct (list_eq_dec Nat.eq_dec (i0 :: idx) (i0 :: idx)) as [_|N]; [|congruence].
        rewrite weight_flat by auto. cbn [wprod]. ring.
      + intros j Hj N. destruct (list_eq_dec Nat.eq_dec (i0 :: idx) (i0 :: digits rest j)) as [E|_]; [|ring].
        injection E as E. exfalso. apply N. rewrite E. symmetry. apply flat_digits. auto.
    - intros i Hi N. apply sum_to_zero. intros j Hj. destruct (list_eq_dec Nat.eq_dec (i0 :: idx) (i :: digits rest j)) as [E|_]; [|ring]. congruence.
  Qed.

  (** ** The whole transformation *)
  Definition lsts (V : list string) (rho : string -> K) : list (nat -> K) := map (fun s n => kpow (rho s) n) V.
  Lemma mono_at_wprod V : forall (k : key) (rho : string -> K), NoDup V -> length k = length V -> mono_at V k rho = wprod (lsts V rho) k.
  Proof.
    induction V as [|v V IH]; intros [|e k] rho ND L; try discriminate; [reflexivity|]. inversion_clear ND.
    unfold mono_at. cbn [fold_right lsts map wprod expo]. rewrite String.eqb_refl. f_equal.
    fold (lsts V rho). rewrite <- IH by (auto; cbn in L; lia). unfold mono_at.
    assert (G : forall l, (forall s, In s l -> s <> v) -> fold_right (fun s a => kpow (rho s) (if String.eqb v s then e else expo V k s) * a) 1 l = fold_right (fun s a => kpow (rho s) (expo V k s) * a) 1 l).
    { induction l as [|s l IHl]; intros Hl; cbn [fold_right]; auto. rewrite IHl by (intros; apply Hl; right; auto).
      destruct (String.eqb_spec v s) as [->|]; auto. exfalso. apply (Hl s); auto. left; auto. }
    apply G. intros s Hs ->. contradiction.
  Qed.
  Lemma sum_list_perm {A} (f : A -> K) l l' : Permutation l l' -> sum_list f l = sum_list f l'.
  Proof.
    unfold sum_list. induction 1; cbn [fold_right]; auto.
    - rewrite IHPermutation. auto.
    - ring.
    - congruence.
  Qed.
  Lemma NoDup_combine {A B} (a : list A) : forall b : list B, NoDup a -> NoDup (combine a b).
  Proof.
    induction a as [|x a IH]; intros [|y b] H; cbn [combine]; try constructor; inversion_clear H.
    - intros Hi. apply in_combine_l in Hi. contradiction.
    - auto.
  Qed.

  Definition nth_lo (dom : list (string * (K * K))) (dim : nat) : K := fst (snd (nth dim dom (EmptyString, (0, 0)))).
  Definition nth_hi (dom : list (string * (K * K))) (dim : nat) : K := snd (snd (nth dim dom (EmptyString, (0, 0)))).

  Definition unres (r : res matrix) : matrix := match r with Ok m => m | Throw _ => [] end.
  Lemma base_fold (Da Q : nat -> matrix) md (dom : list (string * (K * K))) l :
    (forall dim, In dim l -> get_d_acc_matrix md dim = Ok (Da dim) /\ get_q_matrix md dom dim = Ok (Q dim)) ->
    forall M, fold_left (fun acc dim => L <- acc;; D_acc <- get_d_acc_matrix md dim;; Q <- get_q_matrix md dom dim;;
                 Ok (get_cycled_2d_array_vec (matmul (matmul D_acc Q) L) md dim)) l (Ok M)
    = Ok (fold_left (fun L dim => get_cycled_2d_array_vec (matmul (matmul (Da dim) (Q dim)) L) md dim) l M).
  Proof.
    induction l as [|dim l IH]; intros H M; cbn [fold_left]; auto. cbn [rbind].
    destruct (H dim (or_introl eq_refl)) as [E1 E2]. rewrite E1. cbn [rbind]. rewrite E2. cbn [rbind]. apply IH. intros; apply H; right; auto.
  Qed.

  Lemma nth_indep_weights (f : nat -> nat -> K) N dim : (dim < N)%nat -> nth dim (map f (seq 0 N)) (fun _ => 0) = f dim.
  Proof. apply (nth_map_seq f). Qed.

  (** For every point of the unit box, the patch weighted with the Bernstein
      polynomials is the value of the polynomial. *)
  Lemma patch_spec N (coeffs : list K) exps (dom : list (string * (K * K))) : (1 <= N)%nat -> exps <> [] -> NoDup exps -> length coeffs = length exps ->
    (forall e, In e exps -> length e = N /\ forall i, (nth i e 0 <= 62)%nat) -> (N <= length dom)%nat ->
    exists md M, get_max_degrees exps N = Ok md /\ length md = N /\ (forall i, (i < N)%nat -> exists e, In e exps /\ nth i md 0%nat = nth i e 0%nat) /\
      get_titi_bernstein_patch_ndim_generalbox coeffs exps dom = Ok M /\ shape md M /\
      forall t : nat -> K,
        wsum md (map (fun dim => bern (nth dim md 0%nat) (t dim)) (seq 0 N)) M =
        sum_list (fun ec => snd ec * wprod (map (fun dim => kpow (nth_lo dom dim + (nth_hi dom dim - nth_lo dom dim) * t dim)) (seq 0 N)) (fst ec)) (combine exps coeffs).
  Proof.
    intros HN Hne ND L Hl Hdom.
    destruct (maxdeg_spec N exps HN Hne (fun e He => proj1 (Hl e He))) as (md & Emd & Lmd & Hb & Hex).
    destruct (a_matrix_spec N coeffs exps md HN Hne L (fun e He => proj1 (Hl e He)) Emd Lmd) as (A & EA & SA & CA).
    assert (H62 : forall dim, (dim < N)%nat -> (nth dim md 0 <= 62)%nat).
    { intros dim Hd. destruct (Hex dim Hd) as [e [He ->]]. apply (Hl e He). }
    assert (Hda : forall dim, (dim < N)%nat -> exists D, get_d_acc_matrix md dim = Ok D /\ is_matrix (nth dim md 0%nat + 1) (nth dim md 0%nat + 1) D /\
      forall i j, (i <= nth dim md 0)%nat -> (j <= nth dim md 0)%nat -> cell D i j = if Nat.eqb i j then 1 / kofZ (choose (nth dim md 0%nat) i) else 0).
    { intros dim Hd. apply d_acc_spec; auto. lia. }
    assert (Hq : forall dim, (dim < N)%nat -> exists Q, get_q_matrix md dom dim = Ok Q /\ is_matrix (nth dim md 0%nat + 1) (nth dim md 0%nat + 1) Q /\
      forall i k, (i <= nth dim md 0)%nat -> (k <= nth dim md 0)%nat ->
        cell Q i k = kofZ (choose k i) * kpow (nth_hi dom dim - nth_lo dom dim) i * (if Nat.leb i k then kpow (nth_lo dom dim) (k - i) else 0)).
    { intros dim Hd. assert (E : nth_error dom dim = Some (nth dim dom (EmptyString, (0, 0)))) by (apply nth_error_nth'; lia).
      unfold nth_lo, nth_hi. destruct (nth dim dom (EmptyString, (0, 0))) as [s [a b]]. cbn [fst snd]. apply (q_spec md dom dim _ s a b); auto. lia. }
    set (Da := fun dim => unres (get_d_acc_matrix md dim)). set (Q := fun dim => unres (get_q_matrix md dom dim)).
    set (L1 := fold_left (fun L dim => get_cycled_2d_array_vec (matmul (matmul (Da dim) (Q dim)) L) md dim) (seq 0 N) A).
    set (L2 := fold_left (fun L dim => get_cycled_2d_array_vec (matmul (get_lower_pascal_matrix md dim) L) md dim) (seq 0 N) L1).
    exists md, L2. split; [exact Emd|]. split; [exact Lmd|]. split; [exact Hex|].
    assert (EM : get_titi_bernstein_patch_ndim_generalbox coeffs exps dom = Ok L2).
    { unfold get_titi_bernstein_patch_ndim_generalbox, get_titi_base_lambda_generalbox.
      rewrite (ndim_spec N) by (auto; intros e He; apply (Hl e He)). cbn [rbind]. rewrite EA. cbn [rbind]. rewrite Emd. cbn [rbind].
      rewrite (base_fold Da Q).
      - cbn [rbind]. reflexivity.
      - intros dim Hd. apply in_seq in Hd. destruct (Hda dim ltac:(lia)) as [D [ED _]]. destruct (Hq dim ltac:(lia)) as [Q0 [EQ _]].
        unfold Da, Q. rewrite ED, EQ. auto. }
    split; [exact EM|].
    assert (Hmd : md <> []) by (destruct md; [cbn in Lmd; lia|discriminate]).
    assert (P : forall t : nat -> K,
      let W0 := map (fun dim => kpow (nth_lo dom dim + (nth_hi dom dim - nth_lo dom dim) * t dim)) (seq 0 N) in
      let W1 := map (fun dim l => kofZ (choose (nth dim md 0%nat) l) * kpow (t dim) l) (seq 0 N) in
      let W2 := map (fun dim => bern (nth dim md 0%nat) (t dim)) (seq 0 N) in
      shape md L2 /\ wsum md W2 L2 = wsum md W0 A).
    { intros t W0 W1 W2.
      assert (P1 : shape md L1 /\ wsum md W1 L1 = wsum md W0 A).
      { unfold L1. rewrite <- Lmd. apply (pass_full md (fun dim => matmul (Da dim) (Q dim)) W0 W1 A); auto.
        - unfold W0. rewrite map_length, seq_length. auto.
        - unfold W1. rewrite map_length, seq_length. auto.
        - intros dim Hd. rewrite Lmd in Hd. destruct (Hda dim Hd) as [D [ED [MD CD]]]. destruct (Hq dim Hd) as [Q0 [EQ [MQ CQ]]].
          unfold Da, Q. rewrite ED, EQ. cbn [unres]. set (n := nth dim md 0%nat) in *. rewrite Nat.add_1_r in *.
          destruct (matmul_spec _ _ _ _ _ MD MQ ltac:(lia) ltac:(lia)) as [MB CB]. split; auto.
          intros k Hk. unfold W0, W1. rewrite !nth_indep_weights by auto. fold n.
          rewrite <- (q_columns n k (nth_lo dom dim) (nth_hi dom dim) (t dim) Hk). rewrite Nat.add_1_r. apply sum_to_ext. intros l Hl'.
          rewrite CB by lia. rewrite (sum_to_pick (S n) l); [|lia|].
          + rewrite CD, CQ by lia. rewrite Nat.eqb_refl. field. apply C_neq0. lia.
          + intros m Hm Nm. rewrite CD by lia. destruct (Nat.eqb_spec l m); [lia|ring]. }
      destruct P1 as [S1 E1]. rewrite <- E1. unfold L2. rewrite <- Lmd.
      apply (pass_full md (get_lower_pascal_matrix md) W1 W2 L1); auto.
      - unfold W1. rewrite map_length, seq_length. auto.
      - unfold W2. rewrite map_length, seq_length. auto.
      - intros dim Hd. rewrite Lmd in Hd. destruct (pascal_spec (K:=K) md dim _ eq_refl (H62 dim Hd)) as [MP CP].
        set (n := nth dim md 0%nat) in *. rewrite Nat.add_1_r in *. split; auto.
        intros k Hk. unfold W1, W2. rewrite !nth_indep_weights by auto. fold n.
        rewrite <- (bern_moments (t dim) n k Hk). apply sum_to_ext. intros i Hi. rewrite CP by lia. reflexivity. }
    split; [apply (P (fun _ => 0))|]. intros t. destruct (P t) as [_ E]. cbv zeta in E. rewrite E.
    destruct md as [|d rest]; [congruence|]. destruct N as [|N]; [lia|]. cbn [seq map] in *.
    apply a_matrix_wsum; auto.
    - rewrite map_length, seq_length. cbn in Lmd. lia.
    - apply (CA d rest eq_refl).
  Qed.
End Main.
