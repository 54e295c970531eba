(** * Enclosure and exactness of the bounds (proof file). *)
From Coq Require Import String List Arith Bool Lia ZArith Permutation Reals Lra.
From Verif Require Import Ops Syms Poly Gdual Functions Spec PolyFacts GdualFacts CoefFacts Compose Bounding SpecBounding BinomProofs BoundPoly TensorProofs BernProofs CycleProofs BoundsMain.
Import ListNotations.

Section Value.
  Context {K : Type} {o : Ops K} {fl : FieldLaws o}.
  Local Open Scope K_scope.
  Add Field KfieldBF : (fl_field (K:=K)).

  Lemma at_key_In {V} (m : list (string * V)) s v : NoDup (map fst m) -> In (s, v) m -> at_key m s = Ok v.
  Proof.
    induction m as [|[t u] m IH]; intros ND []; cbn [at_key map fst] in *; inversion_clear ND.
    - injection H as -> ->. rewrite String.eqb_refl. reflexivity.
    - destruct (String.eqb_spec t s) as [->|]; auto. exfalso. apply H0. apply in_map_iff. exists (s, v). auto.
  Qed.
  Lemma shifted_loop (ex : list (string * K)) (dom : list (string * (K * K))) (I : string -> K * K) (e : string -> K) l :
    (forall s, In s l -> at_key dom s = Ok (I s) /\ at_key ex s = Ok (e s)) ->
    forall acc, fold_left (fun acc v => l <- acc;; I <- at_key dom v;; e <- at_key ex v;; Ok (l ++ [(v, (fst I - e, snd I - e))])) l (Ok acc)
    = Ok (acc ++ map (fun s => (s, (fst (I s) - e s, snd (I s) - e s))) l).
  Proof.
    induction l as [|s l IH]; intros H acc; cbn [fold_left map]; [rewrite app_nil_r; auto|]. cbn [rbind].
    destruct (H s (or_introl eq_refl)) as [E1 E2]. rewrite E1. cbn [rbind]. rewrite E2. cbn [rbind].
    rewrite IH by (intros; apply H; right; auto). rewrite <- app_assoc. reflexivity.
  Qed.
  Lemma shifted_spec (g : gdual K) ex dom I e : NoDup (map fst dom) -> NoDup (map fst ex) ->
    (forall s, In s (get_symbol_set g) -> In (s, I s) dom /\ In (s, e s) ex) ->
    shifted_domain g ex dom = Ok (map (fun s => (s, (fst (I s) - e s, snd (I s) - e s))) (get_symbol_set g)).
  Proof.
    intros N1 N2 H. unfold shifted_domain. rewrite (shifted_loop ex dom I e); auto.
    intros s Hs. destruct (H s Hs). split; apply at_key_In; auto.
  Qed.

  Lemma value_combine (g : gdual K) (coeffs : list K) exps rho : valid g -> NoDup exps ->
    (forall k c, In (k, c) (combine exps coeffs) <-> In (k, c) (pterms (gp g))) ->
    value g rho = sum_list (fun ec => snd ec * wprod (lsts (psyms (gp g)) rho) (fst ec)) (combine exps coeffs).
  Proof.
    intros Hg ND H. unfold value.
    rewrite (sum_list_perm _ (combine exps coeffs) (pterms (gp g))).
    - apply sum_list_ext. intros t Ht. f_equal. apply mono_at_wprod; [|apply (valid_length g Hg t Ht)].
      apply (swf_NoDup _ (gwf_swf _ (valid_gwf g Hg))).
    - apply NoDup_Permutation.
      + apply NoDup_combine. auto.
      + apply (NoDup_map_inv fst). apply (valid_distinct g Hg).
      + intros [k c]. apply H.
  Qed.
  Lemma value_nil (g : gdual K) rho : (forall k c, ~ In (k, c) (pterms (gp g))) -> value g rho = 0 /\ constant_cf g = 0.
  Proof.
    intros H. assert (E : pterms (gp g) = []) by (destruct (pterms (gp g)) as [|[k c] l]; auto; exfalso; apply (H k c); left; auto).
    unfold value. rewrite E. split; [reflexivity|]. rewrite constant_cf_find. unfold pfind. rewrite E. reflexivity.
  Qed.
  Lemma value_const (g : gdual K) rho : valid g -> psyms (gp g) = [] -> value g rho = constant_cf g.
  Proof.
    intros Hg E. assert (L := valid_length g Hg). assert (D := valid_distinct g Hg). rewrite constant_cf_find. unfold gsyms, pfind, value. rewrite E in *. cbn [length repeat] in *.
    destruct (pterms (gp g)) as [|[k c] [|[k' c'] l]].
    - reflexivity.
    - assert (X := L (k, c) (or_introl eq_refl)). cbn [fst] in X. destruct k; [|discriminate]. unfold sum_list. cbn. ring.
    - exfalso. assert (X := L (k, c) (or_introl eq_refl)). assert (Y := L (k', c') (or_intror (or_introl eq_refl))). cbn [fst] in *.
      destruct k; [|discriminate]. destruct k'; [|discriminate]. cbn in D. inversion_clear D. apply H. left; auto.
  Qed.

  Lemma lsts_seq (V : list string) (rho : string -> K) (x : nat -> K) : (forall d, (d < length V)%nat -> rho (nth d V EmptyString) = x d) ->
    map (fun dim => kpow (x dim)) (seq 0 (length V)) = lsts V rho.
  Proof.
    intros H. unfold lsts. rewrite <- (map_nth_seq V EmptyString) at 2. rewrite map_map. apply map_ext_in. intros d Hd. apply in_seq in Hd.
    rewrite <- H by lia. reflexivity.
  Qed.

  (** The three cases of [get_bounds]. *)
  Lemma bounds_cases (g : gdual K) ex dom iter sh : valid g -> (Z.of_nat (gord g) < 4294967296)%Z -> (gdegree g <= 62)%nat ->
    shifted_domain g ex dom = Ok sh -> (length (psyms (gp g)) <= length (iter sh))%nat ->
    (get_poly g = Ok ([], []) /\ get_bounds iter g ex dom = Ok (constant_cf g, constant_cf g) /\ (forall rho, value g rho = constant_cf g)) \/
    exists coeffs exps md M, get_poly g = Ok (coeffs, exps) /\ psyms (gp g) <> [] /\
      length md = length (psyms (gp g)) /\
      (forall i, (i < length md)%nat -> exists t, In t (pterms (gp g)) /\ nth i md 0%nat = nth i (fst t) 0%nat) /\
      get_titi_bernstein_patch_ndim_generalbox coeffs exps (iter sh) = Ok M /\
      get_bounds iter g ex dom = Ok (min_of (concat M), max_of (concat M)) /\ shape md M /\
      forall (t : nat -> K) rho,
        (forall d, (d < length (psyms (gp g)))%nat -> rho (nth d (psyms (gp g)) EmptyString) = nth_lo (iter sh) d + (nth_hi (iter sh) d - nth_lo (iter sh) d) * t d) ->
        wsum md (map (fun dim => bern (nth dim md 0%nat) (t dim)) (seq 0 (length md))) M = value g rho.
  Proof.
    intros Hg Ho H62 Hsh Hlen.
    destruct (get_poly_spec g Hg Ho (keqb_refl 0)) as (coeffs & exps & Ep & Hnil & Hne).
    unfold get_bounds. rewrite Ep. cbn [rbind fst snd].
    destruct (psyms (gp g)) as [|s V] eqn:EV.
    { left. destruct (Hnil eq_refl) as [-> ->]. cbn. split; auto. split; auto. intros rho. apply value_const; auto. }
    rewrite <- EV in *. assert (Hs : psyms (gp g) <> []) by (rewrite EV; discriminate). destruct (Hne Hs) as (ND & L & HI).
    destruct exps as [|e0 exps'] eqn:Ee.
    { left. destruct coeffs; [|discriminate]. cbn. split; auto. destruct (value_nil g (fun _ => 0)) as [_ E0].
      { intros k c H. apply HI in H. destruct H. }
      split; auto. intros rho. rewrite E0. apply (value_nil g rho). intros k c H. apply HI in H. destruct H. }
    rewrite <- Ee in *. assert (Hex : exps <> []) by (rewrite Ee; discriminate). right.
    assert (Hterm : forall e, In e exps -> exists c, In (e, c) (pterms (gp g))).
    { intros e He. apply (In_nth _ _ []) in He. destruct He as [n [Hn En]]. exists (nth n coeffs 0). apply HI.
      rewrite <- En. rewrite <- (combine_nth exps coeffs n [] 0) by auto. apply nth_In. rewrite combine_length, L, Nat.min_id. exact Hn. }
    assert (Hl : forall e, In e exps -> length e = length (psyms (gp g)) /\ forall i, (nth i e 0 <= 62)%nat).
    { intros e He. destruct (Hterm e He) as [c Hc]. split; [apply (valid_length g Hg (e, c) Hc)|]. intros i.
      assert (X := gdegree_ge g (e, c) Hc). cbn [fst] in X. destruct (nth_in_or_default i e 0%nat) as [Y|Y]; [apply le_list_sum in Y; lia|lia]. }
    destruct (patch_spec (length (psyms (gp g))) coeffs exps (iter sh)) as (md & M & Emd & Lmd & Hmx & EM & SM & HM); auto.
    { rewrite EV. cbn. lia. }
    exists coeffs, exps, md, M. split; [auto|]. split; [exact Hs|]. split; [exact Lmd|]. split.
    { intros i Hi. rewrite Lmd in Hi. destruct (Hmx i Hi) as [e [He E]]. destruct (Hterm e He) as [c Hc]. exists (e, c). auto. }
    split; [exact EM|]. split.
    { rewrite (ndim_spec (length (psyms (gp g)))) by (auto; intros e He; apply (Hl e He)). cbn [rbind].
      destruct (Nat.leb_spec 1 (length (psyms (gp g)))) as [_|C]; [|rewrite EV in C; cbn in C; lia].
      rewrite Hsh. cbn [rbind]. rewrite EM. cbn [rbind]. reflexivity. }
    split; [exact SM|]. intros t rho Hrho. rewrite Lmd, HM. rewrite (value_combine g coeffs exps rho Hg ND HI).
    rewrite <- (lsts_seq (psyms (gp g)) rho (fun dim => nth_lo (iter sh) dim + (nth_hi (iter sh) dim - nth_lo (iter sh) dim) * t dim)); auto.
  Qed.

  Lemma in_concat_cell ds (M : list (list K)) x : shape ds M -> In x (concat M) <->
    exists d rest i j, ds = d :: rest /\ (i <= d)%nat /\ (j < size rest)%nat /\ cell M i j = x.
  Proof.
    intros S. destruct ds as [|d rest]; [destruct S|]. cbn [shape] in S. rewrite in_concat. split.
    - intros [row [Hr Hx]]. apply (In_nth _ _ []) in Hr. destruct Hr as [i [Hi Er]]. apply (In_nth _ _ 0) in Hx. destruct Hx as [j [Hj Ex]].
      exists d, rest, i, j. assert (Hi' : (i < Datatypes.S d)%nat) by (destruct S as [<- _]; auto).
      assert (Lr : length row = size rest) by (rewrite <- Er; apply (is_matrix_row (Datatypes.S d)); auto).
      split; auto. split; [lia|]. split; [lia|]. unfold cell. rewrite Er. auto.
    - intros (d' & rest' & i & j & E & Hi & Hj & Ex). injection E as <- <-. exists (nth i M []). split.
      + apply nth_In. destruct S as [-> _]. lia.
      + rewrite <- Ex. unfold cell. apply nth_In. rewrite (is_matrix_row _ _ M i S) by lia. auto.
  Qed.

  (** Weights at a vertex select an entry. *)
  Lemma wsum_vertex (ds : list nat) (M : list (list K)) (t : nat -> K) (idx : list nat) : shape ds M -> below ds idx ->
    (forall d k, (d < length ds)%nat -> (k <= nth d ds 0)%nat -> bern (nth d ds 0%nat) (t d) k = delta (nth d idx 0%nat) k) ->
    In (wsum ds (map (fun dim => bern (nth dim ds 0%nat) (t dim)) (seq 0 (length ds))) M) (concat M) /\
    forall d rest i idx', ds = d :: rest -> idx = i :: idx' ->
      wsum ds (map (fun dim => bern (nth dim ds 0%nat) (t dim)) (seq 0 (length ds))) M = cell M i (flat rest idx').
  Proof.
    intros S Hb Hd. destruct ds as [|d rest]; [destruct S|]. inversion Hb as [|i0 ? idx0 ? H1 H2]; subst.
    assert (E : wsum (d :: rest) (map (fun dim => bern (nth dim (d :: rest) 0%nat) (t dim)) (seq 0 (length (d :: rest)))) M = cell M i0 (flat rest idx0)).
    { cbn [length seq map]. apply wsum_delta.
      - rewrite map_length, seq_length. reflexivity.
      - auto.
      - apply flat_lt. exact H2.
      - intros k Hk. apply (Hd 0%nat k); cbn [length nth]; [lia|auto].
      - rewrite digits_flat by exact H2. rewrite <- seq_shift, map_map.
        assert (Hd' : forall dm k, (dm < length rest)%nat -> (k <= nth dm rest 0)%nat -> bern (nth (Datatypes.S dm) (d :: rest) 0%nat) (t (Datatypes.S dm)) k = delta (nth dm idx0 0%nat) k).
        { intros dm k L1 L2. apply (Hd (Datatypes.S dm) k); cbn [length nth]; [lia|auto]. }
        cbn [nth] in *. clear - Hd' H2.
        assert (G : forall u : nat -> K, (forall dm k, (dm < length rest)%nat -> (k <= nth dm rest 0)%nat -> bern (nth dm rest 0%nat) (u dm) k = delta (nth dm idx0 0%nat) k) ->
          Forall2 (fun (w : nat -> K) (di : nat * nat) => forall k : nat, (k <= fst di)%nat -> w k = delta (snd di) k) (map (fun x => bern (nth x rest 0%nat) (u x)) (seq 0 (length rest))) (combine rest idx0)).
        { clear Hd'. induction H2 as [|i dd idx ds Hi H2 IH]; intros u Hd'; cbn [length seq map combine]; constructor.
          - intros k Hk. cbn [fst snd] in *. apply (Hd' 0%nat k); cbn; [lia|auto].
          - rewrite <- seq_shift, map_map. apply (IH (fun x => u (Datatypes.S x))). intros dm k L1 L2. apply (Hd' (Datatypes.S dm) k); cbn; [lia|auto]. }
        apply (G (fun x => t (Datatypes.S x)) Hd'). }
    rewrite E. split.
    - apply (in_concat_cell (d :: rest) M _ S). exists d, rest, i0, (flat rest idx0). repeat split; auto. apply flat_lt. exact H2.
    - intros d' rest' i idx' E1 E2. injection E1 as <- <-. injection E2 as <- <-. reflexivity.
  Qed.
End Value.

(** ** Order *)
Local Open Scope R_scope.
Lemma min_of_spec (l : list R) : l <> [] -> In (min_of l) l /\ forall x, In x l -> min_of l <= x.
Proof.
  destruct l as [|a l]; [congruence|]. intros _. unfold min_of. cbn [tl nth]. revert a.
  induction l as [|b l IH]; intros a; cbn [fold_left].
  - split; [left; auto|]. intros x [<-|[]]. apply Rle_refl.
  - unfold kltb at 2 4. cbn [OpsR]. unfold Rltb. destruct (Rlt_dec b a) as [L|L].
    + destruct (IH b) as [H1 H2]. split; [right; auto|]. intros x [<-|Hx]; [|auto]. assert (X := H2 b (or_introl eq_refl)). lra.
    + destruct (IH a) as [H1 H2]. split; [destruct H1 as [<-|H1]; [left; auto|right; right; auto]|].
      intros x [<-|[<-|Hx]]; [apply H2; left; auto| |apply H2; right; auto]. assert (X := H2 a (or_introl eq_refl)). lra.
Qed.
Lemma max_of_spec (l : list R) : l <> [] -> In (max_of l) l /\ forall x, In x l -> x <= max_of l.
Proof.
  destruct l as [|a l]; [congruence|]. intros _. unfold max_of. cbn [tl nth]. revert a.
  induction l as [|b l IH]; intros a; cbn [fold_left].
  - split; [left; auto|]. intros x [<-|[]]. apply Rle_refl.
  - unfold kltb at 2 4. cbn [OpsR]. unfold Rltb. destruct (Rlt_dec b a) as [L|L].
    + destruct (IH a) as [H1 H2]. split; [destruct H1 as [<-|H1]; [left; auto|right; right; auto]|].
      intros x [<-|[<-|Hx]]; [apply H2; left; auto| |apply H2; right; auto]. assert (X := H2 a (or_introl eq_refl)). lra.
    + destruct (IH b) as [H1 H2]. split; [right; auto|]. intros x [<-|Hx]; [|auto]. assert (X := H2 b (or_introl eq_refl)). lra.
Qed.

Lemma sum_to_le n (f g : nat -> R) : (forall i, (i < n)%nat -> f i <= g i) -> sum_to n f <= sum_to n g.
Proof.
  induction n as [|n IH]; intros H; [apply Rle_refl|]. rewrite !sum_to_S. apply Rplus_le_compat; [apply IH; intros; apply H; lia|apply H; lia].
Qed.
Lemma kpow_nonneg (x : R) n : 0 <= x -> 0 <= kpow x n.
Proof. intros H. induction n as [|n IH]; cbn; [lra|]. apply Rmult_le_pos; auto. Qed.
Lemma bern_nonneg n (t : R) i : 0 <= t <= 1 -> 0 <= bern n t i.
Proof.
  intros H. unfold bern. cbn. apply Rmult_le_pos; [apply Rmult_le_pos|].
  - apply (IZR_le 0). apply choose_nonneg.
  - apply kpow_nonneg. lra.
  - apply kpow_nonneg. lra.
Qed.
Lemma weight_nonneg ds : forall (ws : list (nat -> R)) j, Forall (fun w => forall i, 0 <= w i) ws -> 0 <= weight ds ws j.
Proof.
  induction ds as [|d ds IH]; intros [|w ws] j F; cbn [weight]; try (cbn; lra). inversion_clear F. apply Rmult_le_pos; auto.
Qed.
Lemma wsum_bounds (ds : list nat) (ws : list (nat -> R)) (M : list (list R)) lo hi : shape ds M -> length ws = length ds ->
  Forall (fun w => forall i, 0 <= w i) ws -> Forall2 (fun w d => sum_to (S d) w = 1) ws ds ->
  (forall x, In x (concat M) -> lo <= x <= hi) -> lo <= wsum ds ws M <= hi.
Proof.
  intros S L F0 F1 H. destruct ds as [|d rest]; [destruct S|]. destruct ws as [|w ws]; [discriminate|].
  inversion_clear F0 as [|? ? P0 P1]. inversion_clear F1 as [|? ? ? ? Q0 Q1]. cbn [length] in L.
  assert (T : forall c : R, c = sum_to (Datatypes.S d) (fun i => sum_to (size rest) (fun j => w i * weight rest ws j * c))).
  { intros c. transitivity (sum_to (Datatypes.S d) (fun i => w i * c)).
    - transitivity (kmul (sum_to (Datatypes.S d) w) c); [rewrite Q0; cbn; ring|]. symmetry. exact (sum_to_scal_r (Datatypes.S d) c w).
    - apply sum_to_ext. intros i Hi.
      transitivity (kmul (sum_to (size rest) (weight rest ws)) (kmul (w i) c)).
      + rewrite (weight_total rest ws) by (auto; lia). cbn. ring.
      + rewrite <- sum_to_scal_r. apply sum_to_ext. intros j _. cbn. ring. }
  assert (Hc : forall i j, (i < Datatypes.S d)%nat -> (j < size rest)%nat -> lo <= cell M i j <= hi).
  { intros i j Hi Hj. apply H. apply (in_concat_cell (d :: rest) M _ S). exists d, rest, i, j. repeat split; auto. lia. }
  assert (Wp : forall i j, 0 <= w i * weight rest ws j) by (intros; apply Rmult_le_pos; auto; apply weight_nonneg; auto).
  cbn [wsum]. split.
  - rewrite (T lo). apply sum_to_le. intros i Hi. apply sum_to_le. intros j Hj. apply Rmult_le_compat_l; auto. apply Hc; auto.
  - rewrite (T hi). apply sum_to_le. intros i Hi. apply sum_to_le. intros j Hj. apply Rmult_le_compat_l; auto. apply Hc; auto.
Qed.

Lemma inside_nth (V : list string) (sh : list (string * (R * R))) rho : inside V (map snd sh) rho ->
  length sh = length V /\ forall d, (d < length V)%nat -> nth_lo sh d <= rho (nth d V EmptyString) <= nth_hi sh d.
Proof.
  unfold inside, nth_lo, nth_hi. revert sh. induction V as [|s V IH]; intros [|[n I] sh] H; inversion H; subst; cbn [length map] in *.
  - split; auto. intros d Hd; lia.
  - destruct (IH sh) as [L Hd]; auto. split; [lia|]. intros [|d] Hlt; cbn [nth]; auto. apply Hd. lia.
Qed.

Section Final.
  Variables (g : gdual R) (ex : list (string * R)) (dom sh : list (string * (R * R))) (iter : list (string * (R * R)) -> list (string * (R * R))).
  Hypothesis Hg : valid g.
  Hypothesis Ho : (Z.of_nat (gord g) < 4294967296)%Z.
  Hypothesis H62 : (gdegree g <= 62)%nat.
  Hypothesis Hsh : shifted_domain g ex dom = Ok sh.
  Hypothesis Hit : length (iter sh) = length (psyms (gp g)).
  Notation V := (psyms (gp g)).

  Lemma shape_nonempty ds (M : list (list R)) : shape ds M -> concat M <> [].
  Proof.
    intros S E. destruct ds as [|d rest]; [destruct S|].
    assert (X : In (cell M 0 0) (concat M)).
    { apply (in_concat_cell (d :: rest) M _ S). exists d, rest, 0%nat, 0%nat. repeat split; auto; [lia|apply size_pos]. }
    rewrite E in X. destruct X.
  Qed.
  Lemma enclose : exists lo hi, get_bounds iter g ex dom = Ok (lo, hi) /\
    forall rho, inside V (map snd (iter sh)) rho -> lo <= value g rho <= hi.
  Proof.
    destruct (bounds_cases g ex dom iter sh Hg Ho H62 Hsh ltac:(lia)) as [[E0 [E Hv]]|(coeffs & exps & md & M & _ & _ & Lmd & _ & _ & E & SM & HM)].
    - eexists _, _. split; [exact E|]. intros rho _. rewrite Hv. lra.
    - eexists _, _. split; [exact E|]. intros rho Hin. apply inside_nth in Hin. destruct Hin as [_ Hin].
      set (t := fun d => if Req_EM_T (nth_hi (iter sh) d) (nth_lo (iter sh) d) then 0
                else (rho (nth d V EmptyString) - nth_lo (iter sh) d) / (nth_hi (iter sh) d - nth_lo (iter sh) d)).
      assert (Ht : forall d, (d < length V)%nat -> 0 <= t d <= 1 /\
        rho (nth d V EmptyString) = nth_lo (iter sh) d + (nth_hi (iter sh) d - nth_lo (iter sh) d) * t d).
      { intros d Hd. specialize (Hin d Hd). unfold t. destruct (Req_EM_T _ _) as [Eq|Nq].
        - rewrite Eq in *. split; lra.
        - set (a := nth_lo (iter sh) d) in *. set (b := nth_hi (iter sh) d) in *. set (x := rho (nth d V EmptyString)) in *.
          assert (0 < b - a) by lra. split; [split|].
          + apply Rmult_le_pos; [lra|]. left. apply Rinv_0_lt_compat. lra.
          + apply (Rmult_le_reg_r (b - a)); auto. unfold Rdiv. rewrite Rmult_assoc, Rinv_l by lra. lra.
          + field. lra. }
      rewrite <- (HM t rho) by (intros d Hd; apply (Ht d Hd)).
      assert (Ne := shape_nonempty md M SM).
      apply wsum_bounds; auto.
      + rewrite map_length, seq_length. reflexivity.
      + apply Forall_forall. intros w Hw. apply in_map_iff in Hw. destruct Hw as [d [<- Hd]]. apply in_seq in Hd. intros i. apply bern_nonneg. apply Ht. lia.
      + assert (G : forall l, Forall2 (fun (w : nat -> R) d => sum_to (S d) w = 1) (map (fun dim => bern (nth dim md 0%nat) (t dim)) l) (map (fun i => nth i md 0%nat) l)).
        { induction l as [|d l IH]; cbn [map]; constructor; auto. exact (bern_unit (t d) (nth d md 0%nat)). }
        assert (Y := G (seq 0 (length md))). rewrite (map_nth_seq md 0%nat) in Y. exact Y.
      + intros x Hx. destruct (min_of_spec _ Ne) as [_ Hmin]. destruct (max_of_spec _ Ne) as [_ Hmax]. auto.
  Qed.

  (** The point of the box with the [d]-th coordinate at fraction [t d]. *)
  Definition point (t : nat -> R) : string -> R :=
    fun s => match find (fun d => String.eqb (nth d V EmptyString) s) (seq 0 (length V)) with
             | Some d => nth_lo (iter sh) d + (nth_hi (iter sh) d - nth_lo (iter sh) d) * t d
             | None => 0
             end.
  Lemma point_nth t d : (d < length V)%nat -> point t (nth d V EmptyString) = nth_lo (iter sh) d + (nth_hi (iter sh) d - nth_lo (iter sh) d) * t d.
  Proof.
    intros Hd. unfold point. assert (ND : NoDup V) by (apply (swf_NoDup _ (gwf_swf _ (valid_gwf g Hg)))).
    destruct (find _ _) as [d'|] eqn:E.
    - apply find_some in E. destruct E as [Hi E]. apply in_seq in Hi. apply String.eqb_eq in E.
      apply (proj1 (NoDup_nth V EmptyString) ND) in E; [subst; auto|lia|lia].
    - assert (X := find_none _ _ E d ltac:(apply in_seq; lia)). cbn beta in X. rewrite String.eqb_refl in X. discriminate.
  Qed.
  Lemma point_inside t : (forall d, (d < length V)%nat -> 0 <= t d <= 1) -> Forall (fun I => fst I <= snd I) (map snd (iter sh)) ->
    inside V (map snd (iter sh)) (point t).
  Proof.
    intros Ht F. unfold inside.
    assert (G : forall n, (n <= length V)%nat -> Forall2 (fun s (I : R * R) => fst I <= point t s <= snd I) (skipn n V) (map snd (skipn n (iter sh)))).
    { intros n Hn. remember (length V - n)%nat as k eqn:Ek. revert n Hn Ek. induction k as [|k IH]; intros n Hn Ek.
      - rewrite !skipn_all2 by lia. constructor.
      - rewrite (skipn_cons n V EmptyString), (skipn_cons n (iter sh) (EmptyString, (0, 0))) by lia. cbn [map]. constructor; [|apply IH; lia].
        rewrite point_nth by lia. specialize (Ht n ltac:(lia)).
        assert (X : nth_lo (iter sh) n <= nth_hi (iter sh) n).
        { rewrite Forall_forall in F. apply (F (snd (nth n (iter sh) (EmptyString, (0, 0))))). apply in_map. apply nth_In. lia. }
        change (nth_lo (iter sh) n <= nth_lo (iter sh) n + (nth_hi (iter sh) n - nth_lo (iter sh) n) * t n <= nth_hi (iter sh) n).
        generalize dependent (nth_lo (iter sh) n). generalize dependent (nth_hi (iter sh) n). intros b a X.
        assert (0 <= (b - a) * t n) by (apply Rmult_le_pos; lra). assert (0 <= (b - a) * (1 - t n)) by (apply Rmult_le_pos; lra). lra. }
    apply (G 0%nat). lia.
  Qed.

  (** Values at the vertices are entries of the patch. *)
  Lemma vertices : forall c : nat -> bool, forall coeffs exps M, get_poly g = Ok (coeffs, exps) -> exps <> [] ->
    get_titi_bernstein_patch_ndim_generalbox coeffs exps (iter sh) = Ok M ->
    In (value g (point (fun d => if c d then 1 else 0))) (concat M).
  Proof.
    intros c coeffs exps M Ep Hne EM.
    destruct (bounds_cases g ex dom iter sh Hg Ho H62 Hsh ltac:(lia)) as [[E0 [E Hv]]|(coeffs' & exps' & md & M' & Ep' & Hs & Lmd & _ & EM' & E & SM & HM)].
    - exfalso. rewrite Ep in E0. injection E0 as _ ->. auto.
    - rewrite Ep in Ep'. injection Ep' as <- <-. rewrite EM in EM'. injection EM' as <-.
      rewrite <- (HM (fun d => if c d then 1 else 0)) by (intros d Hd; apply point_nth; auto).
      apply (wsum_vertex md M (fun d => if c d then 1 else 0) (map (fun d => if c d then nth d md 0%nat else 0%nat) (seq 0 (length md)))); auto.
      + apply below_nth. rewrite map_length, seq_length. split; auto. intros i Hi. rewrite (nth_map_seq (fun d => if c d then nth d md 0%nat else 0%nat)) by auto. destruct (c i); lia.
      + intros d k0 Hd Hk0. rewrite (nth_map_seq (fun d => if c d then nth d md 0%nat else 0%nat)) by auto. destruct (c d); [exact (bern_at_1 _ k0 Hk0)|exact (bern_at_0 _ k0 Hk0)].
  Qed.
  
  (** Degree at most one in each variable: the bounds are values at vertices. *)
  Lemma attained : (forall t i, In t (pterms (gp g)) -> (nth i (fst t) 0 <= 1)%nat) ->
    exists (lo hi : R) (c c' : nat -> bool), get_bounds iter g ex dom = Ok (lo, hi) /\ 
      lo = value g (point (fun d => if c d then 1 else 0)) /\ hi = value g (point (fun d => if c' d then 1 else 0)).
  Proof.
    intros H1.
    destruct (bounds_cases g ex dom iter sh Hg Ho H62 Hsh ltac:(lia)) as [[E0 [E Hv]]|(coeffs & exps & md & M & Ep & Hs & Lmd & Hmx & EM & E & SM & HM)].
    - exists (constant_cf g), (constant_cf g), (fun _ => false), (fun _ => false). split; auto.
    - assert (Ne := shape_nonempty md M SM).
      assert (Hd1 : forall d, (d < length md)%nat -> (nth d md 0 <= 1)%nat) by (intros d Hd; destruct (Hmx d Hd) as [t [Ht ->]]; auto).
      assert (Hall : forall x, In x (concat M) -> exists c : nat -> bool, x = value g (point (fun d => if c d then 1 else 0))).
      { intros x Hx. apply (in_concat_cell md M x SM) in Hx. destruct Hx as (d & rest & i & j & Emd & Hi & Hj & Ex).
        set (idx := i :: digits rest j). exists (fun dim => Nat.eqb (nth dim idx 0%nat) 1).
        rewrite <- (HM (fun dim => if Nat.eqb (nth dim idx 0%nat) 1 then 1 else 0)) by (intros dim Hd; apply point_nth; auto).
        assert (Hb : below md idx) by (rewrite Emd; constructor; [exact Hi|apply digits_below]).
        destruct (wsum_vertex md M (fun dim => if Nat.eqb (nth dim idx 0%nat) 1 then 1 else 0) idx SM Hb) as [_ W].
        - intros dim k Hd Hk. apply below_nth in Hb. destruct Hb as [_ Hb]. specialize (Hb dim Hd). specialize (Hd1 dim Hd).
          destruct (Nat.eqb_spec (nth dim idx 0%nat) 1) as [E1|N1].
          + rewrite E1. replace (nth dim md 0%nat) with 1%nat in * by lia. exact (bern_at_1 (K:=R) _ k Hk).
          + replace (nth dim idx 0%nat) with 0%nat by lia. exact (bern_at_0 (K:=R) _ k Hk).
        - rewrite (W d rest i (digits rest j) Emd eq_refl). rewrite flat_digits by auto. auto. }
      destruct (min_of_spec _ Ne) as [Imin _]. destruct (max_of_spec _ Ne) as [Imax _].
      destruct (Hall _ Imin) as [c Ec]. destruct (Hall _ Imax) as [c' Ec']. eexists _, _, c, c'. split; [exact E|]. auto.
  Qed.
End Final.
