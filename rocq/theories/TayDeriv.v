(** * Taylor's theorem in several variables and get_derivative (C19) *)
From Coq Require Import String Reals List Arith ZArith Bool Lra Lia Psatz Sorting.Sorted FunctionalExtensionality.
From Verif Require Import Ops Syms SymsFacts Poly PolyFacts Gdual Functions FunStruct Spec GdualFacts CoefFacts CoreProofs ValueProofs SpecTaylor Taylor TayUnique TayProofs TayIdent MiscProofs CalcProofs BoundPoly BoundsMain TayQuad TaySubs TMTaylor.
Import ListNotations.
Open Scope R_scope.

Definition depends (W : list string) (g : point -> R) : Prop := forall x y, (forall s, In s W -> x s = y s) -> g x = g y.

(** ** A function with small partial derivatives is small *)
Section MeanValue.
  Variables (W : list string) (g : point -> R) (g' : string -> point -> R) (m : nat) (C r : R).
  Hypothesis HW : NoDup W.
  Hypothesis Hg : depends W g.
  Hypothesis H0 : g center = 0.
  Hypothesis Hr : 0 < r.
  Hypothesis Hd : forall s x, In s W -> within x r -> derivable_pt_lim (fun t => g (update x s t)) (x s) (g' s x).
  Hypothesis Hb : forall s x q, In s W -> within x q -> q <= r -> Rabs (g' s x) <= C * q ^ m.
  Definition restrict (l : list string) (x : point) : point := fun t => if in_dec string_dec t l then x t else 0.
  Lemma within_restrict l x q : within x q -> within (restrict l x) q.
  Proof. intros H t. unfold restrict. destruct (in_dec _ _ _); auto. rewrite Rabs_R0. apply (within_pos x q H). Qed.
  Lemma line_step s (z : point) v q : In s W -> within z q -> q <= r -> z s = 0 -> Rabs v <= q ->
    Rabs (g (update z s v) - g z) <= C * q ^ m * q.
  Proof.
    intros Hs Hz Hq Zs Hv. set (phi t := g (update z s t)).
    assert (E0 : g z = phi 0).
    { apply Hg. intros t _. unfold update. destruct (String.eqb_spec t s); subst; auto. }
    assert (W' : forall t, Rabs t <= q -> within (update z s t) q).
    { intros t Ht w. unfold update. destruct (String.eqb w s); auto. }
    assert (D : forall t, Rabs t <= q -> derivable_pt_lim phi t (g' s (update z s t))).
    { intros t Ht. assert (X := Hd s (update z s t) Hs). 
      assert (Es : update z s t s = t) by (unfold update; rewrite String.eqb_refl; auto). rewrite Es in X.
      assert (Y : within (update z s t) r) by (intros w; eapply Rle_trans; [apply (W' t Ht)|auto]). specialize (X Y).
      intros eps He. destruct (X eps He) as (del & Hdel). exists del. intros h Hh Hl. specialize (Hdel h Hh Hl).
      replace (phi (t + h)) with (g (update (update z s t) s (t + h))); [replace (phi t) with (g (update (update z s t) s t)); [exact Hdel|]|];
        apply Hg; intros w _; unfold update; destruct (String.eqb w s); auto. }
    assert (B : forall t, Rabs t <= q -> Rabs (g' s (update z s t)) <= C * q ^ m) by (intros t Ht; apply (Hb s _ q); auto).
    rewrite E0. change (g (update z s v)) with (phi v).
    assert (Q0 : 0 <= q) by (eapply Rle_trans; [apply Rabs_pos|exact Hv]).
    assert (CQ : 0 <= C * q ^ m) by (eapply Rle_trans; [apply Rabs_pos|apply (B 0)]; rewrite Rabs_R0; auto).
    destruct (Rtotal_order v 0) as [L|[L|L]].
    - destruct (MVT_cor2 phi (fun t => g' s (update z s t)) v 0 L) as (c & E & Hc).
      { intros t Ht. apply D. rewrite Rabs_left1 by lra. rewrite Rabs_left in Hv by lra. lra. }
      rewrite <- Rabs_Ropp, Ropp_minus_distr, E, Rabs_mult. rewrite Rabs_left in Hv by lra.
      apply Rmult_le_compat; try apply Rabs_pos.
      + apply B. rewrite Rabs_left1 by lra. lra.
      + rewrite Rabs_pos_eq by lra. lra.
    - subst v. rewrite Rminus_eq_0, Rabs_R0. nra.
    - destruct (MVT_cor2 phi (fun t => g' s (update z s t)) 0 v L) as (c & E & Hc).
      { intros t Ht. apply D. rewrite Rabs_pos_eq by lra. rewrite Rabs_pos_eq in Hv by lra. lra. }
      rewrite E, Rabs_mult. rewrite Rabs_pos_eq in Hv by lra.
      apply Rmult_le_compat; try apply Rabs_pos.
      + apply B. rewrite Rabs_pos_eq by lra. lra.
      + rewrite Rabs_pos_eq by lra. lra.
  Qed.
  Lemma mean_value x q : within x q -> q <= r -> Rabs (g x) <= INR (length W) * (C * q ^ m * q).
  Proof.
    intros Hx Hq.
    assert (I : forall l, incl l W -> NoDup l -> Rabs (g (restrict l x)) <= INR (length l) * (C * q ^ m * q)).
    { induction l as [|s l IH]; intros Il Nl.
      - replace (g (restrict [] x)) with 0 by (rewrite <- H0; apply Hg; reflexivity). rewrite Rabs_R0. cbn. lra.
      - inversion Nl; subst.
        assert (E : g (restrict (s :: l) x) = g (update (restrict l x) s (x s))).
        { apply Hg. intros t _. unfold update, restrict. destruct (String.eqb_spec t s) as [->|N].
          - destruct (in_dec _ _ _) as [_|N]; auto. exfalso. apply N. left. auto.
          - destruct (in_dec string_dec t (s :: l)) as [[F|F]|F], (in_dec string_dec t l) as [G|G]; auto; try congruence; try contradiction. exfalso. apply F. right. auto. }
        rewrite E. assert (S1 := line_step s (restrict l x) (x s) q (Il s (or_introl eq_refl)) (within_restrict l x q Hx) Hq).
        assert (Z : restrict l x s = 0) by (unfold restrict; destruct (in_dec _ _ _); [contradiction|auto]).
        specialize (S1 Z (Hx s)). assert (S2 := IH (fun t Ht => Il t (or_intror Ht)) H3). 
        replace (g (update (restrict l x) s (x s))) with ((g (update (restrict l x) s (x s)) - g (restrict l x)) + g (restrict l x)) by ring.
        eapply Rle_trans; [apply Rabs_triang|]. change (length (s :: l)) with (S (length l)). rewrite S_INR. lra. }
    replace (g x) with (g (restrict W x)); [apply I; auto using incl_refl|].
    apply Hg. intros t Ht. unfold restrict. destruct (in_dec _ _ _); [auto|contradiction].
  Qed.
End MeanValue.

(** ** The Taylor polynomial of a family of derivatives *)
Fixpoint tpoly (W : list string) (n : nat) (a : list nat -> R) (x : point) : R :=
  match W with
  | [] => a []
  | s :: W' => sum_f_R0 (fun j => x s ^ j / INR (fact j) * tpoly W' (n - j) (fun k => a (j :: k)) x) n
  end.
Fixpoint inc (W : list string) (k : list nat) (s : string) : list nat :=
  match W, k with
  | w :: W', e :: k' => if String.eqb w s then S e :: k' else e :: inc W' k' s
  | _, _ => k
  end.
Lemma sum_ext (f g : nat -> R) n : (forall j, (j <= n)%nat -> f j = g j) -> sum_f_R0 f n = sum_f_R0 g n.
Proof. intros H. apply sum_eq. auto. Qed.
Lemma tpoly_ext W : forall n a b x y, (forall k, length k = length W -> (list_sum k <= n)%nat -> a k = b k) -> (forall s, In s W -> x s = y s) -> tpoly W n a x = tpoly W n b y.
Proof.
  induction W as [|s W IH]; intros n a b x y Ha Hx; cbn [tpoly].
  - apply Ha; auto; cbn; lia.
  - apply sum_ext. intros j Hj. rewrite (Hx s) by (left; auto). f_equal. apply IH; [|intros; apply Hx; right; auto].
    intros k Hk Hs. apply Ha; [cbn; auto|]. cbn. unfold list_sum in *. cbn. lia.
Qed.
Lemma tpoly_zero W : forall n a, tpoly W n a center = a (map (fun _ => 0%nat) W).
Proof.
  induction W as [|s W IH]; intros n a; cbn [tpoly map]; auto.
  assert (E : forall m, sum_f_R0 (fun j => center s ^ j / INR (fact j) * tpoly W (n - j) (fun k => a (j :: k)) center) m = a (0%nat :: map (fun _ => 0%nat) W)).
  { induction m as [|m IHm]; cbn [sum_f_R0].
    - rewrite Nat.sub_0_r, IH. cbn. field.
    - rewrite IHm. unfold center at 1. rewrite pow_ne_zero by lia. unfold Rdiv. ring. }
  apply E.
Qed.
Lemma sum_deriv (F : nat -> R -> R) (F' : nat -> R) v n : (forall j, (j <= n)%nat -> derivable_pt_lim (F j) v (F' j)) ->
  derivable_pt_lim (fun t => sum_f_R0 (fun j => F j t) n) v (sum_f_R0 F' n).
Proof.
  induction n as [|n IH]; intros H; cbn [sum_f_R0]; auto.
  apply (derivable_pt_lim_plus (fun t => sum_f_R0 (fun j => F j t) n) (F (S n))); auto.
Qed.
Definition tpoly' W n a x := match n with O => 0 | S m => tpoly W m a x end.
Lemma derivable_ext (f g : R -> R) v l : (forall t, f t = g t) -> derivable_pt_lim f v l -> derivable_pt_lim g v l.
Proof. intros E H eps He. destruct (H eps He) as (d & Hd). exists d. intros h h0 h1. rewrite <- !E. auto. Qed.
Lemma tpoly_deriv W s : NoDup W -> In s W -> forall n a x, derivable_pt_lim (fun t => tpoly W n a (update x s t)) (x s) (tpoly' W n (fun k => a (inc W k s)) x).
Proof.
  induction W as [|w W IH]; intros N Hs n a x; [destruct Hs|]. inversion N; subst.
  destruct (String.eqb_spec w s) as [->|Ne].
  - (* the variable itself *)
    set (c j := tpoly W (n - j) (fun k => a (j :: k)) x).
    apply (derivable_ext (fun t => sum_f_R0 (fun j => t ^ j / INR (fact j) * c j) n)).
    { intros t. cbn [tpoly]. apply sum_ext. intros j Hj. unfold update at 1. rewrite String.eqb_refl. f_equal. apply tpoly_ext; auto.
      intros w Hw. unfold update. destruct (String.eqb_spec w s); subst; [contradiction|auto]. }
    assert (D := sum_deriv (fun j t => t ^ j / INR (fact j) * c j) (fun j => INR j * x s ^ pred j / INR (fact j) * c j) (x s) n).
    replace (tpoly' (s :: W) n (fun k => a (inc (s :: W) k s)) x) with (sum_f_R0 (fun j => INR j * x s ^ pred j / INR (fact j) * c j) n).
    + apply D. intros j _. apply (derivable_ext (fun t => c j / INR (fact j) * t ^ j)); [intros; unfold Rdiv; ring|].
      replace (INR j * x s ^ pred j / INR (fact j) * c j) with (c j / INR (fact j) * (INR j * x s ^ pred j)) by (unfold Rdiv; ring).
      apply derivable_pt_lim_scal, derivable_pt_lim_pow.
    + unfold tpoly'. destruct n as [|n]; [cbn; unfold Rdiv; ring|].
      rewrite decomp_sum by lia. cbn [pred]. rewrite Rmult_0_l. unfold Rdiv at 1. rewrite !Rmult_0_l, Rplus_0_l.
      cbn [tpoly]. apply sum_ext. intros j Hj. cbn [inc]. rewrite String.eqb_refl. unfold c. cbn [pred].
      replace (S n - S j)%nat with (n - j)%nat by lia.
      assert (F : INR (fact j) <> 0) by apply INR_fact_neq_0.
      replace (INR (S j) * x s ^ j / INR (fact (S j))) with (x s ^ j / INR (fact j)); auto.
      rewrite fact_simpl, mult_INR. field. split; auto. rewrite S_INR. pose proof (pos_INR j). lra.
  - destruct Hs as [Hs|Hs]; [congruence|].
    cbn [tpoly].
    apply (derivable_ext (fun t => sum_f_R0 (fun j => x w ^ j / INR (fact j) * tpoly W (n - j) (fun k => a (j :: k)) (update x s t)) n)).
    { intros t. apply sum_ext. intros j _. unfold update at 2. destruct (String.eqb_spec w s); [congruence|auto]. }
    replace (tpoly' (w :: W) n (fun k => a (inc (w :: W) k s)) x) with
      (sum_f_R0 (fun j => x w ^ j / INR (fact j) * tpoly' W (n - j) (fun k => a (j :: inc W k s)) x) n).
    + apply (sum_deriv (fun j t => x w ^ j / INR (fact j) * tpoly W (n - j) (fun k => a (j :: k)) (update x s t))).
      intros j _. apply derivable_pt_lim_scal. apply (IH H2 Hs (n - j)%nat (fun k => a (j :: k)) x).
    + unfold tpoly' at 2. destruct n as [|n]; [cbn; ring|]. cbn [sum_f_R0]. rewrite Nat.sub_diag. unfold tpoly' at 2. rewrite Rmult_0_r, Rplus_0_r.
      cbn [tpoly]. apply sum_ext. intros j Hj. replace (S n - j)%nat with (S (n - j)) by lia. cbn [tpoly'].
      f_equal. apply tpoly_ext; auto. intros k _ _. cbn [inc]. destruct (String.eqb_spec w s); [congruence|auto].
Qed.

(** ** The Taylor polynomial approximates *)
Lemma inc_length W : forall k s, length (inc W k s) = length k.
Proof. induction W as [|w W IH]; intros [|e k] s; auto. cbn. destruct (String.eqb w s); cbn; auto. Qed.
Lemma inc_sum W : forall k s, length k = length W -> In s W -> list_sum (inc W k s) = S (list_sum k).
Proof.
  induction W as [|w W IH]; intros [|e k] s Hl Hs; try discriminate; [destruct Hs|]. cbn [inc].
  destruct (String.eqb_spec w s); [cbn; auto|]. destruct Hs as [Hs|Hs]; [congruence|].
  assert (X := IH k s ltac:(injection Hl; auto) Hs). unfold list_sum in *. cbn. lia.
Qed.
Lemma inc_comm W : forall k s t, inc W (inc W k s) t = inc W (inc W k t) s.
Proof.
  induction W as [|w W IH]; intros [|e k] s t; auto. cbn [inc].
  destruct (String.eqb_spec w s), (String.eqb_spec w t); cbn [inc]; subst;
    rewrite ?String.eqb_refl; auto;
    repeat match goal with H : ?a <> ?b |- context [String.eqb ?a ?b] => rewrite (proj2 (String.eqb_neq a b) H) end; auto.
  f_equal. auto.
Qed.
Lemma incr_inc W k s : NoDup W -> length k = length W -> incr W k s = inc W k s.
Proof.
  intros N Hl. unfold incr. revert k N Hl. induction W as [|w W IH]; intros [|e k] N Hl; try discriminate; auto. inversion N; subst.
  cbn [map inc expo]. rewrite String.eqb_refl. destruct (String.eqb_spec w s) as [->|Ne].
  - f_equal; [lia|]. transitivity (map (expo W k) W); [|apply map_expo_id; auto; injection Hl; auto]. apply map_ext_in. intros t Ht.
    destruct (String.eqb_spec s t); [subst; contradiction|]. destruct (String.eqb_spec t s); [congruence|lia].
  - f_equal; [lia|]. rewrite <- (IH k) by (auto; injection Hl; auto). apply map_ext_in. intros t Ht.
    destruct (String.eqb_spec w t); [subst; contradiction|auto].
Qed.

Section Main.
  Variables (W : list string) (HW : NoDup W).
  Notation zeros := (map (fun _ : string => 0%nat) W).
  Definition family (n : nat) (F : list nat -> point -> R) (r : R) : Prop :=
    (forall k, depends W (F k)) /\
    (forall k s x, length k = length W -> (list_sum k <= n)%nat -> In s W -> within x r -> derivable_pt_lim (fun t => F k (update x s t)) (x s) (F (inc W k s) x)) /\
    (forall k, length k = length W -> list_sum k = S n -> exists M, forall x, within x r -> Rabs (F k x) <= M).
  Lemma zeros_sum : list_sum zeros = 0%nat.
  Proof. clear. induction W; auto. Qed.
  Lemma family_step n F r s : family (S n) F r -> In s W -> family n (fun k => F (inc W k s)) r.
  Proof.
    intros (H1 & H2 & H3) Hs. split; [|split].
    - intros k. apply H1.
    - intros k t x Hk L Ht Hx. rewrite inc_comm. apply H2; auto; [rewrite inc_length; auto|]. rewrite inc_sum by auto. lia.
    - intros k Hk L. apply H3; [rewrite inc_length; auto|]. rewrite inc_sum by auto. lia.
  Qed.
  (** a common bound for all the variables *)
  Lemma common_bound m (G : string -> point -> R) : (forall s, In s W -> bigO m (G s)) ->
    exists C d, 0 < d /\ 0 <= C /\ forall s x q, In s W -> within x q -> q <= d -> Rabs (G s x) <= C * q ^ m.
  Proof.
    clear HW. induction W as [|w W' IH]; intros H.
    - exists 0, 1. split; [lra|]. split; [lra|]. intros s x q [].
    - destruct (H w (or_introl eq_refl)) as (C & d & Hd & HC & B). destruct IH as (C' & d' & Hd' & HC' & B'); [intros; apply H; right; auto|].
      exists (Rmax C C'), (Rmin d d'). split; [apply Rmin_pos; auto|]. split; [eapply Rle_trans; [exact HC|apply Rmax_l]|].
      intros s x q [<-|Hs] Hx Hq; (assert (0 <= q ^ m) by (apply pow_le, (within_pos x q Hx))).
      + eapply Rle_trans; [apply (B x q Hx); eapply Rle_trans; [exact Hq|apply Rmin_l]|]. apply Rmult_le_compat_r; auto. apply Rmax_l.
      + eapply Rle_trans; [apply (B' s x q Hs Hx); eapply Rle_trans; [exact Hq|apply Rmin_r]|]. apply Rmult_le_compat_r; auto. apply Rmax_r.
  Qed.
  Lemma taylor_theorem n : forall F r, 0 < r -> family n F r -> bigO (S n) (fun x => F zeros x - tpoly W n (fun k => F k center) x).
  Proof.
    induction n as [|n IH]; intros F r Hr HF.
    all: set (g x := F zeros x - tpoly W _ (fun k => F k center) x).
    all: assert (Dg : depends W g) by (intros x y Hxy; unfold g; rewrite (proj1 HF zeros x y Hxy); f_equal; apply tpoly_ext; auto).
    all: assert (G0 : g center = 0) by (unfold g; rewrite tpoly_zero; ring).
    - set (g' s x := F (inc W zeros s) x - 0).
      destruct (common_bound 0 g') as (C & d & Hd & HC & B).
      { intros s Hs. destruct HF as (_ & _ & H3). destruct (H3 (inc W zeros s)) as (M & HM); [rewrite inc_length, map_length; auto|rewrite inc_sum, zeros_sum; auto; apply map_length|].
        exists (Rabs M), r. split; auto. split; [apply Rabs_pos|]. intros x q Hx Hq. unfold g'. rewrite Rminus_0_r. cbn. rewrite Rmult_1_r.
        eapply Rle_trans; [apply HM; intros t; eapply Rle_trans; [apply Hx|auto]|apply Rle_abs]. }
      assert (MV := mean_value W g g' 0 C (Rmin r d) HW Dg G0).
      exists (INR (length W) * C), (Rmin r d). split; [apply Rmin_pos; auto|]. split; [apply Rmult_le_pos; auto; apply pos_INR|].
      intros x q Hx Hq. eapply Rle_trans; [apply (fun a b => MV a b x q Hx Hq)|cbn; right; ring].
      + intros s y Hs Hy. unfold g, g'. apply (derivable_pt_lim_minus (fun t => F zeros (update y s t)) (fun t => tpoly W 0 (fun k => F k center) (update y s t))).
        * apply HF; auto; [apply map_length|rewrite zeros_sum; lia|]. intros t. eapply Rle_trans; [apply Hy|apply Rmin_l].
        * apply (tpoly_deriv W s HW Hs 0).
      + intros s y p Hs Hy Hp. apply B; auto. eapply Rle_trans; [exact Hp|apply Rmin_r].
    - set (g' s x := F (inc W zeros s) x - tpoly W n (fun k => F (inc W k s) center) x).
      destruct (common_bound (S n) g') as (C & d & Hd & HC & B).
      { intros s Hs. apply (IH (fun k => F (inc W k s)) r Hr). apply family_step; auto. }
      assert (MV := mean_value W g g' (S n) C (Rmin r d) HW Dg G0).
      exists (INR (length W) * C), (Rmin r d). split; [apply Rmin_pos; auto|]. split; [apply Rmult_le_pos; auto; apply pos_INR|].
      intros x q Hx Hq. eapply Rle_trans; [apply (fun a b => MV a b x q Hx Hq)|cbn; right; ring].
      + intros s y Hs Hy. unfold g, g'. apply (derivable_pt_lim_minus (fun t => F zeros (update y s t)) (fun t => tpoly W (S n) (fun k => F k center) (update y s t))).
        * apply HF; auto; [apply map_length|rewrite zeros_sum; lia|]. intros t. eapply Rle_trans; [apply Hy|apply Rmin_l].
        * apply (tpoly_deriv W s HW Hs (S n)).
      + intros s y p Hs Hy Hp. apply B; auto. eapply Rle_trans; [exact Hp|apply Rmin_r].
  Qed.
End Main.

(** ** It is the value of a gdual *)
Fixpoint tterms (W : list string) (n : nat) (a : list nat -> R) : list (list nat * R) :=
  match W with
  | [] => [([], a [])]
  | s :: W' => flat_map (fun j => map (fun t => (j :: fst t, snd t / INR (fact j))) (tterms W' (n - j) (fun k => a (j :: k)))) (seq 0 (S n))
  end.
Definition mfac (k : list nat) : R := fold_right (fun e a => INR (fact e) * a) 1 k.
Lemma mfac_pos k : mfac k <> 0.
Proof. induction k as [|e k IH]; cbn; [lra|]. apply Rmult_integral_contrapositive_currified; auto. apply INR_fact_neq_0. Qed.
Lemma tterms_In W : forall n a k c, In (k, c) (tterms W n a) <-> length k = length W /\ (list_sum k <= n)%nat /\ c = a k / mfac k.
Proof.
  induction W as [|s W IH]; intros n a k c; cbn [tterms].
  - split.
    + intros [E|[]]. injection E as <- <-. split; auto. split; [cbn; lia|]. cbn. field.
    + intros (Hl & _ & ->). destruct k; [|discriminate]. left. cbn. f_equal. field.
  - rewrite in_flat_map. split.
    + intros (j & Hj & H). apply in_map_iff in H. destruct H as ([k' c'] & E & H). cbn in E. injection E as <- <-. apply IH in H. destruct H as (Hl & Hs & ->).
      apply in_seq in Hj. split; [cbn; auto|]. split; [unfold list_sum in *; cbn; lia|]. cbn [mfac fold_right]. fold (mfac k'). field. split; first [apply mfac_pos | apply INR_fact_neq_0].
    + intros (Hl & Hs & ->). destruct k as [|j k]; [discriminate|]. assert (j <= n)%nat by (unfold list_sum in Hs; cbn in Hs; lia).
      exists j. split; [apply in_seq; lia|]. apply in_map_iff. exists (k, a (j :: k) / mfac k). split.
      * cbn. f_equal. fold (mfac k). field. split; first [apply mfac_pos | apply INR_fact_neq_0].
      * apply IH. split; [injection Hl; auto|]. split; auto. unfold list_sum in *. cbn in Hs. lia.
Qed.
Lemma tterms_NoDup W : forall n a, NoDup (map fst (tterms W n a)).
Proof.
  induction W as [|s W IH]; intros n a; cbn [tterms]; [repeat constructor; intros []|].
  assert (G : forall l, NoDup l -> NoDup (map fst (flat_map (fun j => map (fun t => (j :: fst t, snd t / INR (fact j))) (tterms W (n - j) (fun k => a (j :: k)))) l))).
  { induction l as [|j l IHl]; intros N; [constructor|]. inversion N; subst. cbn [flat_map]. rewrite map_app, map_map. cbn [fst].
    apply NoDup_app_intro.
    - rewrite <- (map_map fst (cons j)). apply FinFun.Injective_map_NoDup; auto. intros u v E. congruence.
    - auto.
    - intros k A B. apply in_map_iff in A. destruct A as (t & <- & _). apply in_map_iff in B. destruct B as (u & E & Hu).
      apply in_flat_map in Hu. destruct Hu as (i & Hi & Hu). apply in_map_iff in Hu. destruct Hu as (v & <- & _). cbn in E. congruence. }
  apply G, seq_NoDup.
Qed.

Definition tgdual (W : list string) (n : nat) (a : list nat -> R) : gdual R :=
  mkG (mkPoly W (filter (fun t => negb (Reqb (snd t) 0)) (tterms W n a))) n.
Lemma NoDup_filter_fst (p : list nat * R -> bool) l : NoDup (map fst l) -> NoDup (map fst (filter p l)).
Proof.
  induction l as [|t l IH]; intros N; cbn; auto. inversion N; subst. destruct (p t); auto. cbn. constructor; auto.
  intros H. apply in_map_iff in H. destruct H as (u & E & Hu). apply filter_In in Hu. apply H1. rewrite <- E. apply in_map. tauto.
Qed.
Lemma Reqb_iff a b : Reqb a b = true <-> a = b.
Proof. unfold Reqb. destruct (Req_EM_T a b); split; intros; auto; discriminate. Qed.
Lemma tgdual_valid W n a : ssorted W -> valid (tgdual W n a).
Proof.
  intros HW. constructor; cbn [gp psyms pterms gord tgdual].
  - exact HW.
  - intros [k c] H. apply filter_In in H. destruct H as [H _]. apply (tterms_In W n a) in H. tauto.
  - apply NoDup_filter_fst, tterms_NoDup.
  - intros [k c] H. apply filter_In in H. destruct H as [_ H]. destruct (snd (k, c) =? 0)%K eqn:E; auto. cbn in E, H. rewrite E in H. discriminate.
  - intros [k c] H. apply filter_In in H. destruct H as [H _]. apply tterms_In in H. tauto.
Qed.
Lemma tgdual_coef W n a k : ssorted W -> length k = length W -> (list_sum k <= n)%nat -> coef (tgdual W n a) W k = a k / mfac k.
Proof.
  intros HW Hk Hs. assert (V := tgdual_valid W n a HW). apply valid_iff in V. destruct V as [G _].
  assert (X := coef_pfind (tgdual W n a) k G Hk). cbn [gsyms tgdual gp psyms] in X. rewrite X. clear X. unfold pfind. cbn [pterms].
  destruct (tfind k _) as [c|] eqn:E.
  - apply tfind_In in E. apply filter_In in E. destruct E as [E _]. apply (tterms_In W n a) in E. tauto.
  - destruct (Req_EM_T (a k / mfac k) 0) as [Z|Z]; [cbn; auto|]. exfalso. apply tfind_None in E. apply E. apply in_map_iff. exists (k, a k / mfac k). split; auto.
    apply filter_In. split; [apply tterms_In; auto|]. cbn. destruct (Reqb _ 0) eqn:Q; auto. apply Reqb_iff in Q. contradiction.
Qed.
Fixpoint mprod (W : list string) (k : list nat) (x : point) : R :=
  match W, k with s :: W, e :: k => x s ^ e * mprod W k x | _, _ => 1 end.
Lemma mono_mprod W : forall k x, NoDup W -> length k = length W -> mono_at W k x = mprod W k x.
Proof.
  induction W as [|v V IH]; intros [|e k] rho ND L; try discriminate; [reflexivity|]. inversion_clear ND.
  unfold mono_at. cbn [fold_right mprod expo]. rewrite String.eqb_refl. change (@kmul R OpsR) with Rmult. rewrite kpow_pow. f_equal.
  rewrite <- IH by (auto; cbn in L; lia). unfold mono_at.
  assert (G : forall U, (forall s, In s U -> v <> s) -> fold_right (fun s a => (kpow (rho s) (if String.eqb v s then e else expo V k s) * a)%K) 1%K U = fold_right (fun s a => (kpow (rho s) (expo V k s) * a)%K) 1%K U).
  { induction U as [|u U IHU]; intros HU; cbn [fold_right]; auto. rewrite IHU by (intros; apply HU; right; auto).
    destruct (String.eqb_spec v u) as [E|E]; auto. exfalso. apply (HU u); [left; auto|auto]. }
  apply G. intros s Hs E. subst. contradiction.
Qed.
Definition lsum (f : list nat * R -> R) (l : list (list nat * R)) : R := fold_right (fun t a => f t + a) 0 l.
Lemma lsum_app f l m : lsum f (l ++ m) = lsum f l + lsum f m.
Proof. unfold lsum. induction l as [|t l IHl]; cbn [app fold_right]; [ring|]. rewrite IHl. ring. Qed.
Lemma tterms_sum W x : forall n a, lsum (fun t => snd t * mprod W (fst t) x) (tterms W n a) = tpoly W n a x.
Proof.
  induction W as [|s W IH]; intros n a; cbn [tterms tpoly]; [cbn; ring|].
  assert (G : forall m, lsum (fun t => snd t * mprod (s :: W) (fst t) x) (flat_map (fun j => map (fun t => (j :: fst t, snd t / INR (fact j))) (tterms W (n - j) (fun k => a (j :: k)))) (seq 0 (S m))) =
    sum_f_R0 (fun j => x s ^ j / INR (fact j) * tpoly W (n - j) (fun k => a (j :: k)) x) m).
  { assert (P : forall j l, lsum (fun t => snd t * mprod (s :: W) (fst t) x) (map (fun t => (j :: fst t, snd t / INR (fact j))) l) = x s ^ j / INR (fact j) * lsum (fun t => snd t * mprod W (fst t) x) l).
    { intros j l. induction l as [|t l IHl]; cbn [map lsum fold_right]; [ring|]. fold (lsum (fun t => snd t * mprod (s :: W) (fst t) x) (map (fun t => (j :: fst t, snd t / INR (fact j))) l)).
      fold (lsum (fun t => snd t * mprod W (fst t) x) l). rewrite IHl. cbn [fst snd mprod]. field. apply INR_fact_neq_0. }
    induction m as [|m IHm].
    - cbn [seq flat_map]. rewrite app_nil_r, P, IH. reflexivity.
    - rewrite seq_S, flat_map_app, lsum_app, IHm. cbn [flat_map Nat.add sum_f_R0]. rewrite app_nil_r, P, IH. reflexivity. }
  apply G.
Qed.
Lemma tgdual_value W n a x : ssorted W -> value (tgdual W n a) x = tpoly W n a x.
Proof.
  intros HW. assert (N := ssorted_NoDup _ HW). rewrite <- tterms_sum. unfold value, sum_list. cbn [tgdual gp psyms pterms].
  assert (G : forall l, (forall t, In t l -> length (fst t) = length W) ->
    fold_right (fun t a => (snd t * mono_at W (fst t) x + a)%K) 0%K (filter (fun t => negb (Reqb (snd t) 0)) l) = lsum (fun t => snd t * mprod W (fst t) x) l).
  { induction l as [|t l IHl]; intros HL; [reflexivity|]. cbn [filter lsum fold_right]. fold (lsum (fun t => snd t * mprod W (fst t) x) l).
    rewrite <- IHl by (intros; apply HL; right; auto). destruct (Reqb (snd t) 0) eqn:E; cbn [negb fold_right].
    - apply Reqb_iff in E. rewrite E. rewrite Rmult_0_l, Rplus_0_l. reflexivity.
    - rewrite mono_mprod by (auto; apply HL; left; auto). reflexivity. }
  apply G. intros [k c] H. apply tterms_In in H. tauto.
Qed.

(** ** get_derivative *)
Lemma restrict_center W : restrict W center = center.
Proof. apply functional_extensionality. intros s. unfold restrict. destruct (in_dec _ _ _); auto. Qed.
Lemma restrict_same W x y : (forall s, In s W -> x s = y s) -> restrict W x = restrict W y.
Proof. intros H. apply functional_extensionality. intros s. unfold restrict. destruct (in_dec _ _ _); auto. Qed.
Lemma restrict_update W x s t : In s W -> restrict W (update x s t) = update (restrict W x) s t.
Proof.
  intros H. apply functional_extensionality. intros u. unfold restrict, update. destruct (in_dec _ _ _) as [I|I]; auto.
  destruct (String.eqb_spec u s); auto. subst. contradiction.
Qed.
Lemma restrict_value (g : gdual R) x : value g (restrict (psyms (gp g)) x) = value g x.
Proof.
  unfold value, sum_list. generalize (pterms (gp g)). intros l. induction l as [|t l IH]; cbn [fold_right]; auto. rewrite IH. f_equal. f_equal.
  apply mono_at_ext. intros s Hs. unfold restrict. destruct (in_dec _ _ _); auto. contradiction.
Qed.
Lemma derivative_taylor W n (g : gdual R) f F k : valid g -> psyms (gp g) = W -> (n <= get_order g)%nat -> (Z.of_nat (get_order g) < two32)%Z ->
  taylor_of n g f -> derivatives W n f F -> length k = length W -> (list_sum k <= n)%nat -> (forall e, In e k -> (Z.of_nat e <= 170)%Z) -> get_derivative g k = Ok (F k center).
Proof.
  intros Vg HW Hn Ho HT (H0 & r & Hr & HD & HB) Hk Hs H170.
  assert (SW : ssorted W) by (rewrite <- HW; apply Vg). assert (NW := ssorted_NoDup _ SW).
  set (F' := fun k x => F k (restrict W x)).
  assert (HF : family W n F' r).
  { split; [|split].
    - intros k0 x y H. unfold F'. rewrite (restrict_same W x y H). reflexivity.
    - intros k0 s x Hk0 L Hin Hx. unfold F'. rewrite <- incr_inc by auto.
      assert (X : restrict W x s = x s) by (unfold restrict; destruct (in_dec _ _ _); auto; contradiction).
      apply (derivable_ext (fun t => F k0 (update (restrict W x) s t))); [intros t; rewrite restrict_update; auto|].
      rewrite <- X. apply HD; auto. apply within_restrict. auto.
    - intros k0 Hk0 L. destruct (HB k0 Hk0 L) as (M & HM). exists M. intros x Hx. apply HM. apply within_restrict. auto. }
  assert (T := taylor_theorem W NW n F' r Hr HF).
  assert (T' : taylor_of n (tgdual W n (fun k => F k center)) (fun x => f (restrict W x))).
  { apply (bigO_ext _ (fun x => F' (map (fun _ => 0%nat) W) x - tpoly W n (fun k => F' k center) x)); [|exact T].
    intros x. unfold F'. rewrite H0, tgdual_value by auto. f_equal. apply tpoly_ext; auto. intros. rewrite restrict_center. reflexivity. }
  assert (HT' : taylor_of n g (fun x => f (restrict W x))).
  { destruct HT as (C & d & Hd & HC & B). exists C, d. split; auto. split; auto. intros x q Hx Hq.
    rewrite <- (restrict_value g x), HW. apply B; auto. apply within_restrict. auto. }
  assert (A := expands_unique n g _ _ Vg (tgdual_valid W n _ SW) HT' T').
  unfold get_derivative. rewrite factorials_fit by exact H170. assert (Vg' := proj1 (valid_iff g) Vg).
  rewrite find_cf_coef; [|tauto|unfold gsyms; rewrite HW; auto|unfold get_order in *; lia|auto].
  cbn [rbind]. f_equal. rewrite cumfact_eq. unfold gsyms. rewrite HW. rewrite (A W k NW Hk Hs), tgdual_coef by auto.
  assert (M : fold_right (fun e a => (kfact e * a)%K) 1%K k = mfac k).
  { clear. induction k as [|e k IH]; [reflexivity|]. cbn [fold_right mfac]. rewrite IH, kfact_R. reflexivity. }
  rewrite M. change (@k1 R OpsR) with 1. change (@kmul R OpsR) with Rmult. field. apply mfac_pos.
Qed.

(** ** partial and integrate on expansions *)
Lemma partial_value (g r : gdual R) s x : valid g -> gpartial g s = Ok r ->
  derivable_pt_lim (fun t => value g (update x (dsym s) t)) (x (dsym s)) (value r x).
Proof.
  intros V E. assert (W := valid_gwf g V). destruct (gpartial_gwf _ _ _ W E) as [Wr _]. apply Coquelicot.Derive.is_derive_Reals.
  assert (X := hval_partial idR g s r x (x (dsym s)) W E).
  eapply Coquelicot.Derive.is_derive_ext in X; [|intros t; apply hval_value; auto].
  rewrite update_same in X. rewrite (hval_value r x Wr) in X. exact X.
Qed.
Lemma integrate_taylor n N (g r : gdual R) s f H : valid g -> (Z.of_nat (get_order g) < two31)%Z -> gintegrate g s = Ok r ->
  (N <= S n)%nat -> (N <= get_order g)%nat -> taylor_of n g f ->
  (exists e, 0 < e /\ forall x, small x e -> H (update x (dsym s) 0) = 0 /\ derivable_pt_lim (fun t => H (update x (dsym s) t)) (x (dsym s)) (f x)) ->
  taylor_of N r H.
Proof.
  intros V L E HN HO (C & d & Hd & HC & B) (e & He & D). assert (W := valid_gwf g V). destruct (gintegrate_gwf _ _ _ W E) as [Wr _].
  assert (Ht := tay_integrate idR g s r W L E). unfold Taylor.tay in Ht.
  apply (bigO_ext _ (fun x => (H x - hval idR (gint g s) x) + (hval idR (gint g s) x - hval idR r x))).
  { intros x. rewrite (hval_value r x Wr). ring. }
  apply bigO_add; [|apply (bigO_le _ (S (gord g))); auto; unfold get_order in *; lia].
  apply (bigO_le _ (S (S n))); [lia|].
  exists C, (Rmin d e). split; [apply Rmin_pos; auto|]. split; auto. intros x q Hx Hq.
  assert (X1 : q <= d) by (eapply Rle_trans; [exact Hq|apply Rmin_l]). assert (X2 : q <= e) by (eapply Rle_trans; [exact Hq|apply Rmin_r]).
  assert (P0 := within_pos x q Hx). set (v := dsym s) in *. set (J := hval idR (gint g s)).
  assert (Wt : forall t, Rabs t <= Rabs (x v) -> within (update x v t) q).
  { intros t Ht'. apply within_update; auto. eapply Rle_trans; [exact Ht'|apply Hx]. }
  assert (Wt' : forall t, Rabs t <= Rabs (x v) -> small (update x v t) e).
  { intros t Ht' u. eapply Rle_trans; [apply (Wt t Ht' u)|auto]. }
  pose proof (mvt_bound (fun t => H (update x v t) - J (update x v t)) (fun t => f (update x v t) - value g (update x v t)) (x v) (C * q ^ S n)) as M.
  cbv beta in M. rewrite update_same in M.
  assert (J0 : J (update x v 0) = 0) by (exact (hval_gint_0 idR g s x W)).
  assert (H0 : H (update x v 0) = 0). { assert (Q := proj1 (D x ltac:(intros u; eapply Rle_trans; [apply Hx|auto]))). exact Q. }
  rewrite J0, H0 in M. replace (H x - J x) with (H x - J x - (0 - 0)) by ring.
  eapply Rle_trans; [apply M|].
  - intros t Ht'. apply (@Coquelicot.Derive.is_derive_minus Coquelicot.Hierarchy.R_AbsRing).
    + apply Coquelicot.Derive.is_derive_Reals. assert (Q := proj2 (D _ (Wt' t Ht'))). rewrite update_at in Q.
      eapply derivable_ext; [|exact Q]. intros u. cbv beta. rewrite update_update. reflexivity.
    + rewrite <- (hval_value g _ W). exact (hval_gint_derive idR g s x t W).
  - intros t Ht'. apply B; [exact (Wt t Ht')|auto].
  - replace (C * q ^ S (S n)) with (C * q ^ S n * q) by (cbn; ring). apply Rmult_le_compat_l; [apply Rmult_le_pos; auto; apply pow_le; auto|apply Hx].
Qed.
Lemma partial_taylor W n (g r : gdual R) s f F : valid g -> gpartial g s = Ok r -> ssorted W -> In (dsym s) W -> 
  (forall k x y, (forall s, In s W -> x s = y s) -> F k x = F k y) ->
  taylor_of (S n) g f -> derivatives W (S n) f F -> taylor_of n r (F (incr W (map (fun _ => 0%nat) W) (dsym s))).
Proof.
  intros Vg E SW Hs HF HT (H0 & q & Hq & HD & HB). assert (NW := ssorted_NoDup _ SW).
  assert (FM : family W (S n) F q).
  { split; [|split].
    - intros k x y. apply HF.
    - intros k u x Hk L Hin Hx. rewrite <- incr_inc by auto. apply HD; auto.
    - intros k Hk L. apply HB; auto. }
  assert (T := taylor_theorem W NW (S n) F q Hq FM). assert (T1 := taylor_theorem W NW n (fun k => F (inc W k (dsym s))) q Hq (family_step W n F q (dsym s) FM Hs)).
  set (a := fun k => F k center) in *.
  assert (T' : taylor_of (S n) (tgdual W (S n) a) f).
  { apply (bigO_ext _ _ _ (fun x => f_equal2 Rminus (H0 x) (eq_sym (tgdual_value W (S n) a x SW))) T). }
  assert (A := expands_unique (S n) g _ f Vg (tgdual_valid W (S n) a SW) HT T').
  destruct (valid_partial g s r Vg E) as [Vr Or].
  set (b := fun k => a (inc W k (dsym s))).
  assert (T1' : taylor_of n (tgdual W n b) (F (incr W (map (fun _ => 0%nat) W) (dsym s)))).
  { rewrite incr_inc by (auto; apply map_length). apply (bigO_ext _ _ _ (fun x => f_equal2 Rminus eq_refl (eq_sym (tgdual_value W n b x SW))) T1). }
  apply (bigO_ext _ (fun x => (F (incr W (map (fun _ => 0%nat) W) (dsym s)) x - value (tgdual W n b) x) + (value (tgdual W n b) x - value r x))); [intros; ring|].
  apply bigO_add; [exact T1'|].
  (* the partial of the Taylor polynomial *)
  assert (Vt := tgdual_valid W (S n) a SW).
  destruct (gpartial_total g (tgdual W (S n) a) s r E) as (r' & E'). destruct (valid_partial _ s r' Vt E') as [Vr' Or'].
  apply (bigO_ext _ (fun x => value r' x - value r x)).
  { intros x. f_equal. rewrite tgdual_value by auto.
    assert (D1 := partial_value _ r' s x Vt E'). assert (D2 := tpoly_deriv W (dsym s) NW Hs (S n) a x). cbn [tpoly'] in D2.
    apply (uniqueness_limite _ _ _ _ D1). eapply derivable_ext; [|exact D2]. intros t. cbv beta. symmetry. apply tgdual_value. auto. }
  apply agree_bigO; auto. apply (agree_with n r' r (dsym s) (valid_gwf _ Vr') (valid_gwf _ Vr)). intros U k NU Hk Hu Hsum.
  rewrite (coef_partial _ s r' U k (valid_gwf _ Vt) E' NU Hk Hu), (coef_partial g s r U k (valid_gwf _ Vg) E NU Hk Hu). f_equal. symmetry. apply A; auto.
  - apply incr_length.
  - rewrite incr_inc, inc_sum by auto. lia.
Qed.

(** exp (a + dx + 1 + dy) at order 3: every derivative is the function itself *)
Definition fexp (a : R) (x : point) : R := exp ((a + x "dx"%string) + (1 + x "dy"%string)).
Lemma Rabs_def2b a b : Rabs a <= b -> - b <= a <= b.
Proof. intros H. assert (X := Rle_abs a). assert (Y := Rle_abs (- a)). rewrite Rabs_Ropp in Y. lra. Qed.
Lemma fexp_derivatives a n : derivatives ["dx"; "dy"]%string n (fexp a) (fun _ => fexp a).
Proof.
  split; [auto|]. exists 1. split; [lra|]. split.
  - intros k s x _ _ Hs _. unfold fexp. destruct Hs as [<-|[<-|[]]]; unfold update; cbn.
    + apply (derivable_ext (fun t => (exp (a + 1 + x "dy"%string)) * exp t)); [intros t; rewrite <- exp_plus; f_equal; ring|].
      replace (exp (a + x "dx"%string + (1 + x "dy"%string))) with (exp (a + 1 + x "dy"%string) * exp (x "dx"%string)) by (rewrite <- exp_plus; f_equal; ring).
      apply (derivable_pt_lim_scal exp). apply derivable_pt_lim_exp.
    + apply (derivable_ext (fun t => (exp (a + 1 + x "dx"%string)) * exp t)); [intros t; rewrite <- exp_plus; f_equal; ring|].
      replace (exp (a + x "dx"%string + (1 + x "dy"%string))) with (exp (a + 1 + x "dx"%string) * exp (x "dy"%string)) by (rewrite <- exp_plus; f_equal; ring).
      apply (derivable_pt_lim_scal exp). apply derivable_pt_lim_exp.
  - intros k _ _. exists (exp (a + 3)). intros x Hx. unfold fexp. rewrite Rabs_right by (left; apply exp_pos).
    assert (X := Hx "dx"%string). assert (Y := Hx "dy"%string). apply Rabs_def2b in X. apply Rabs_def2b in Y.
    destruct (Req_dec (a + x "dx"%string + (1 + x "dy"%string)) (a + 3)) as [->|]; [right; auto|]. left. apply exp_increasing. lra.
Qed.
Lemma fexp_sample a : exists g : gdual R, reach g /\ valid g /\ psyms (gp g) = ["dx"; "dy"]%string /\ get_order g = 3%nat /\ taylor_of 3 g (fexp a).
Proof.
  destruct (var_ok a "x"%string 3) as [X EX]; [eexists; eexists; split; [reflexivity|discriminate]|lia|].
  destruct (var_ok 1 "y"%string 3) as [Y EY]; [eexists; eexists; split; [reflexivity|discriminate]|lia|].
  pose proof (expands_var 3 3 a "x"%string X (le_n _) EX) as HX.
  pose proof (expands_var 3 3 1 "y"%string Y (le_n _) EY) as HY.
  destruct (expands_arith 3 _ _ _ _ HX HY) as (A & _).
  pose proof (gvar_spec a "x"%string 3) as SX. rewrite EX in SX. destruct SX as (_ & _ & OX & NX & _).
  pose proof (gvar_spec 1 "y"%string 3) as SY. rewrite EY in SY. destruct SY as (_ & _ & OY & NY & _).
  pose proof (reach_names neg_nz_R X (reach_var _ _ _ X EX)) as [_ MX]. rewrite NX in MX.
  pose proof (reach_names neg_nz_R Y (reach_var _ _ _ Y EY)) as [_ MY]. rewrite NY in MY.
  assert (S1 : psyms (gp (gadd X Y)) = ["dx"; "dy"]%string).
  { change (psyms (gp (gadd X Y))) with (sunion (psyms (gp X)) (psyms (gp Y))). rewrite <- MX, <- MY. reflexivity. }
  assert (O1 : get_order (gadd X Y) = 3%nat) by (cbn [gadd get_order gord]; unfold get_order in OX, OY; rewrite OX, OY; reflexivity).
  assert (E := expands_run1 Fexp 3 _ _ A I I).
  exists (gexp (gadd X Y)). split; [apply (reach_fun1 Fexp); apply reach_add; eapply reach_var; eauto|].
  assert (Va : valid (gadd X Y)) by apply A. apply valid_iff in Va. destruct Va as [W N].
  destruct (gexp_sto (gadd X Y) W N) as [Sa Sb Sc Sd].
  split; [apply E|]. split; [|split; [|apply E]].
  - exact (eq_trans Sd S1).
  - exact (eq_trans Sc O1).
Qed.
Lemma fexp_primitive a (x : point) : fexp a (update x "dx"%string 0) - exp ((a + 0) + (1 + x "dy"%string)) = 0 /\
  derivable_pt_lim (fun t => fexp a (update x "dx"%string t) - exp ((a + 0) + (1 + x "dy"%string))) (x "dx"%string) (fexp a x).
Proof.
  split; [unfold fexp, update; cbn; ring|].
  replace (fexp a x) with (exp (a + 1 + x "dy"%string) * exp (x "dx"%string) - 0) by (unfold fexp; rewrite <- exp_plus, Rminus_0_r; f_equal; ring).
  apply (derivable_ext (fun t => exp (a + 1 + x "dy"%string) * exp t - exp ((a + 0) + (1 + x "dy"%string)))).
  { intros t. unfold fexp, update. cbn. rewrite <- exp_plus. f_equal. f_equal. ring. }
  apply (derivable_pt_lim_minus (fun t => exp (a + 1 + x "dy"%string) * exp t) (fun _ => exp ((a + 0) + (1 + x "dy"%string)))).
  - apply (derivable_pt_lim_scal exp). apply derivable_pt_lim_exp.
  - apply derivable_pt_lim_const.
Qed.
(** exp (dz) - 1 at order 3 *)
Lemma fz_sample : exists g : gdual R, reach g /\ valid g /\ taylor_of 3 g (fun x => exp (0 + x "dz"%string) - 1).
Proof.
  destruct (var_ok 0 "z"%string 3) as [X EX]; [eexists; eexists; split; [reflexivity|discriminate]|lia|].
  pose proof (expands_var 3 3 0 "z"%string X (le_n _) EX) as HX.
  assert (E := expands_run1 Fexp 3 _ _ HX I I). destruct (expands_scalar 3 _ _ 1 E) as (_ & _ & _ & S & _).
  exists (gsub_gs (gexp X) 1). split; [apply reach_sub_gs; apply (reach_fun1 Fexp); eapply reach_var; eauto|]. split; apply S.
Qed.
