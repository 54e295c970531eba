(** * Inversion of formal polynomial maps: sums, fixed points, uniqueness (proof file). *)
From Coq Require Import String List Arith Bool Lia ZArith Setoid Morphisms Ring Field FunctionalExtensionality.
From Verif Require Import Ops Syms SymsFacts Poly PolyFacts Sem Den Gdual GdualFacts Spec CoefFacts ValueProofs Compose.
Import ListNotations.

Section Sums.
  Context {K : Type} {o : Ops K} {fl : FieldLaws o}.
  Local Open Scope K_scope.
  Add Field KfieldIs : (fl_field (K:=K)).
  Notation sp := (sp K).
  Notation idK := (fun x : K => x).
  Notation gd := (gden idK).

  Lemma sum_app {A} (f : A -> K) l l' : sum_list f (l ++ l') = sum_list f l + sum_list f l'.
  Proof. induction l as [|x l IH]; simpl; [ring|rewrite IH; ring]. Qed.
  Lemma sum_plus {A} (f g : A -> K) l : sum_list (fun x => f x + g x) l = sum_list f l + sum_list g l.
  Proof. induction l as [|x l IH]; simpl; [ring|rewrite IH; ring]. Qed.
  Lemma sum_scale {A} c (f : A -> K) l : sum_list (fun x => c * f x) l = c * sum_list f l.
  Proof. induction l as [|x l IH]; simpl; [ring|rewrite IH; ring]. Qed.
  Lemma sum_scale_r {A} c (f : A -> K) l : sum_list (fun x => f x * c) l = sum_list f l * c.
  Proof. induction l as [|x l IH]; simpl; [ring|rewrite IH; ring]. Qed.
  Lemma sum_swap {A B} (f : A -> B -> K) l l' :
    sum_list (fun x => sum_list (f x) l') l = sum_list (fun y => sum_list (fun x => f x y) l) l'.
  Proof.
    induction l as [|x l IH]; simpl.
    - symmetry. apply sum_list_zero. auto.
    - rewrite IH, <- sum_plus. reflexivity.
  Qed.
  Lemma sum_delta (f : nat -> K) i : forall n a, (a <= i < a + n)%nat ->
    sum_list (fun j => (if Nat.eqb i j then 1 else 0) * f j) (seq a n) = f i.
  Proof.
    induction n as [|n IH]; intros a H; [lia|]. cbn [seq sum_list fold_right].
    change (fold_right (fun x a0 => (if Nat.eqb i x then 1 else 0) * f x + a0) 0 (seq (S a) n))
      with (sum_list (fun j => (if Nat.eqb i j then 1 else 0) * f j) (seq (S a) n)).
    destruct (Nat.eqb_spec i a) as [->|N].
    - rewrite sum_list_zero; [ring|]. intros j Hj. apply in_seq in Hj. destruct (Nat.eqb_spec a j); [lia|ring].
    - rewrite IH by lia. ring.
  Qed.
  Lemma sum_map {A B} (f : B -> K) (g : A -> B) l : sum_list f (map g l) = sum_list (fun x => f (g x)) l.
  Proof. induction l as [|x l IH]; simpl; auto. rewrite IH. reflexivity. Qed.
  Lemma map_nth_seq {A} (l : list A) d : map (fun j => nth j l d) (seq 0 (length l)) = l.
  Proof.
    induction l as [|x l IH]; cbn [length seq map nth]; auto. f_equal. rewrite <- seq_shift, map_map. exact IH.
  Qed.

  (** Linear combinations of formal polynomials. *)
  Definition lin (c : nat -> K) (X : nat -> sp) (n : nat) : sp := flat_map (fun j => smul (scon (c j)) (X j)) (seq 0 n).
  Lemma Lf_flat {A} (f : A -> sp) l F : Lf (flat_map f l) F = sum_list (fun x => Lf (f x) F) l.
  Proof. induction l as [|x l IH]; simpl; auto. rewrite Lf_app, IH. reflexivity. Qed.
  Lemma Lf_lin c X n F : Lf (lin c X n) F = sum_list (fun j => c j * Lf (X j) F) (seq 0 n).
  Proof. unfold lin. rewrite Lf_flat. apply sum_list_ext. intros j _. apply Lf_smul_scon. Qed.
  Lemma lin_congr tr c X Y n : (forall j, (j < n)%nat -> seqv tr (X j) (Y j)) -> seqv tr (lin c X n) (lin c Y n).
  Proof.
    intros H. constructor. intros F HF. rewrite !Lf_lin. apply sum_list_ext. intros j Hj. apply in_seq in Hj.
    rewrite (seqv_elim (H j ltac:(lia))) by auto. reflexivity.
  Qed.
  Lemma lin_lin tr (m b : nat -> nat -> K) X i n : (i < n)%nat ->
    (forall k, (k < n)%nat -> sum_list (fun j => m i j * b j k) (seq 0 n) = if Nat.eqb i k then 1 else 0) ->
    seqv tr (lin (m i) (fun j => lin (b j) X n) n) (X i).
  Proof.
    intros Hi H. constructor. intros F _. rewrite Lf_lin.
    transitivity (sum_list (fun j => sum_list (fun k => m i j * b j k * Lf (X k) F) (seq 0 n)) (seq 0 n)).
    { apply sum_list_ext. intros j _. rewrite Lf_lin, <- sum_scale. apply sum_list_ext. intros; ring. }
    rewrite sum_swap.
    transitivity (sum_list (fun k => (if Nat.eqb i k then 1 else 0) * Lf (X k) F) (seq 0 n)).
    { apply sum_list_ext. intros k Hk. apply in_seq in Hk. rewrite sum_scale_r, H by lia. reflexivity. }
    apply (sum_delta (fun k => Lf (X k) F)). lia.
  Qed.
  Lemma lin_vanish k c X n : (forall j, (j < n)%nat -> vanish k (X j)) -> vanish k (lin c X n).
  Proof.
    intros H F HF. rewrite Lf_lin. apply sum_list_zero. intros j Hj. apply in_seq in Hj.
    rewrite (H j ltac:(lia) F HF). ring.
  Qed.

  (** ** Substitution: homomorphism *)
  Lemma sev_app V G (a b : sp) : sev V G (a ++ b) = sev V G a ++ sev V G b.
  Proof. apply sev_sadd. Qed.
  Lemma sev_scale tr V G c (l : sp) : seqv tr (sev V G (smul (scon c) l)) (smul (scon c) (sev V G l)).
  Proof. constructor. intros F _. rewrite Lf_smul_scon, !Lf_sev, Lf_smul_scon. reflexivity. Qed.
  Lemma sev_lin tr V G c X n : seqv tr (sev V G (lin c X n)) (lin c (fun j => sev V G (X j)) n).
  Proof.
    constructor. intros F _. rewrite Lf_sev, !Lf_lin. apply sum_list_ext. intros j _. rewrite Lf_sev. reflexivity.
  Qed.
  Lemma sev_scon tr V G c : seqv tr (sev V G (scon c)) (scon c).
  Proof.
    constructor. intros F _. rewrite Lf_sev, !Lf_scon. f_equal.
    transitivity (Lf s1 F); [|unfold s1; rewrite Lf_scon; ring].
    assert (E : forall W H, seqv None (pp W H mon0) s1).
    { clear - fl. induction W as [|v W IH]; intros [|q H]; cbn [pp]; try reflexivity. unfold mon0 at 1. cbn [spow].
      rewrite IH. constructor. intros F _. unfold s1. rewrite Lf_smul_scon. ring. }
    apply (seqv_elim (E V G)). simpl. tauto.
  Qed.
  Lemma pp_mon1 V : forall G j, NoDup V -> length G = length V -> (j < length V)%nat ->
    seqv None (pp V G (mon1 (nth j V EmptyString))) (nth j G s0).
  Proof.
    induction V as [|v V IH]; intros [|q G] j HN HL Hj; try discriminate; [simpl in Hj; lia|].
    inversion HN as [|? ? Hnv HN']; subst. cbn [pp]. destruct j as [|j]; cbn [nth].
    - replace (mon1 v v) with 1%nat by (unfold mon1; rewrite String.eqb_refl; auto).
      assert (E : forall W H, ~ In v W -> seqv None (pp W H (mon1 v)) s1).
      { clear - fl. induction W as [|w W IH]; intros [|q H] Hn; cbn [pp]; try reflexivity.
        replace (mon1 v w) with 0%nat.
        - cbn [spow]. rewrite IH by (intros X; apply Hn; right; auto). constructor. intros F _. unfold s1. rewrite Lf_smul_scon. ring.
        - unfold mon1. destruct (String.eqb_spec v w); auto. subst. exfalso. apply Hn. left; auto. }
      rewrite E by auto. rewrite spow_1, smul_comm. apply smul_1_l.
    - simpl in Hj, HL. assert (Hi : In (nth j V EmptyString) V) by (apply nth_In; lia).
      replace (mon1 (nth j V EmptyString) v) with 0%nat.
      + cbn [spow]. rewrite smul_1_l. apply IH; auto; lia.
      + unfold mon1. destruct (String.eqb_spec (nth j V EmptyString) v); auto. subst. contradiction.
  Qed.
  Lemma sev_svar tr V G j : NoDup V -> length G = length V -> (j < length V)%nat ->
    seqv tr (sev V G (svar (nth j V EmptyString))) (nth j G s0).
  Proof.
    intros HN HL Hj. apply seqv_full. constructor. intros F _. rewrite Lf_sev. unfold svar. rewrite Lf_cons, Lf_nil. cbn [fst snd].
    rewrite (seqv_elim (pp_mon1 V G j HN HL Hj)) by (simpl; tauto). ring.
  Qed.
  Section Ring.
    Variable tr : option nat.
    Add Ring springI : (sp_ring_theory tr) (setoid (seqv_equiv tr) (sp_ring_ext tr)).
    Lemma mul4 (a b c d : sp) : seqv tr (smul (smul a b) (smul c d)) (smul (smul a c) (smul b d)).
    Proof. ring. Qed.
    Lemma sub_add_cancel (a b : sp) : seqv tr (sadd (ssub a b) b) a.
    Proof. ring. Qed.
    Lemma add_sub_l (a b c : sp) : seqv tr (sadd a b) c -> seqv tr a (ssub c b).
    Proof. intros <-. ring. Qed.
  End Ring.
  Lemma pp_add V G m m' : seqv None (pp V G (monadd m m')) (smul (pp V G m) (pp V G m')).
  Proof.
    revert G. induction V as [|v V IH]; intros [|q G]; cbn [pp]; try (symmetry; apply smul_1_l).
    rewrite IH. unfold monadd at 1. rewrite spow_add. apply mul4.
  Qed.
  Lemma sev_smul V G (a b : sp) : seqv None (sev V G (smul a b)) (smul (sev V G a) (sev V G b)).
  Proof.
    constructor. intros F _. rewrite Lf_sev, !Lf_smul, Lf_sev. apply Lf_ext_all. intros d m. cbn beta.
    transitivity (Lf b (fun _ m' => Lf (smul (pp V G m) (pp V G m')) F)).
    - apply Lf_ext_all. intros d' m'. apply (seqv_elim (pp_add V G m m')). simpl. tauto.
    - rewrite (Lf_ext_all (pp V G m) _ (fun d1 m1 => Lf b (fun _ m' => Lf (pp V G m') (fun d2 m2 => F (d1 + d2)%nat (monadd m1 m2))))).
      + rewrite <- (Lf_swap b (pp V G m) (fun _ m' d1 m1 => Lf (pp V G m') (fun d2 m2 => F (d1 + d2)%nat (monadd m1 m2)))).
        apply Lf_ext_all. intros d' m'. apply Lf_smul.
      + intros d1 m1. apply Lf_sev.
  Qed.
  Lemma sev_spow V G (a : sp) n : seqv None (sev V G (spow a n)) (spow (sev V G a) n).
  Proof. induction n; cbn [spow]; [apply sev_scon|]. rewrite sev_smul, IHn. reflexivity. Qed.
  (** associativity *)
  Lemma sev_pp V G W H m : seqv None (sev V G (pp W H m)) (pp W (map (sev V G) H) m).
  Proof.
    revert H. induction W as [|w W IH]; intros [|q H]; cbn [pp map]; try apply sev_scon.
    rewrite sev_smul, IH, sev_spow. reflexivity.
  Qed.
  Lemma sev_sev V G W H (l : sp) : seqv None (sev V G (sev W H l)) (sev W (map (sev V G) H) l).
  Proof.
    constructor. intros F _. rewrite !Lf_sev. apply Lf_ext_all. intros d m.
    rewrite <- (seqv_elim (sev_pp V G W H m)) by (simpl; tauto). rewrite Lf_sev. reflexivity.
  Qed.

  (** ** Degree and support *)
  Lemma msumV_ssum V (m : mon) : msumV V m = ssum V m.
  Proof. unfold ssum. induction V as [|v V IH]; simpl; auto. Qed.
  Lemma over_gd V g : gwf g -> NoDup V -> incl (gsyms g) V -> over V (gd g).
  Proof.
    intros [[Hs Hl _] _] HN Hi t Ht. unfold gden, den, tden in Ht. apply in_map_iff in Ht. destruct Ht as (u & <- & Hu). cbn [fst snd].
    apply ssorted_NoDup in Hs. unfold klen in Hl. rewrite Forall_forall in Hl. specialize (Hl u Hu). split.
    - rewrite msumV_ssum. rewrite (ssum_incl (psyms (gp g)) V); auto.
      + apply kdeg_ssum; auto.
      + intros s Hn. apply expo_not_In. auto.
    - intros s Hn. apply expo_not_In. intros X. apply Hn, Hi. auto.
  Qed.
  Lemma over_app V (a b : sp) : over V a -> over V b -> over V (a ++ b).
  Proof. intros A B t Ht. apply in_app_or in Ht. destruct Ht; auto. Qed.
  Lemma msumV_add V (a b : mon) : msumV V (monadd a b) = (msumV V a + msumV V b)%nat.
  Proof. induction V as [|v V IH]; simpl; auto. rewrite IH. unfold monadd. lia. Qed.
  Lemma over_scon V (c : K) : over V (scon c).
  Proof. intros t [<-|[]]. cbn [fst snd]. split; auto. unfold mon0. induction V; simpl; auto. Qed.
  Lemma over_smul V (a b : sp) : over V a -> over V b -> over V (smul a b).
  Proof.
    intros A B t Ht. unfold smul in Ht. apply in_flat_map in Ht. destruct Ht as (x & Hx & Ht).
    apply in_map_iff in Ht. destruct Ht as (y & <- & Hy). cbn [fst snd]. destruct (A x Hx) as [A1 A2], (B y Hy) as [B1 B2]. split.
    - rewrite msumV_add, <- A1, <- B1. reflexivity.
    - intros s Hn. unfold monadd. assert (E1 : (snd (snd x) : mon) s = 0%nat) by auto.
      assert (E2 : (snd (snd y) : mon) s = 0%nat) by auto. lia.
  Qed.
  Lemma over_spow V (a : sp) n : over V a -> over V (spow a n).
  Proof. intros A. induction n; cbn [spow]; [apply over_scon|apply over_smul; auto]. Qed.
  Lemma over_pp V W H m : Forall (over V) H -> over V (pp W H m).
  Proof.
    intros A. revert W. induction A as [|q H Hq A IH]; intros [|w W]; cbn [pp]; try apply over_scon.
    apply over_smul; auto using over_spow.
  Qed.
  Lemma over_sev V W H (l : sp) : Forall (over V) H -> over V (sev W H l).
  Proof.
    intros A. unfold sev. induction l as [|t l IH]; cbn [flat_map]; [intros x []|].
    apply over_app; auto. apply over_smul; auto using over_scon, over_pp.
  Qed.
  Lemma over_svar V s : NoDup V -> In s V -> over V (svar (K:=K) s).
  Proof.
    intros HN Hs t [<-|[]]. cbn [fst snd]. unfold mon1. split.
    - induction V as [|v V IH]; [destruct Hs|]. inversion HN; subst. cbn [msumV]. destruct (String.eqb_spec s v) as [->|N].
      + assert (Z : forall W, ~ In v W -> msumV W (fun t => if String.eqb v t then 1%nat else 0%nat) = 0%nat).
        { clear. induction W as [|w W IH]; intros H; simpl; auto. rewrite IH by (intros X; apply H; right; auto).
          destruct (String.eqb_spec v w); auto. subst. exfalso. apply H. left; auto. }
        rewrite Z by auto. reflexivity.
      + destruct Hs as [->|Hs]; [contradiction|]. rewrite <- IH by auto. reflexivity.
    - intros t Ht. destruct (String.eqb_spec s t); auto. subst. contradiction.
  Qed.
  Lemma vanish_rest V G (l : sp) : length G = length V -> Forall (vanish 1) G -> over V l -> vanish 2 l ->
    seqv (Some 1%nat) (sev V G l) s0.
  Proof. intros L H O Hl. apply vanish_seqv. apply sev_vanish; auto. Qed.

  (** ** The fixed point *)
  (** One Picard step gains one order. *)
  Lemma picard_step k V (G G' : list sp) (b : nat -> nat -> K) (p Nl : nat -> sp) n : length V = n ->
    length G = n -> length G' = n -> Forall (vanish 1) G -> Forall (vanish 1) G' ->
    (forall i, (i < n)%nat -> over V (Nl i) /\ vanish 2 (Nl i)) ->
    (forall j, (j < n)%nat -> seqv (Some k) (nth j G s0) (lin (b j) (fun i => ssub (p i) (sev V G (Nl i))) n)) ->
    (forall j, (j < n)%nat -> seqv (Some (S k)) (nth j G' s0) (lin (b j) (fun i => ssub (p i) (sev V G (Nl i))) n)) ->
    forall j, (j < n)%nat -> seqv (Some (S k)) (nth j G' s0) (lin (b j) (fun i => ssub (p i) (sev V G' (Nl i))) n).
  Proof.
    intros LV LG LG' HG HG' HN H H' j Hj. rewrite H' by auto. apply lin_congr. intros i Hi.
    destruct (HN i Hi) as [O2 V2].
    assert (E : seqv (Some (S k)) (sev V G (Nl i)) (sev V G' (Nl i))).
    { apply picard_gain; auto; [lia|].
      assert (X : forall (A B : list sp), length A = n -> length B = n ->
        (forall j, (j < n)%nat -> seqv (Some k) (nth j A s0) (nth j B s0)) -> Forall2 (seqv (Some k)) A B).
      { clear. induction n as [|n IH]; intros [|x A] [|y B] LA LB Q; try discriminate; constructor.
        - apply (Q 0%nat). lia.
        - apply IH; auto. intros j Hj. apply (Q (S j)). lia. }
      apply X; auto. intros i' Hi'. rewrite H by auto. symmetry. apply (seqv_le k (S k)); auto. }
    rewrite E. reflexivity.
  Qed.
  (** A fixed point is a right inverse. *)
  Lemma fixed_right tr V (G : list sp) (m b : nat -> nat -> K) (p Nl : nat -> sp) n i : length V = n -> length G = n -> NoDup V ->
    (i < n)%nat ->
    (forall k, (k < n)%nat -> sum_list (fun j => m i j * b j k) (seq 0 n) = if Nat.eqb i k then 1 else 0) ->
    (forall j, (j < n)%nat -> seqv tr (nth j G s0) (lin (b j) (fun i => ssub (p i) (sev V G (Nl i))) n)) ->
    seqv tr (sev V G (sadd (lin (m i) (fun j => svar (nth j V EmptyString)) n) (Nl i))) (p i).
  Proof.
    intros LV LG HN Hi Hm H. rewrite sev_sadd.
    transitivity (sadd (ssub (p i) (sev V G (Nl i))) (sev V G (Nl i))); [|apply sub_add_cancel].
    apply sadd_proper; [|reflexivity]. rewrite sev_lin.
    transitivity (lin (m i) (fun j => lin (b j) (fun i => ssub (p i) (sev V G (Nl i))) n) n).
    - apply lin_congr. intros j Hj. rewrite sev_svar by (auto; lia). apply H. auto.
    - apply (lin_lin tr m b (fun i => ssub (p i) (sev V G (Nl i)))); auto.
  Qed.
  (** Solutions of F(X) = Y are unique. *)
  Lemma solve_unique V (X X' : list sp) (m b : nat -> nat -> K) (Nl : nat -> sp) n N : length V = n -> NoDup V ->
    length X = n -> length X' = n -> Forall (vanish 1) X -> Forall (vanish 1) X' ->
    (forall i k, (i < n)%nat -> (k < n)%nat -> sum_list (fun j => b i j * m j k) (seq 0 n) = if Nat.eqb i k then 1 else 0) ->
    (forall i, (i < n)%nat -> over V (Nl i) /\ vanish 2 (Nl i)) ->
    (forall i, (i < n)%nat -> seqv (Some N)
        (sev V X (sadd (lin (m i) (fun j => svar (nth j V EmptyString)) n) (Nl i)))
        (sev V X' (sadd (lin (m i) (fun j => svar (nth j V EmptyString)) n) (Nl i)))) ->
    forall j, (j < n)%nat -> seqv (Some N) (nth j X s0) (nth j X' s0).
  Proof.
    intros LV HNd LX LX' HX HX' Hb HN H.
    assert (B : forall k, (k <= N)%nat -> forall j, (j < n)%nat -> seqv (Some k) (nth j X s0) (nth j X' s0)).
    { induction k as [|k IH]; intros Hk j Hj.
      - transitivity (s0 : sp); [|symmetry]; apply vanish_seqv; rewrite Forall_forall in *; [apply HX|apply HX']; apply nth_In; lia.
      - specialize (IH ltac:(lia)).
        assert (R : forall Z, length Z = n -> forall i, (i < n)%nat -> seqv (Some (S k))
           (sev V Z (sadd (lin (m i) (fun j => svar (nth j V EmptyString)) n) (Nl i)))
           (sadd (lin (m i) (fun j => nth j Z s0) n) (sev V Z (Nl i)))).
        { intros Z LZ i Hi. rewrite sev_sadd. apply sadd_proper; [|reflexivity]. rewrite sev_lin. apply lin_congr.
          intros j' Hj'. apply sev_svar; auto; lia. }
        assert (E : forall i, (i < n)%nat -> seqv (Some (S k)) (sev V X (Nl i)) (sev V X' (Nl i))).
        { intros i Hi. destruct (HN i Hi). apply picard_gain; auto; [lia|].
          assert (Q : forall (A B : list sp), length A = n -> length B = n ->
            (forall j, (j < n)%nat -> seqv (Some k) (nth j A s0) (nth j B s0)) -> Forall2 (seqv (Some k)) A B).
          { clear. induction n as [|n IH]; intros [|x A] [|y B] LA LB Q; try discriminate; constructor.
            - apply (Q 0%nat). lia.
            - apply IH; auto. intros j Hj. apply (Q (S j)). lia. }
          apply Q; auto. }
        assert (L : forall i, (i < n)%nat -> seqv (Some (S k)) (lin (m i) (fun j => nth j X s0) n) (lin (m i) (fun j => nth j X' s0) n)).
        { intros i Hi. assert (T := seqv_le (S k) N _ _ Hk (H i Hi)). rewrite !R in T by auto.
          rewrite (E i Hi) in T. apply add_sub_l in T. rewrite T.
          constructor. intros F _. rewrite Lf_ssub, Lf_sadd. ring. }
        rewrite <- (lin_lin (Some (S k)) b m (fun j => nth j X s0) j n) by auto.
        rewrite <- (lin_lin (Some (S k)) b m (fun j => nth j X' s0) j n) by auto.
        apply lin_congr. auto. }
    apply B. auto.
  Qed.
End Sums.
