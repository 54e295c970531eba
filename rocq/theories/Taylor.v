(** * Taylor expansions in several variables (proof file).

    [tay h n g f]: near 0 the function [f] of the increments equals the
    polynomial of [g] (coefficients read through [h]) up to order n. *)

From Coq Require Import String Reals Lra Lia Psatz List ZArith Setoid Morphisms Ring Field Bool.
From Coquelicot Require Import Coquelicot.
From Verif Require Import Ops Syms SymsFacts Poly PolyFacts Sem Den Gdual GdualFacts Functions FunAlg ElemR Uni UniFun.
Import ListNotations.
Open Scope R_scope.

Definition point := string -> R.
Definition within (x : point) (r : R) : Prop := forall s, Rabs (x s) <= r.

Definition bigO (n : nat) (f : point -> R) : Prop :=
  exists C d, 0 < d /\ 0 <= C /\ forall x r, within x r -> r <= d -> Rabs (f x) <= C * r ^ n.

Lemma within_pos x r : within x r -> 0 <= r.
Proof. intros H. eapply Rle_trans; [apply Rabs_pos|apply (H EmptyString)]. Qed.
Lemma within_0 : within (fun _ => 0) 0.
Proof. intros s. rewrite Rabs_R0. lra. Qed.

Lemma bigO_near n f g : (exists d, 0 < d /\ forall x, within x d -> f x = g x) -> bigO n f -> bigO n g.
Proof.
  intros (e & He & E) (C & d & Hd & HC & H). exists C, (Rmin d e). split; [apply Rmin_pos; auto|]. split; [auto|].
  intros x r W Hr. rewrite <- E.
  - apply H; auto. eapply Rle_trans; [exact Hr|apply Rmin_l].
  - intros s. eapply Rle_trans; [apply W|]. eapply Rle_trans; [exact Hr|apply Rmin_r].
Qed.
Lemma bigO_ext n f g : (forall x, f x = g x) -> bigO n f -> bigO n g.
Proof. intros E. apply bigO_near. exists 1. split; [lra|auto]. Qed.
Lemma bigO_add n f g : bigO n f -> bigO n g -> bigO n (fun x => f x + g x).
Proof.
  intros (C & d & Hd & HC & H) (C' & d' & Hd' & HC' & H').
  exists (C + C'), (Rmin d d'). split; [apply Rmin_pos; lra|]. split; [lra|]. intros x r W Hr.
  assert (X1 : r <= d) by (eapply Rle_trans; [exact Hr|apply Rmin_l]).
  assert (X2 : r <= d') by (eapply Rle_trans; [exact Hr|apply Rmin_r]).
  eapply Rle_trans; [apply Rabs_triang|]. rewrite Rmult_plus_distr_r. apply Rplus_le_compat; auto.
Qed.
Lemma bigO_opp n f : bigO n f -> bigO n (fun x => - f x).
Proof.
  intros (C & d & Hd & HC & H). exists C, d. split; [auto|]. split; [auto|]. intros. rewrite Rabs_Ropp. auto.
Qed.
Lemma bigO_sub n f g : bigO n f -> bigO n g -> bigO n (fun x => f x - g x).
Proof. intros. apply bigO_add; auto. apply bigO_opp; auto. Qed.
Lemma bigO_mul n m f g : bigO n f -> bigO m g -> bigO (n + m) (fun x => f x * g x).
Proof.
  intros (C & d & Hd & HC & H) (C' & d' & Hd' & HC' & H').
  exists (C * C'), (Rmin d d'). split; [apply Rmin_pos; lra|]. split; [apply Rmult_le_pos; auto|]. intros x r W Hr.
  assert (X1 : r <= d) by (eapply Rle_trans; [exact Hr|apply Rmin_l]).
  assert (X2 : r <= d') by (eapply Rle_trans; [exact Hr|apply Rmin_r]).
  rewrite Rabs_mult, pow_add. replace (C * C' * (r ^ n * r ^ m)) with ((C * r ^ n) * (C' * r ^ m)) by ring.
  apply Rmult_le_compat; auto using Rabs_pos.
Qed.
Lemma bigO_le n m f : (n <= m)%nat -> bigO m f -> bigO n f.
Proof.
  intros L (C & d & Hd & HC & H). exists C, (Rmin d 1). split; [apply Rmin_pos; lra|]. split; [auto|].
  intros x r W Hr. assert (X1 : r <= d) by (eapply Rle_trans; [exact Hr|apply Rmin_l]).
  assert (X2 : r <= 1) by (eapply Rle_trans; [exact Hr|apply Rmin_r]).
  eapply Rle_trans; [apply (H x r); auto|]. apply Rmult_le_compat_l; auto.
  assert (P := within_pos x r W). replace m with (n + (m - n))%nat by lia. rewrite pow_add.
  rewrite <- (Rmult_1_r (r ^ n)) at 2. apply Rmult_le_compat_l; [apply pow_le; auto|].
  rewrite <- (pow1 (m - n)). apply pow_incr. lra.
Qed.
Lemma bigO_const c : bigO 0 (fun _ => c).
Proof. exists (Rabs c), 1. split; [lra|]. split; [apply Rabs_pos|]. intros. simpl. lra. Qed.
Lemma bigO_zero n : bigO n (fun _ => 0).
Proof. exists 0, 1. split; [lra|]. split; [lra|]. intros. rewrite Rabs_R0. lra. Qed.
Lemma bigO_scale n c f : bigO n f -> bigO n (fun x => c * f x).
Proof. intros H. apply (bigO_mul 0 n (fun _ => c) f); auto. apply bigO_const. Qed.
Lemma bigO_at0 n f : bigO (S n) f -> f (fun _ => 0) = 0.
Proof.
  intros (C & d & Hd & HC & H). specialize (H (fun _ => 0) 0 within_0 ltac:(lra)). simpl in H.
  rewrite Rmult_0_l, Rmult_0_r in H. assert (X := Rabs_pos (f (fun _ => 0))).
  apply Rabs_eq_0. lra.
Qed.
Lemma bigO_pow n f k : bigO n f -> bigO (k * n) (fun x => f x ^ k).
Proof.
  intros H. induction k; [apply (bigO_const 1)|]. apply (bigO_mul n (k * n)); auto.
Qed.
(** The composition of an O(|y|^k) by an O(r). *)
Lemma bigO_comp (G : R -> R) k f : (exists C d, 0 < d /\ 0 <= C /\ forall y, Rabs y <= d -> Rabs (G y) <= C * Rabs y ^ k) ->
  bigO 1 f -> bigO k (fun x => G (f x)).
Proof.
  intros (C & d & Hd & HC & H) (C' & d' & Hd' & HC' & H').
  exists (C * C' ^ k), (Rmin d' (d / (C' + 1))). split; [apply Rmin_pos; auto; apply Rdiv_lt_0_compat; lra|].
  split; [apply Rmult_le_pos; auto; apply pow_le; auto|]. intros x r W Hr.
  assert (X1 : r <= d') by (eapply Rle_trans; [exact Hr|apply Rmin_l]).
  assert (X2 : r <= d / (C' + 1)) by (eapply Rle_trans; [exact Hr|apply Rmin_r]).
  assert (P := within_pos x r W). specialize (H' x r W X1). rewrite pow_1 in H'.
  eapply Rle_trans; [apply H|].
  - eapply Rle_trans; [exact H'|]. apply (Rmult_le_compat_r (C' + 1)) in X2; [|lra].
    replace (d / (C' + 1) * (C' + 1)) with d in X2 by (field; lra). nra.
  - rewrite Rmult_assoc. apply Rmult_le_compat_l; auto. rewrite <- Rpow_mult_distr.
    apply pow_incr. split; [apply Rabs_pos|auto].
Qed.

(** ** Formal polynomials whose degree marks are the true degrees *)
Fixpoint msum (V : list string) (m : mon) : nat := match V with [] => 0%nat | v :: V' => (m v + msum V' m)%nat end.
Definition okV (V : list string) (l : sp R) : Prop := forall t, In t l -> fst (snd t) = msum V (snd (snd t)).

Lemma msum_add V a b : msum V (monadd a b) = (msum V a + msum V b)%nat.
Proof. induction V; simpl; [lia|]. rewrite IHV. unfold monadd. lia. Qed.
Lemma msum_0 V : msum V mon0 = 0%nat.
Proof. induction V; simpl; auto. Qed.
Lemma okV_scon V c : okV V (scon c).
Proof. intros t [<-|[]]. simpl. symmetry. apply msum_0. Qed.
Lemma okV_sadd V l l' : okV V l -> okV V l' -> okV V (sadd l l').
Proof. intros H H' t Ht. apply in_app_or in Ht. destruct Ht; auto. Qed.
Lemma okV_sopp V l : okV V l -> okV V (sopp l).
Proof. intros H t Ht. apply in_map_iff in Ht. destruct Ht as (u & <- & Hu). simpl. auto. Qed.
Lemma okV_ssub V l l' : okV V l -> okV V l' -> okV V (ssub l l').
Proof. intros. apply okV_sadd; auto. apply okV_sopp; auto. Qed.
Lemma okV_smul V l l' : okV V l -> okV V l' -> okV V (smul l l').
Proof.
  intros H H' t Ht. apply in_flat_map in Ht. destruct Ht as (u & Hu & Ht). apply in_map_iff in Ht.
  destruct Ht as (w & <- & Hw). simpl. rewrite msum_add. rewrite (H u), (H' w); auto.
Qed.
Lemma okV_spow V l n : okV V l -> okV V (spow l n).
Proof. intros H. induction n; [apply okV_scon|]. apply okV_smul; auto. Qed.
Lemma okV_psum V a N l : okV V l -> okV V (psum a N l).
Proof.
  intros H. induction N; cbn [psum]; [apply okV_scon|]. apply okV_sadd; auto.
  apply okV_smul; [apply okV_scon|apply okV_spow; auto].
Qed.

Lemma mval_bound V x m r : within x r -> r <= 1 -> Rabs (mval V x m) <= r ^ msum V m.
Proof.
  intros W Hr. induction V as [|v V IH]; cbn [mval msum].
  - cbn [k1 OpsR]. rewrite Rabs_R1. simpl. lra.
  - cbn [kmul OpsR]. rewrite Rabs_mult, pow_add. rewrite kpow_R.
    apply Rmult_le_compat; auto using Rabs_pos. rewrite <- RPow_abs. apply pow_incr. split; [apply Rabs_pos|apply W].
Qed.
Lemma mval_at0 V m : mval V (fun _ => 0) m = match msum V m with O => 1 | S _ => 0 end.
Proof.
  induction V as [|v V IH]; cbn [mval msum]; [reflexivity|]. rewrite IH. rewrite kpow_R. cbn [kmul OpsR].
  destruct (m v); simpl; destruct (msum V m); simpl; ring.
Qed.

Definition lev (V : list string) (l : sp R) (x : point) : R := Lf l (evF V x).

Lemma lev_add V l l' x : lev V (sadd l l') x = lev V l x + lev V l' x.
Proof. exact (Lf_sadd l l' (evF V x)). Qed.
Lemma lev_sub V l l' x : lev V (ssub l l') x = lev V l x - lev V l' x.
Proof. exact (Lf_ssub l l' (evF V x)). Qed.
Lemma lev_opp V l x : lev V (sopp l) x = - lev V l x.
Proof. exact (Lf_sopp l (evF V x)). Qed.
Lemma lev_mul V l l' x : lev V (smul l l') x = lev V l x * lev V l' x.
Proof. exact (Lf_ev_mul V x l l'). Qed.
Lemma lev_con V c x : lev V (scon c) x = c.
Proof. exact (Lf_ev_con V x c). Qed.
Lemma lev_at0 V l : okV V l -> lev V l (fun _ => 0) = scc l.
Proof.
  intros H. unfold lev, scc. apply Lf_ext. intros t Ht. unfold evF, Fconst. rewrite mval_at0, (H t Ht).
  reflexivity.
Qed.
Lemma lev_psum V a N l x : lev V (psum a N l) x = usum a N (lev V l x).
Proof.
  induction N; cbn [psum].
  - rewrite lev_con, usum_0. reflexivity.
  - rewrite lev_add, IHN, usum_S, lev_mul, lev_con. f_equal. f_equal.
    unfold lev. rewrite Lf_ev_pow. apply kpow_R.
Qed.

Lemma Lf_bound V l x r n : within x r -> r <= 1 -> okV V l ->
  Rabs (Lf l (fun d m => if Nat.leb n d then evF V x d m else 0)) <=
  fold_right (fun t a => Rabs (fst t) + a) 0 l * r ^ n.
Proof.
  intros W Hr Hok. assert (P := within_pos x r W). induction l as [|t l IH].
  - simpl. rewrite Rabs_R0. lra.
  - rewrite Lf_cons. cbn [fold_right]. cbn [kadd kmul OpsR]. eapply Rle_trans; [apply Rabs_triang|].
    rewrite Rmult_plus_distr_r. apply Rplus_le_compat.
    + rewrite Rabs_mult. apply Rmult_le_compat_l; [apply Rabs_pos|].
      destruct (Nat.leb_spec n (fst (snd t))) as [L|L].
      * unfold evF. eapply Rle_trans; [apply mval_bound; eauto|].
        rewrite <- (Hok t) by (left; auto). set (k := fst (snd t)) in *.
        replace k with (n + (k - n))%nat by lia. rewrite pow_add. rewrite <- (Rmult_1_r (r ^ n)) at 2.
        apply Rmult_le_compat_l; [apply pow_le; auto|]. rewrite <- (pow1 (k - n)). apply pow_incr. lra.
      * cbn [k0 OpsR]. rewrite Rabs_R0. apply pow_le; auto.
    + apply IH. intros u Hu. apply Hok. right; auto.
Qed.

Lemma bigO_vanish V l n : okV V l -> vanish n l -> bigO n (lev V l).
Proof.
  intros Hok Hv. exists (fold_right (fun t a => Rabs (fst t) + a) 0 l), 1. split; [lra|]. split.
  - clear. induction l; simpl; [lra|]. assert (X := Rabs_pos (fst a)). lra.
  - intros x r W Hr. unfold lev.
    replace (Lf l (evF V x)) with (Lf l (fun d m => if Nat.leb n d then evF V x d m else 0)).
    + apply Lf_bound; auto.
    + assert (Z : Lf l (fun d m => if Nat.leb n d then 0 else evF V x d m) = 0).
      { apply Hv. intros d m L. apply Nat.leb_le in L. rewrite L. reflexivity. }
      transitivity (Lf l (fun d m => if Nat.leb n d then evF V x d m else 0) +
                    Lf l (fun d m => if Nat.leb n d then 0 else evF V x d m)); [rewrite Z; ring|].
      etransitivity; [symmetry; exact (Lf_plus l (fun d m => if Nat.leb n d then evF V x d m else 0)
        (fun d m => if Nat.leb n d then 0 else evF V x d m))|]. apply Lf_ext_all. intros d m. cbn [kadd OpsR].
      destruct (Nat.leb n d); ring.
Qed.

Lemma bigO_seqv V l l' n : okV V l -> okV V l' -> seqv (Some n) l l' ->
  bigO (S n) (fun x => lev V l x - lev V l' x).
Proof.
  intros H H' E. apply (bigO_ext _ (lev V (ssub l l'))); [intros; apply lev_sub|].
  apply bigO_vanish; [apply okV_ssub; auto|]. intros F HF. rewrite Lf_ssub.
  rewrite (seqv_elim E F); [simpl; ring|]. simpl. intros d m L. apply HF. lia.
Qed.
Lemma bigO_lev0 V l : okV V l -> bigO 0 (lev V l).
Proof. intros H. apply bigO_vanish; auto. apply vanish_0. Qed.

(** ** Taylor expansions *)
Section Tay.
  Context {A : Type} {oA : Ops A} {eA : Elem A}.
  Variable h : A -> R.
  Context {hh : Hom oA OpsR h} {he : HomElem eA ElemR h}.
  Notation gd := (gden h).

  Definition hval (g : gdual A) (x : point) : R := heval h (gp g) x.
  Definition tay (n : nat) (g : gdual A) (f : point -> R) : Prop := bigO (S n) (fun x => f x - hval g x).

  Lemma den_okV V p : swf p -> NoDup V -> incl (psyms p) V -> okV V (den h p).
  Proof.
    intros Hp HN Hi t Ht. unfold den, tden in Ht. apply in_map_iff in Ht. destruct Ht as (u & <- & Hu). cbn [fst snd].
    assert (HL := swf_len p Hp). unfold klen in HL. rewrite Forall_forall in HL. specialize (HL u Hu).
    assert (HNp := swf_NoDup p Hp).
    assert (G : forall W k V, length k = length W -> NoDup W -> NoDup V -> incl W V -> kdeg k = msum V (expo W k)).
    { clear. induction W as [|w W IH]; intros k V HL HW HV Hi.
      - destruct k; [|discriminate]. simpl. clear. induction V; simpl; auto.
      - destruct k as [|e k]; [discriminate|]. inversion HW; subst.
        destruct (in_split w V) as (V1 & V2 & ->); [apply Hi; left; auto|].
        assert (HV' := NoDup_remove_1 _ _ _ HV). assert (Hn := NoDup_remove_2 _ _ _ HV).
        assert (App : forall X Y m, msum (X ++ Y) m = (msum X m + msum Y m)%nat).
        { clear. induction X; intros; simpl; auto. rewrite IHX. lia. }
        assert (Ext : forall X m m', (forall s, In s X -> m s = m' s) -> msum X m = msum X m').
        { clear. induction X; intros m m' H; simpl; auto. rewrite (H a) by (left; auto).
          rewrite (IHX m m'); auto. intros; apply H; right; auto. }
        change (kdeg (e :: k)) with (e + kdeg k)%nat.
        rewrite (IH k (V1 ++ V2)); auto.
        + rewrite !App. cbn [msum].
          rewrite (Ext V1 (expo (w :: W) (e :: k)) (expo W k)), (Ext V2 (expo (w :: W) (e :: k)) (expo W k)).
          * cbn [expo]. rewrite String.eqb_refl. lia.
          * intros s Hs. cbn [expo]. destruct (String.eqb_spec w s); auto. subst. exfalso. apply Hn. apply in_or_app; auto.
          * intros s Hs. cbn [expo]. destruct (String.eqb_spec w s); auto. subst. exfalso. apply Hn. apply in_or_app; auto.
        + intros s Hs. assert (X := Hi s (or_intror Hs)). apply in_app_or in X. apply in_or_app.
          destruct X as [|[->|]]; auto. contradiction. }
    apply G; auto.
  Qed.

  (** A common list of variables for several gduals. *)
  Lemma common_vars (l : list (gdual A)) : List.Forall gwf l ->
    exists V, forall g, In g l -> okV V (gd g) /\ forall x, hval g x = lev V (gd g) x.
  Proof.
    intros H.
    assert (E : exists V, NoDup V /\ forall g, In g l -> incl (psyms (gp g)) V).
    { exists (nodup string_dec (flat_map (fun g => psyms (gp g)) l)). split; [apply NoDup_nodup|].
      intros g Hg s Hs. apply nodup_In. apply in_flat_map. eauto. }
    destruct E as (V & HN & HV). exists V. intros g Hg. rewrite Forall_forall in H. destruct (H g Hg) as [Hs _].
    split; [apply den_okV; auto|]. intros x. unfold hval, lev, gden. apply heval_Lf; auto.
  Qed.

  Lemma tay_ext n g f f' : (exists d, 0 < d /\ forall x, within x d -> f x = f' x) -> tay n g f -> tay n g f'.
  Proof.
    intros (d & Hd & E). apply bigO_near. exists d. split; auto. intros x Hx. rewrite E; auto.
  Qed.
  Lemma tay_ext_all n g f f' : (forall x, f x = f' x) -> tay n g f -> tay n g f'.
  Proof. intros E. apply tay_ext. exists 1. split; [lra|auto]. Qed.
  Lemma tay_le n m g f : (n <= m)%nat -> tay m g f -> tay n g f.
  Proof. intros L. apply bigO_le. lia. Qed.

  (** The value at 0 is the constant coefficient. *)
  Lemma hval_at0 g : gwf g -> hval g (fun _ => 0) = h (constant_cf g).
  Proof.
    intros W. destruct (common_vars [g]) as (V & HV); [constructor; auto|]. destruct (HV g (or_introl eq_refl)) as [H1 H2].
    rewrite H2, lev_at0 by auto. symmetry. apply (constant_cf_scc h). auto.
  Qed.
  Lemma tay_at0 n g f : gwf g -> tay n g f -> f (fun _ => 0) = h (constant_cf g).
  Proof.
    intros W H. apply bigO_at0 in H. rewrite hval_at0 in H by auto. lra.
  Qed.

  Lemma tay_bounded n g f : gwf g -> tay n g f -> bigO 0 f.
  Proof.
    intros W H. destruct (common_vars [g]) as (V & HV); [constructor; auto|].
    destruct (HV g (or_introl eq_refl)) as [H1 H2].
    apply (bigO_ext _ (fun x => (f x - hval g x) + lev V (gd g) x)); [intros; rewrite H2; ring|].
    apply bigO_add; [eapply bigO_le; [|exact H]; lia|apply bigO_lev0; auto].
  Qed.
  Lemma hval_bounded g : gwf g -> bigO 0 (hval g).
  Proof.
    intros W. destruct (common_vars [g]) as (V & HV); [constructor; auto|].
    destruct (HV g (or_introl eq_refl)) as [H1 H2].
    apply (bigO_ext _ (lev V (gd g))); [intros; rewrite H2; ring|]. apply bigO_lev0; auto.
  Qed.

  (** Transfer: a formal polynomial equal to that of the result. *)
  Lemma tay_of n r f V l : gwf r -> okV V (gd r) -> (forall x, hval r x = lev V (gd r) x) ->
    okV V l -> seqv (Some n) (gd r) l -> bigO (S n) (fun x => f x - lev V l x) -> tay n r f.
  Proof.
    intros W H1 H2 H3 E H. unfold tay.
    apply (bigO_ext _ (fun x => (f x - lev V l x) - (lev V (gd r) x - lev V l x))).
    - intros x. rewrite H2. ring.
    - apply bigO_sub; auto. apply bigO_seqv; auto.
  Qed.

  (** *** Arithmetic *)
  Tactic Notation "vars" constr(l) ident(V) ident(HV) := destruct (common_vars l) as (V & HV); [repeat (apply List.Forall_cons; [solve [auto with gwf]|]); apply List.Forall_nil|].

  Lemma tay_const n v : tay n (gconst v) (fun _ => h v).
  Proof.
    vars [gconst v] V HV. destruct (HV _ (or_introl eq_refl)) as [H1 H2].
    apply (tay_of n _ _ V (scon (h v))); auto with gwf.
    - apply okV_scon.
    - apply (gden_const h).
    - apply (bigO_ext _ (fun _ => 0)); [intros; rewrite lev_con; ring|apply bigO_zero].
  Qed.

  Lemma tay_add n a b f g : gwf a -> gwf b -> tay n a f -> tay n b g -> tay n (gadd a b) (fun x => f x + g x).
  Proof.
    intros Wa Wb Ha Hb. vars [a; b; gadd a b] V HV.
    destruct (HV a) as [A1 A2]; [simpl; auto|]. destruct (HV b) as [B1 B2]; [simpl; auto|].
    destruct (HV (gadd a b)) as [R1 R2]; [simpl; auto|].
    apply (tay_of n _ _ V (sadd (gd a) (gd b))); auto with gwf.
    - apply okV_sadd; auto.
    - apply (gden_add h); auto.
    - apply (bigO_ext _ (fun x => (f x - hval a x) + (g x - hval b x))).
      + intros x. rewrite lev_add, A2, B2. ring.
      + apply bigO_add; auto.
  Qed.
  Lemma tay_sub n a b f g : gwf a -> gwf b -> tay n a f -> tay n b g -> tay n (gsub a b) (fun x => f x - g x).
  Proof.
    intros Wa Wb Ha Hb. vars [a; b; gsub a b] V HV.
    destruct (HV a) as [A1 A2]; [simpl; auto|]. destruct (HV b) as [B1 B2]; [simpl; auto|].
    destruct (HV (gsub a b)) as [R1 R2]; [simpl; auto|].
    apply (tay_of n _ _ V (ssub (gd a) (gd b))); auto with gwf.
    - apply okV_ssub; auto.
    - apply (gden_sub h); auto.
    - apply (bigO_ext _ (fun x => (f x - hval a x) - (g x - hval b x))).
      + intros x. rewrite lev_sub, A2, B2. ring.
      + apply bigO_sub; auto.
  Qed.
  Lemma tay_neg n a f : gwf a -> tay n a f -> tay n (gneg a) (fun x => - f x).
  Proof.
    intros Wa Ha. vars [a; gneg a] V HV.
    destruct (HV a) as [A1 A2]; [simpl; auto|]. destruct (HV (gneg a)) as [R1 R2]; [simpl; auto|].
    apply (tay_of n _ _ V (sopp (gd a))); auto with gwf.
    - apply okV_sopp; auto.
    - apply (gden_neg h); auto.
    - apply (bigO_ext _ (fun x => - (f x - hval a x))).
      + intros x. rewrite lev_opp, A2. ring.
      + apply bigO_opp; auto.
  Qed.
  Lemma tay_add_sg n v a f : gwf a -> tay n a f -> tay n (gadd_sg v a) (fun x => h v + f x).
  Proof.
    intros Wa Ha. vars [a; gadd_sg v a] V HV.
    destruct (HV a) as [A1 A2]; [simpl; auto|]. destruct (HV (gadd_sg v a)) as [R1 R2]; [simpl; auto|].
    apply (tay_of n _ _ V (sadd (scon (h v)) (gd a))); auto with gwf.
    - apply okV_sadd; auto. apply okV_scon.
    - apply (gden_add_sg h); auto.
    - apply (bigO_ext _ (fun x => f x - hval a x)); auto.
      intros x. rewrite lev_add, lev_con, A2. ring.
  Qed.
  Lemma tay_add_gs n v a f : gwf a -> tay n a f -> tay n (gadd_gs a v) (fun x => f x + h v).
  Proof.
    intros Wa Ha. apply (tay_ext_all _ _ (fun x => h v + f x)); [intros; ring|]. apply (tay_add_sg n v a); auto.
  Qed.
  Lemma tay_sub_sg n v a f : gwf a -> tay n a f -> tay n (gsub_sg v a) (fun x => h v - f x).
  Proof.
    intros Wa Ha. vars [a; gsub_sg v a] V HV.
    destruct (HV a) as [A1 A2]; [simpl; auto|]. destruct (HV (gsub_sg v a)) as [R1 R2]; [simpl; auto|].
    apply (tay_of n _ _ V (ssub (scon (h v)) (gd a))); auto with gwf.
    - apply okV_ssub; auto. apply okV_scon.
    - apply (gden_sub_sg h); auto.
    - apply (bigO_ext _ (fun x => - (f x - hval a x))); [|apply bigO_opp; auto].
      intros x. rewrite lev_sub, lev_con, A2. ring.
  Qed.
  Lemma tay_sub_gs n v a f : gwf a -> tay n a f -> tay n (gsub_gs a v) (fun x => f x - h v).
  Proof.
    intros Wa Ha. vars [a; gsub_gs a v] V HV.
    destruct (HV a) as [A1 A2]; [simpl; auto|]. destruct (HV (gsub_gs a v)) as [R1 R2]; [simpl; auto|].
    apply (tay_of n _ _ V (ssub (gd a) (scon (h v)))); auto with gwf.
    - apply okV_ssub; auto. apply okV_scon.
    - apply (gden_sub_gs h); auto.
    - apply (bigO_ext _ (fun x => f x - hval a x)); auto.
      intros x. rewrite lev_sub, lev_con, A2. ring.
  Qed.
  Lemma tay_mul_sg n v a f : gwf a -> tay n a f -> tay n (gmul_sg v a) (fun x => h v * f x).
  Proof.
    intros Wa Ha. vars [a; gmul_sg v a] V HV.
    destruct (HV a) as [A1 A2]; [simpl; auto|]. destruct (HV (gmul_sg v a)) as [R1 R2]; [simpl; auto|].
    apply (tay_of n _ _ V (smul (scon (h v)) (gd a))); auto with gwf.
    - apply okV_smul; auto. apply okV_scon.
    - apply (gden_mul_sg h); auto.
    - apply (bigO_ext _ (fun x => h v * (f x - hval a x))); [|apply bigO_scale; auto].
      intros x. rewrite lev_mul, lev_con, A2. ring.
  Qed.
  Lemma tay_mul_gs n v a f : gwf a -> tay n a f -> tay n (gmul_gs a v) (fun x => f x * h v).
  Proof.
    intros Wa Ha. vars [a; gmul_gs a v] V HV.
    destruct (HV a) as [A1 A2]; [simpl; auto|]. destruct (HV (gmul_gs a v)) as [R1 R2]; [simpl; auto|].
    apply (tay_of n _ _ V (smul (scon (h v)) (gd a))); auto with gwf.
    - apply okV_smul; auto. apply okV_scon.
    - apply (gden_mul_gs h); auto.
    - apply (bigO_ext _ (fun x => h v * (f x - hval a x))); [|apply bigO_scale; auto].
      intros x. rewrite lev_mul, lev_con, A2. ring.
  Qed.
  Lemma tay_div_gs n v a f : gwf a -> tay n a f -> tay n (gdiv_gs a v) (fun x => f x / h v).
  Proof.
    intros Wa Ha. vars [a; gdiv_gs a v] V HV.
    destruct (HV a) as [A1 A2]; [simpl; auto|]. destruct (HV (gdiv_gs a v)) as [R1 R2]; [simpl; auto|].
    apply (tay_of n _ _ V (smul (scon (1 / h v)) (gd a))); auto with gwf.
    - apply okV_smul; auto. apply okV_scon.
    - exact (gden_div_gs h (Some n) v a Wa).
    - apply (bigO_ext _ (fun x => (1 / h v) * (f x - hval a x))); [|apply bigO_scale; auto].
      intros x. rewrite lev_mul, lev_con, A2. unfold Rdiv. ring.
  Qed.
  Lemma tay_mul n a b f g : gwf a -> gwf b -> (n <= Nat.max (gord a) (gord b))%nat ->
    tay n a f -> tay n b g -> tay n (gmul a b) (fun x => f x * g x).
  Proof.
    intros Wa Wb Hn Ha Hb. vars [a; b; gmul a b] V HV.
    destruct (HV a) as [A1 A2]; [simpl; auto|]. destruct (HV b) as [B1 B2]; [simpl; auto|].
    destruct (HV (gmul a b)) as [R1 R2]; [simpl; auto|].
    apply (tay_of n _ _ V (smul (gd a) (gd b))); auto with gwf.
    - apply okV_smul; auto.
    - apply (gden_mul h); auto.
    - apply (bigO_ext _ (fun x => (f x - hval a x) * g x + hval a x * (g x - hval b x))).
      + intros x. rewrite lev_mul, A2, B2. ring.
      + apply bigO_add.
        * rewrite <- (Nat.add_0_r (S n)). apply bigO_mul; auto. eapply tay_bounded; eauto.
        * apply (bigO_mul 0 (S n)); auto. apply hval_bounded; auto.
  Qed.

  (** A function that is not 0 at 0 is bounded away from 0 nearby. *)
  Lemma tay_inv_bounded n b g : gwf b -> tay n b g -> h (constant_cf b) <> 0 ->
    bigO 0 (fun x => / g x) /\ exists d, 0 < d /\ forall x, within x d -> g x <> 0.
  Proof.
    intros Wb Hb Hc. set (c := h (constant_cf b)) in *.
    assert (H1 : bigO 1 (fun x => g x - c)).
    { vars [b] V HV. destruct (HV b) as [B1 B2]; [simpl; auto|].
      apply (bigO_ext _ (fun x => (g x - hval b x) + lev V (ghat h b) x)).
      - intros x. unfold ghat. rewrite lev_sub, lev_con, B2. unfold c. rewrite (constant_cf_scc h) by auto. ring.
      - apply bigO_add; [eapply bigO_le; [|exact Hb]; lia|]. apply bigO_vanish; [|apply ghat_vanish].
        unfold ghat. apply okV_ssub; auto. apply okV_scon. }
    destruct H1 as (C & d & Hd & HC & H). assert (Pc : 0 < Rabs c) by (apply Rabs_pos_lt; auto).
    set (e := Rmin d (Rabs c / (2 * (C + 1)))).
    assert (He : 0 < e) by (apply Rmin_pos; auto; apply Rdiv_lt_0_compat; lra).
    assert (L : forall x r, within x r -> r <= e -> Rabs c / 2 <= Rabs (g x)).
    { intros x r W Hr. assert (X1 : r <= d) by (eapply Rle_trans; [exact Hr|apply Rmin_l]).
      assert (X2 : r <= Rabs c / (2 * (C + 1))) by (eapply Rle_trans; [exact Hr|apply Rmin_r]).
      assert (P := within_pos x r W). specialize (H x r W X1). rewrite pow_1 in H.
      assert (Y : C * r <= Rabs c / 2).
      { apply (Rmult_le_compat_r (C + 1)) in X2; [|lra].
        replace (Rabs c / (2 * (C + 1)) * (C + 1)) with (Rabs c / 2) in X2 by (field; lra). nra. }
      assert (T := Rabs_triang_inv c (c - g x)). replace (c - (c - g x)) with (g x) in T by ring.
      rewrite (Rabs_minus_sym c (g x)) in T. lra. }
    assert (N : forall x r, within x r -> r <= e -> g x <> 0).
    { intros x r W Hr E. specialize (L x r W Hr). rewrite E, Rabs_R0 in L. lra. }
    split.
    - exists (/ (Rabs c / 2)), e. split; [auto|]. split; [left; apply Rinv_0_lt_compat; lra|].
      intros x r W Hr. rewrite Rabs_Rinv by (eapply N; eauto). simpl. rewrite Rmult_1_r.
      apply Rinv_le_contravar; [lra|]. eapply L; eauto.
    - exists e. split; auto. intros x W. apply (N x e); auto. lra.
  Qed.

  Lemma tay_quot n a q b f g : gwf a -> gwf b -> gwf q -> seqv (Some n) (smul (gd q) (gd b)) (gd a) ->
    h (constant_cf b) <> 0 -> tay n a f -> tay n b g -> tay n q (fun x => f x / g x).
  Proof.
    intros Wa Wb Wq E Hc Ha Hb. vars [a; b; q] V HV.
    destruct (HV a) as [A1 A2]; [simpl; auto|]. destruct (HV b) as [B1 B2]; [simpl; auto|].
    destruct (HV q) as [R1 R2]; [simpl; auto|].
    destruct (tay_inv_bounded n b g Wb Hb Hc) as [Hi (d & Hd & Hz)].
    unfold tay.
    apply (bigO_near _ (fun x => ((f x - hval a x) - (lev V (smul (gd q) (gd b)) x - lev V (gd a) x)
                                  - hval q x * (g x - hval b x)) * / g x)).
    - exists d. split; auto. intros x W. rewrite lev_mul, A2, B2, R2. field. apply Hz; auto.
    - rewrite <- (Nat.add_0_r (S n)). apply bigO_mul; auto. apply bigO_sub; [apply bigO_sub; auto|].
      + apply bigO_seqv; auto. apply okV_smul; auto.
      + apply (bigO_mul 0 (S n)); auto. apply hval_bounded; auto.
  Qed.
  Lemma tay_div n a b f g : gwf a -> gwf b -> (n <= gord b)%nat -> h (constant_cf b) <> 0 ->
    tay n a f -> tay n b g -> tay n (gdiv a b) (fun x => f x / g x).
  Proof.
    intros Wa Wb Hn Hc Ha Hb. apply (tay_quot n a _ b); auto with gwf. apply (gden_div_mul h); auto.
  Qed.
  Lemma tay_div_sg n v b g : gwf b -> (n <= gord b)%nat -> h (constant_cf b) <> 0 ->
    tay n b g -> tay n (gdiv_sg v b) (fun x => h v / g x).
  Proof.
    intros Wb Hn Hc Hb. apply (tay_quot n (gconst v) _ b); auto using tay_const with gwf.
    rewrite (gden_div_sg_mul h) by auto. symmetry. apply (gden_const h).
  Qed.

  (** *** Composition with a function of one variable *)
  Lemma bigO_usum_diff (c : nat -> R) N k (u v : point -> R) :
    bigO 0 u -> bigO 0 v -> bigO k (fun x => u x - v x) ->
    bigO k (fun x => usum c N (u x) - usum c N (v x)).
  Proof.
    intros Hu Hv H.
    assert (P : forall i, bigO k (fun x => u x ^ i - v x ^ i)).
    { induction i; [apply (bigO_ext _ (fun _ => 0)); [intros; simpl; ring|apply bigO_zero]|].
      apply (bigO_ext _ (fun x => (u x - v x) * u x ^ i + v x * (u x ^ i - v x ^ i))); [intros; simpl; ring|].
      apply bigO_add.
      - rewrite <- (Nat.add_0_r k). apply bigO_mul; auto. rewrite <- (Nat.mul_0_r i). apply bigO_pow; auto.
      - apply (bigO_mul 0 k); auto. }
    induction N.
    - apply (bigO_ext _ (fun _ => 0)); [intros; rewrite !usum_0; ring|apply bigO_zero].
    - apply (bigO_ext _ (fun x => (usum c N (u x) - usum c N (v x)) + c (S N) * (u x ^ S N - v x ^ S N))).
      + intros x. rewrite !usum_S. ring.
      + apply bigO_add; auto. apply bigO_scale; auto.
  Qed.

  Lemma tay_comp n d r f F c : gwf d -> gwf r -> tay n d f ->
    uexp F (h (constant_cf d)) n c -> seqv (Some n) (gd r) (psum c n (ghat h d)) ->
    tay n r (fun x => F (f x)).
  Proof.
    intros Wd Wr Hf HF E. set (p := h (constant_cf d)) in *. vars [d; r] V HV.
    destruct (HV d) as [A1 A2]; [simpl; auto|]. destruct (HV r) as [R1 R2]; [simpl; auto|].
    assert (Ok : okV V (ghat h d)) by (unfold ghat; apply okV_ssub; auto; apply okV_scon).
    assert (Hp : p = scc (gd d)) by (apply (constant_cf_scc h); auto).
    assert (E1 : bigO (S n) (fun x => (f x - p) - lev V (ghat h d) x)).
    { apply (bigO_ext _ (fun x => f x - hval d x)); auto. intros x. unfold ghat.
      rewrite lev_sub, lev_con, A2, Hp. ring. }
    assert (E2 : bigO 1 (lev V (ghat h d))) by (apply bigO_vanish; auto; apply ghat_vanish).
    assert (E3 : bigO 1 (fun x => f x - p)).
    { apply (bigO_ext _ (fun x => ((f x - p) - lev V (ghat h d) x) + lev V (ghat h d) x)); [intros; ring|].
      apply bigO_add; auto. eapply bigO_le; [|exact E1]. lia. }
    apply (tay_of n _ _ V (psum c n (ghat h d))); auto.
    - apply okV_psum; auto.
    - apply (bigO_ext _ (fun x => (F (p + (f x - p)) - usum c n (f x - p)) +
                                  (usum c n (f x - p) - usum c n (lev V (ghat h d) x)))).
      + intros x. rewrite lev_psum. replace (p + (f x - p)) with (f x) by ring. ring.
      + apply bigO_add.
        * apply (bigO_comp (fun y => F (p + y) - usum c n y) (S n)); auto.
        * apply bigO_usum_diff; auto; eapply bigO_le; try eassumption; lia.
  Qed.

  (** Two gduals with the same expansion, and conversely. *)
  Lemma tay_hval n a b : gwf a -> gwf b -> seqv (Some n) (gd a) (gd b) -> tay n a (hval b).
  Proof.
    intros Wa Wb E. vars [a; b] V HV. destruct (HV a) as [A1 A2]; [simpl; auto|]. destruct (HV b) as [B1 B2]; [simpl; auto|].
    apply (tay_of n _ _ V (gd b)); auto. apply (bigO_ext _ (fun _ => 0)); [|apply bigO_zero]. intros. rewrite B2. ring.
  Qed.

  (** A constant of order 0. *)
  Lemma tay_order0 n g f c : gwf g -> gord g = 0%nat -> (exists d, 0 < d /\ forall x, within x d -> f x = c) ->
    tay 0 g f -> tay n g f.
  Proof.
    intros W O Hc H. vars [g] V HV. destruct (HV g) as [A1 A2]; [simpl; auto|].
    assert (E : seqv None (gd g) (scon (scc (gd g)))).
    { apply (seqv_bounded 0).
      - rewrite <- O. apply (den_sdle h), W.
      - constructor; [simpl; lia|constructor].
      - constructor. intros F HF. assert (X := vanish_minus_cc (gd g) (den_okdeg h (gp g)) F).
        rewrite Lf_ssub in X. simpl in HF. cbn [ksub k0 OpsR] in X.
        specialize (X ltac:(intros; apply HF; lia)). lra. }
    assert (Ev : forall x, hval g x = scc (gd g)).
    { intros x. rewrite A2. unfold lev. rewrite (seqv_elim E) by (simpl; tauto). apply (Lf_ev_con V x). }
    assert (Z : c = scc (gd g)).
    { destruct Hc as (d & Hd & Hc). apply bigO_at0 in H. rewrite Ev, Hc in H; [lra|].
      intros s. rewrite Rabs_R0. lra. }
    unfold tay. apply (bigO_near _ (fun _ => 0)); [|apply bigO_zero].
    destruct Hc as (d & Hd & Hc). exists d. split; auto. intros x Hx. rewrite Hc, Ev by auto. lra.
  Qed.
End Tay.
