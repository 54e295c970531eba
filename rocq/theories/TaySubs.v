(** * Substitution computes Taylor expansions of compositions (C22)

    Lemmas on subs over the reals. *)
From Coq Require Import String Reals List Arith ZArith Bool Lra Lia Psatz.
From Verif Require Import Ops Syms Poly Gdual Functions Spec Sem Den GdualFacts CoefFacts CoreProofs ValueProofs SpecTaylor Taylor TayUnique TayProofs TayIdent MiscProofs CalcProofs MapProofs.
Import ListNotations.
Open Scope R_scope.

Lemma bigO_update k (F : point -> R) u s : bigO k F -> bigO 1 u -> bigO k (fun x => F (update x s (u x))).
Proof.
  intros (C & d & Hd & HC & HF) (C' & d' & Hd' & HC' & Hu).
  assert (P : 0 < 1 + C') by lra. assert (P1 : 0 < Rmin d' (d / (1 + C'))) by (apply Rmin_pos; auto; apply Rdiv_lt_0_compat; auto).
  exists (C * (1 + C') ^ k), (Rmin d' (d / (1 + C'))). split; auto. split; [apply Rmult_le_pos; auto; apply pow_le; lra|].
  intros x r Hx Hr. assert (Hr0 := within_pos x r Hx). assert (r <= d') by (eapply Rle_trans; [exact Hr|apply Rmin_l]).
  assert (L : (1 + C') * r <= d).
  { assert (r <= d / (1 + C')) by (eapply Rle_trans; [exact Hr|apply Rmin_r]). apply (Rmult_le_compat_l (1 + C')) in H0; [|lra].
    replace ((1 + C') * (d / (1 + C'))) with d in H0 by (field; lra). lra. }
  rewrite Rmult_assoc, <- Rpow_mult_distr. apply HF; auto. intros t. unfold update. destruct (String.eqb t s).
  - specialize (Hu x r Hx H). rewrite pow_1 in Hu. nra.
  - specialize (Hx t). nra.
Qed.
Lemma bigO_id s : bigO 1 (fun x : point => x s).
Proof. exists 1, 1. split; [lra|]. split; [lra|]. intros x r Hx _. specialize (Hx s). lra. Qed.
Lemma kpow_pow (a : R) n : kpow a n = a ^ n.
Proof. induction n; [reflexivity|]. cbn. rewrite IHn. reflexivity. Qed.
Lemma bigO_pow_diff m (u v : point -> R) e : bigO 0 u -> bigO 0 v -> bigO m (fun x => u x - v x) -> bigO m (fun x => u x ^ e - v x ^ e).
Proof.
  intros Hu Hv Hd. induction e as [|e IH]; [apply (bigO_ext _ (fun _ => 0)); [intros; cbn; ring|apply bigO_zero]|].
  apply (bigO_ext _ (fun x => (u x - v x) * u x ^ e + v x * (u x ^ e - v x ^ e))); [intros; cbn; ring|].
  apply bigO_add.
  - replace m with (m + 0)%nat by lia. apply bigO_mul; auto. replace 0%nat with (e * 0)%nat at 1 by lia. apply bigO_pow; auto.
  - change m with (0 + m)%nat. apply bigO_mul; auto.
Qed.
Lemma bigO0 k f : bigO k f -> bigO 0 f.
Proof. apply bigO_le. lia. Qed.
Section Lipschitz.
  Variables (m : nat) (p q : point -> point).
  Hypothesis Hp : forall t, bigO 0 (fun x => p x t).
  Hypothesis Hq : forall t, bigO 0 (fun x => q x t).
  Hypothesis Hd : forall t, bigO m (fun x => p x t - q x t).
  Lemma mono_lipschitz V k : forall W,
    bigO m (fun x => fold_right (fun t a => kpow (p x t) (expo V k t) * a) 1 W - fold_right (fun t a => kpow (q x t) (expo V k t) * a) 1 W) /\
    bigO 0 (fun x => fold_right (fun t a => kpow (p x t) (expo V k t) * a) 1 W).
  Proof.
    induction W as [|t W [I1 I2]]; cbn [fold_right].
    - split; [apply (bigO_ext _ (fun _ => 0)); [intros; ring|apply bigO_zero]|apply bigO_const].
    - assert (B : forall w : point -> R, bigO 0 w -> bigO 0 (fun x => kpow (w x) (expo V k t))).
      { intros w Hw. apply (bigO_ext _ (fun x => w x ^ expo V k t)); [intros; symmetry; apply kpow_pow|].
        replace 0%nat with (expo V k t * 0)%nat by lia. apply bigO_pow; auto. }
      split; [|change 0%nat with (0 + 0)%nat; apply bigO_mul; auto].
      set (f (w : point -> point) x := fold_right (fun t a => kpow (w x t) (expo V k t) * a) 1 W) in *.
      set (g (w : point -> point) x := kpow (w x t) (expo V k t)) in *.
      apply (bigO_ext _ (fun x => (g p x - g q x) * f p x + g q x * (f p x - f q x))); [intros; unfold f, g; ring|].
      apply bigO_add.
      + replace m with (m + 0)%nat by lia. apply bigO_mul; auto. unfold g.
        apply (bigO_ext _ (fun x => (p x t) ^ expo V k t - (q x t) ^ expo V k t)); [intros; apply f_equal2; symmetry; apply kpow_pow|].
        apply bigO_pow_diff; auto.
      + change m with (0 + m)%nat. apply bigO_mul; auto. apply (B (fun x => q x t)); auto.
  Qed.
  Lemma value_lipschitz (g : gdual R) : bigO m (fun x => value g (p x) - value g (q x)).
  Proof.
    unfold value. induction (pterms (gp g)) as [|t l IH]; cbn [sum_list fold_right].
    - apply (bigO_ext _ (fun _ => 0)); [intros; cbn; ring|apply bigO_zero].
    - apply (bigO_ext _ (fun x => snd t * (mono_at (psyms (gp g)) (fst t) (p x) - mono_at (psyms (gp g)) (fst t) (q x)) +
        (sum_list (fun t => snd t * mono_at (psyms (gp g)) (fst t) (p x)) l - sum_list (fun t => snd t * mono_at (psyms (gp g)) (fst t) (q x)) l))).
      { intros x. unfold sum_list. cbn. ring. }
      apply bigO_add; auto. apply bigO_scale. apply (proj1 (mono_lipschitz (psyms (gp g)) (fst t) (psyms (gp g)))).
  Qed.
End Lipschitz.
Lemma agree_bigO n (a b : gdual R) : valid a -> valid b -> agree n a b -> bigO (S n) (fun x => value a x - value b x).
Proof.
  intros Va Vb H. assert (Wa := valid_gwf a Va). assert (Wb := valid_gwf b Vb). apply (proj1 (agree_iff n a b Wa Wb)) in H.
  assert (X := tay_hval idR n b a Wb Wa ltac:(symmetry; exact H)). unfold tay in X. apply (bigO_ext _ _ _ (fun x => f_equal2 Rminus (hval_value a x Wa) (hval_value b x Wb)) X).
Qed.
Lemma tay_at0' n (g : gdual R) f : valid g -> taylor_of n g f -> f center = constant_cf g.
Proof.
  intros V H. rewrite <- (self_center g V). apply Rminus_diag_uniq. exact (bigO_at0 n (fun x => f x - value g x) H).
Qed.
Lemma value_bigO1 (g : gdual R) : valid g -> constant_cf g = 0 -> bigO 1 (value g).
Proof.
  intros Vg C. apply (bigO_ext _ (fun x => value g x - value g center)).
  { intros x. rewrite (self_center g Vg), C. ring. }
  apply (value_lipschitz 1 (fun x => x) (fun _ => center)).
  - intros t. apply (bigO0 1), bigO_id.
  - intros t. apply bigO_const.
  - intros t. apply (bigO_ext _ (fun x => x t)); [intros; unfold center; ring|apply bigO_id].
Qed.
Lemma subs_taylor n (d : gdual R) s (g : gdual R) f u : valid d -> valid g -> (n <= get_order d)%nat ->
  taylor_of n d f -> taylor_of n g u -> u center = 0 ->
  taylor_of n (gsubs d s g) (fun x => f (update x s (u x))).
Proof.
  intros Vd Vg L Hf Hu U0. destruct (subs_spec d s g Vd Vg) as (c & Vc & Ec & Cc).
  assert (Vs : valid (gsubs d s g)) by (apply valid_subs; auto).
  assert (A : bigO (S n) (fun x => value c x - value (gsubs d s g) x)).
  { apply agree_bigO; auto. intros W k HW Hk Hs. rewrite Cc by auto. destruct (Nat.leb_spec (list_sum k) (gord d)); auto. unfold get_order in L. lia. }
  assert (G0 : constant_cf g = 0).
  { rewrite <- U0. symmetry. apply (tay_at0' n); auto. }
  assert (Bg := value_bigO1 g Vg G0).
  assert (Bu : bigO 1 u).
  { apply (bigO_ext _ (fun x => (u x - value g x) + value g x)); [intros; ring|]. apply bigO_add; auto. apply (bigO_le 1 (S n)); [lia|]. exact Hu. }
  apply (bigO_ext _ (fun x => (f (update x s (u x)) - value d (update x s (u x))) + (value d (update x s (u x)) - value d (update x s (value g x))) + (value c x - value (gsubs d s g) x))).
  { intros x. rewrite Ec. ring. }
  apply bigO_add; auto. apply bigO_add.
  - apply (bigO_update _ (fun x => f x - value d x)); auto.
  - apply (value_lipschitz (S n) (fun x => update x s (u x)) (fun x => update x s (value g x))); intros t; unfold update; destruct (String.eqb t s); auto;
      try (apply (bigO0 1); auto using bigO_id).
    apply (bigO_ext _ (fun _ => 0)); [intros; ring|apply bigO_zero].
Qed.
