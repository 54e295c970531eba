(** * Rounding (proof file) *)
From Coq Require Import String List Arith Bool ZArith Reals Permutation Lia Lra.
From Flocq Require Import Core BinarySingleNaN.
From Flocq Require Import Relative Plus_error.
From Verif Require Import Ops Syms SymsFacts Poly PolyFacts Gdual GdualFacts Functions Spec CoefFacts CoreProofs CalcProofs SpecDbl StoredMul StoredCalc.
Import ListNotations.
Local Open Scope R_scope.

Lemma rnd_eq x : round radix2 (SpecFloat.fexp 53 1024) (round_mode mode_NE) x = rnd x.
Proof. reflexivity. Qed.
Definition dformat (x : R) : Prop := generic_format radix2 (FLT_exp (-1074) 53) x.
Lemma B2R_format (x : double) : dformat (B2R x).
Proof. apply generic_format_B2R. Qed.
Lemma rnd_id x : dformat x -> rnd x = x.
Proof. intros H. apply round_generic; auto. apply valid_rnd_N. Qed.
Lemma rnd_0 : rnd 0 = 0.
Proof. apply round_0. apply valid_rnd_N. Qed.
Lemma rnd_opp x : rnd (- x) = - rnd x.
Proof. apply round_NE_opp. Qed.
Lemma rnd_format x : dformat (rnd x).
Proof. apply generic_format_round; [apply FLT_exp_valid; reflexivity|apply valid_rnd_N]. Qed.

Lemma overflow_inf s : binary_overflow 53 1024 mode_NE s = SpecFloat.S754_infinity s.
Proof. reflexivity. Qed.
Lemma B2SF_fin (x : double) s : B2SF x = SpecFloat.S754_infinity s -> is_finite x = false.
Proof. destruct x; cbn; congruence. Qed.

(** A finite result is the rounded exact result of finite operands. *)
Lemma plus_fin (x y : double) : is_finite (Bplus mode_NE x y) = true ->
  is_finite x = true /\ is_finite y = true /\ B2R (Bplus mode_NE x y) = rnd (B2R x + B2R y).
Proof.
  intros H. assert (Hx : is_finite x = true /\ is_finite y = true).
  { destruct x as [sx|sx| |sx mx ex Hx], y as [sy|sy| |sy my ey Hy]; auto; cbn in H; try discriminate;
      try (destruct (Bool.eqb sx sy); discriminate); repeat destruct s; try discriminate. }
  destruct Hx as [Hx Hy]. conjs; auto. assert (C := Bplus_correct 53 1024 prec53 prec53_lt mode_NE x y Hx Hy).
  destruct (Rlt_bool _ _).
  - destruct C as [C _]. exact C.
  - destruct C as [C _]. rewrite overflow_inf in C. apply B2SF_fin in C. congruence.
Qed.
Lemma mult_fin (x y : double) : is_finite (Bmult mode_NE x y) = true ->
  is_finite x = true /\ is_finite y = true /\ B2R (Bmult mode_NE x y) = rnd (B2R x * B2R y).
Proof.
  intros H. assert (Hx : is_finite x = true /\ is_finite y = true).
  { destruct x as [sx|sx| |sx mx ex Hx], y as [sy|sy| |sy my ey Hy]; auto; cbn in H; try discriminate. }
  destruct Hx as [Hx Hy]. conjs; auto. assert (C := Bmult_correct 53 1024 prec53 prec53_lt mode_NE x y).
  destruct (Rlt_bool _ _).
  - destruct C as [C _]. exact C.
  - rewrite overflow_inf in C. apply B2SF_fin in C. congruence.
Qed.
Lemma div_fin (x y : double) : B2R y <> 0 -> is_finite (Bdiv mode_NE x y) = true ->
  B2R (Bdiv mode_NE x y) = rnd (B2R x / B2R y).
Proof.
  intros Hy H. assert (C := Bdiv_correct 53 1024 prec53 prec53_lt mode_NE x y Hy).
  destruct (Rlt_bool _ _).
  - destruct C as [C _]. exact C.
  - rewrite overflow_inf in C. apply B2SF_fin in C. congruence.
Qed.
(** ... and there is no overflow when the rounded exact result is in range. *)
Lemma plus_small (x y : double) : is_finite x = true -> is_finite y = true -> Rabs (rnd (B2R x + B2R y)) < bpow radix2 1024 ->
  is_finite (Bplus mode_NE x y) = true.
Proof.
  intros Hx Hy Hb. assert (C := Bplus_correct 53 1024 prec53 prec53_lt mode_NE x y Hx Hy).
  rewrite Rlt_bool_true in C by exact Hb. tauto.
Qed.
Lemma mult_small (x y : double) : is_finite x = true -> is_finite y = true -> Rabs (rnd (B2R x * B2R y)) < bpow radix2 1024 ->
  is_finite (Bmult mode_NE x y) = true.
Proof.
  intros Hx Hy Hb. assert (C := Bmult_correct 53 1024 prec53 prec53_lt mode_NE x y).
  rewrite Rlt_bool_true in C by exact Hb. rewrite Hx, Hy in C. tauto.
Qed.

Lemma eqb_zero (x : double) : keqb x k0 = true <-> exists s, x = B754_zero s.
Proof.
  cbn [keqb k0 OpsB64]. destruct x as [s|s| |s m e H]; cbn; split; eauto; intros E; try discriminate; try (destruct s; discriminate); destruct E; discriminate.
Qed.
Lemma kept_spec (c : double) : match kept c with Some d => d = c | None => is_finite c = true /\ B2R c = 0 end.
Proof.
  unfold kept. destruct (keqb c k0) eqn:E; auto. apply eqb_zero in E. destruct E as [s ->]. auto.
Qed.

Definition val (x : option double) : R := match x with Some c => B2R c | None => 0 end.
Definition fin (x : option double) : Prop := match x with Some c => is_finite c = true | None => True end.
Lemma kept_val (c : double) : val (kept c) = B2R c.
Proof. assert (H := kept_spec c). destruct (kept c); cbn [val]; [subst; auto|symmetry; tauto]. Qed.
Lemma kept_fin (c : double) : fin (kept c) <-> is_finite c = true.
Proof. assert (H := kept_spec c). destruct (kept c); cbn [fin]; [subst; tauto|tauto]. Qed.
Lemma val_format x : dformat (val x).
Proof. destruct x; cbn [val]; [apply B2R_format|apply generic_format_0]. Qed.
Lemma add_to_kept (acc : option double) c :
  add_to acc c = match acc with None => kept c | Some v => kept (Bplus mode_NE v c) end.
Proof. destruct acc; reflexivity. Qed.
Lemma add_to_fin acc c : fin (add_to acc c) ->
  fin acc /\ is_finite c = true /\ val (add_to acc c) = rnd (val acc + B2R c).
Proof.
  rewrite add_to_kept. destruct acc as [v|]; rewrite kept_fin, kept_val; cbn [val fin].
  - apply plus_fin.
  - intros H. conjs; auto. rewrite Rplus_0_l, rnd_id; auto. apply B2R_format.
Qed.

(** *** Errors of one operation *)
Lemma u53_pos : 0 < u53.
Proof. apply bpow_gt_0. Qed.
Lemma tiny_pos : 0 < tiny.
Proof. apply bpow_gt_0. Qed.
Lemma u_ro_53 : u_ro radix2 53 = u53.
Proof.
  unfold u_ro, u53. change (-53)%Z with (-1 + (- (53) + 1))%Z. rewrite (bpow_plus _ (-1)). f_equal.
Qed.
Lemma rnd_plus x y : dformat x -> dformat y -> exists d, Rabs d <= u53 /\ rnd (x + y) = (x + y) * (1 + d).
Proof.
  intros Hx Hy. destruct (FLT_plus_error_N_ex radix2 (-1074) 53 (fun x => negb (Z.even x)) x y Hx Hy) as (d & Hd & E).
  exists d. split; auto. rewrite u_ro_53 in Hd. assert (P := u53_pos).
  apply Rle_trans with (1 := Hd). apply Rmult_le_reg_r with (1 + u53); [lra|].
  unfold Rdiv. rewrite Rmult_assoc, Rinv_l by lra. nra.
Qed.
Lemma rnd_any x : exists d e, Rabs d <= u53 /\ Rabs e <= tiny /\ rnd x = x * (1 + d) + e.
Proof.
  destruct (error_N_FLT radix2 (-1074) 53 eq_refl (fun x => negb (Z.even x)) x) as (d & e & Hd & He & _ & E).
  exists d, e. conjs; auto.
  - apply Rle_trans with (1 := Hd). right. exact u_ro_53.
  - apply Rle_trans with (1 := He). right. unfold tiny. change (-1075)%Z with (-1 + -1074)%Z. rewrite bpow_plus. f_equal.
Qed.

(** *** Sums of products *)
Definition prods (l : list (double * double)) : option double := sum_up (map (fun xy => kmul (fst xy) (snd xy)) l).
Definition rp (xy : double * double) : R := B2R (fst xy) * B2R (snd xy).
Definition rsum (l : list R) : R := fold_right Rplus 0 l.
Lemma rsum_app l l' : rsum (l ++ l') = rsum l + rsum l'.
Proof. unfold rsum. induction l; cbn [app fold_right]; lra. Qed.
Lemma rsum_perm l l' : Permutation l l' -> rsum l = rsum l'.
Proof. unfold rsum. induction 1; cbn [fold_right]; lra. Qed.
Lemma rsum_abs_pos l : 0 <= rsum (map Rabs l).
Proof. unfold rsum. induction l; cbn [map fold_right]; [lra|]. assert (H := Rabs_pos a). lra. Qed.
Lemma rsum_tri l : Rabs (rsum l) <= rsum (map Rabs l).
Proof.
  unfold rsum. induction l; cbn [map fold_right]; [rewrite Rabs_R0; lra|]. apply Rle_trans with (1 := Rabs_triang _ _). lra.
Qed.
Lemma prods_snoc l xy : prods (l ++ [xy]) = add_to (prods l) (Bmult mode_NE (fst xy) (snd xy)).
Proof. unfold prods, sum_up. rewrite map_app, fold_left_app. reflexivity. Qed.

Lemma pow_mono1 n m : (n <= m)%nat -> (1 + u53) ^ n <= (1 + u53) ^ m.
Proof. intros H. apply Rle_pow; auto. assert (P := u53_pos). lra. Qed.
Lemma pow_ge1 n : 1 <= (1 + u53) ^ n.
Proof. apply (pow_mono1 0 n). lia. Qed.

Lemma Rabs4 a b c d : Rabs (a + b + c + d) <= Rabs a + Rabs b + Rabs c + Rabs d.
Proof.
  assert (H1 := Rabs_triang (a + b + c) d). assert (H2 := Rabs_triang (a + b) c). assert (H3 := Rabs_triang a b). lra.
Qed.
Definition bound (n : nat) (A : R) : R := ((1 + u53) ^ n - 1) * A + INR n * (1 + u53) ^ n * tiny.
Lemma step_bound v S A p c d n : Rabs (v - S) <= bound n A -> Rabs S <= A ->
  (exists e t, Rabs e <= u53 /\ Rabs t <= tiny /\ c = p * (1 + e) + t) -> Rabs d <= u53 -> (n = 0%nat -> v = 0 /\ S = 0 /\ d = 0) ->
  Rabs ((v + c) * (1 + d) - (S + p)) <= bound (Datatypes.S n) (A + Rabs p).
Proof.
  intros H1 H2 (e & t & He & Ht & ->) Hd H0. assert (Pu := u53_pos). assert (Pt := tiny_pos).
  assert (Pp := Rabs_pos p). assert (PA : 0 <= A) by (eapply Rle_trans; [apply Rabs_pos|exact H2]).
  assert (Hc : Rabs (p * e + t) <= u53 * Rabs p + tiny).
  { apply Rle_trans with (1 := Rabs_triang _ _). rewrite Rabs_mult. nra. }
  assert (Hd1 : Rabs (1 + d) <= 1 + u53).
  { apply Rle_trans with (1 := Rabs_triang _ _). rewrite Rabs_R1. lra. }
  unfold bound in *. rewrite S_INR. cbn [pow]. assert (Q := pow_ge1 n). set (q := (1 + u53) ^ n) in *.
  destruct n as [|n].
  - destruct (H0 eq_refl) as (-> & -> & ->). unfold q. cbn [pow INR].
    replace ((0 + (p * (1 + e) + t)) * (1 + 0) - (0 + p)) with (p * e + t) by ring.
    apply Rle_trans with (1 := Hc). nra.
  - replace ((v + (p * (1 + e) + t)) * (1 + d) - (S + p)) with ((v - S) * (1 + d) + S * d + (p * e + t) * (1 + d) + p * d) by ring.
    assert (Q1 : 1 + u53 <= q) by (unfold q; rewrite <- (pow_1 (1 + u53)) at 1; apply pow_mono1; lia).
    set (N := INR (Datatypes.S n)) in *. assert (PN : 0 <= N) by apply pos_INR.
    assert (X1 : Rabs ((v - S) * (1 + d)) <= ((q - 1) * A + N * q * tiny) * (1 + u53)).
    { rewrite Rabs_mult. apply Rmult_le_compat; auto using Rabs_pos. }
    assert (X2 : Rabs (S * d) <= A * u53) by (rewrite Rabs_mult; apply Rmult_le_compat; auto using Rabs_pos).
    assert (X3 : Rabs ((p * e + t) * (1 + d)) <= (u53 * Rabs p + tiny) * (1 + u53)) by (rewrite Rabs_mult; apply Rmult_le_compat; auto using Rabs_pos).
    assert (X4 : Rabs (p * d) <= Rabs p * u53) by (rewrite Rabs_mult; apply Rmult_le_compat; auto using Rabs_pos; lra).
    eapply Rle_trans; [apply Rabs4|].
    assert (Y1 : 0 <= Rabs p * ((1 + u53) * (q - 1 - u53))) by (apply Rmult_le_pos; auto; apply Rmult_le_pos; lra).
    assert (Y2 : 0 <= (1 + u53) * (q - 1) * tiny) by (apply Rmult_le_pos; [apply Rmult_le_pos|]; lra).
    lra.
Qed.

Lemma prods_bound l : fin (prods l) ->
  (forall xy, In xy l -> is_finite (fst xy) = true /\ is_finite (snd xy) = true) /\
  Rabs (val (prods l) - rsum (map rp l)) <= bound (length l) (rsum (map Rabs (map rp l))).
Proof.
  induction l as [|xy l IH] using rev_ind.
  - intros _. split; [intros ? []|]. unfold bound. cbn. rewrite Rminus_0_r, Rabs_R0. lra.
  - rewrite prods_snoc. intros H. apply add_to_fin in H. destruct H as (H1 & H2 & H3).
    destruct (IH H1) as [I1 I2]. apply mult_fin in H2. destruct H2 as (F1 & F2 & F3). split.
    { intros z Hz. apply in_app_or in Hz. destruct Hz as [Hz|[<-|[]]]; auto. }
    rewrite !map_app, !rsum_app, app_length, Nat.add_1_r, H3. cbn [map]. change (rsum [?x]) with (x + 0). rewrite !Rplus_0_r.
    assert (Hc : exists e t, Rabs e <= u53 /\ Rabs t <= tiny /\ B2R (Bmult mode_NE (fst xy) (snd xy)) = rp xy * (1 + e) + t).
    { rewrite F3. apply rnd_any. }
    destruct l as [|z l].
    + cbn [prods sum_up map fold_left val rsum fold_right length] in *. rewrite rnd_id by (rewrite Rplus_0_l; apply B2R_format).
      assert (G := step_bound 0 0 0 (rp xy) _ 0 0 I2 ltac:(rewrite Rabs_R0; lra) Hc).
      replace (0 + B2R (Bmult mode_NE (fst xy) (snd xy))) with ((0 + B2R (Bmult mode_NE (fst xy) (snd xy))) * (1 + 0)) by ring.
      apply G; [rewrite Rabs_R0; left; apply u53_pos|auto].
    + destruct (rnd_plus (val (prods (z :: l))) (B2R (Bmult mode_NE (fst xy) (snd xy))) (val_format _) (B2R_format _)) as (d & Hd & E).
      rewrite E. apply step_bound; auto; [apply rsum_tri|]. intros; discriminate.
Qed.

(** no overflow *)
Definition top (n : nat) (A : R) : R := (1 + u53) ^ n * (A + INR n * tiny).
Lemma top_bound n A : 0 <= A -> A + bound n A <= top n A.
Proof. intros. unfold top, bound. right. ring. Qed.
Lemma prods_fin l : (forall xy, In xy l -> is_finite (fst xy) = true /\ is_finite (snd xy) = true) ->
  top (length l) (rsum (map Rabs (map rp l))) < bpow radix2 1024 -> fin (prods l).
Proof.
  induction l as [|xy l IH] using rev_ind; intros Hf Hb; [exact I|].
  assert (Pu := u53_pos). assert (Pt := tiny_pos). assert (PA := rsum_abs_pos (map rp l)). assert (Pp := Rabs_pos (rp xy)).
  rewrite !map_app, rsum_app, app_length, Nat.add_1_r in Hb. cbn [map] in Hb. change (rsum [Rabs (rp xy)]) with (Rabs (rp xy) + 0) in Hb.
  rewrite Rplus_0_r in Hb. set (A := rsum (map Rabs (map rp l))) in *. set (n := length l) in *. change (top (S n) (A + Rabs (rp xy)) < bpow radix2 1024) in Hb.
  assert (Q := pow_ge1 n). assert (PN := pos_INR n).
  assert (Hb' : top n A < bpow radix2 1024).
  { eapply Rle_lt_trans; [|exact Hb]. unfold top. apply Rmult_le_compat; try lra.
    - apply Rplus_le_le_0_compat; auto. apply Rmult_le_pos; lra.
    - apply pow_mono1; lia.
    - rewrite S_INR. assert (0 <= INR n * tiny) by (apply Rmult_le_pos; lra). lra. }
  assert (Hl : fin (prods l)) by (apply IH; auto; intros; apply Hf, in_or_app; auto).
  destruct (Hf xy) as [F1 F2]; [apply in_or_app; right; left; auto|].
  set (c := Bmult mode_NE (fst xy) (snd xy)).
  assert (Hc : is_finite c = true /\ B2R c = rnd (rp xy)).
  { assert (Hc : is_finite c = true).
    { apply mult_small; auto. change (B2R (fst xy) * B2R (snd xy)) with (rp xy). destruct (rnd_any (rp xy)) as (e & t & He & Ht & ->).
      eapply Rle_lt_trans; [apply Rabs_triang|]. rewrite Rabs_mult. eapply Rle_lt_trans; [|exact Hb].
      assert (H1 : Rabs (1 + e) <= 1 + u53) by (apply Rle_trans with (1 := Rabs_triang _ _); rewrite Rabs_R1; lra).
      assert (H2 : Rabs (rp xy) * Rabs (1 + e) <= Rabs (rp xy) * (1 + u53)) by (apply Rmult_le_compat_l; auto).
      unfold top. cbn [pow]. rewrite S_INR. set (q := (1 + u53) ^ n) in *.
      assert (H3 : (1 + u53) * 1 <= (1 + u53) * q) by (apply Rmult_le_compat_l; lra).
      assert (H4 : 0 <= INR n * tiny) by (apply Rmult_le_pos; lra).
      assert (H5 : (1 + u53) * (Rabs (rp xy) + tiny) <= (1 + u53) * q * (A + Rabs (rp xy) + (INR n + 1) * tiny)).
      { apply Rmult_le_compat; lra. }
      assert (0 <= u53 * tiny) by (apply Rmult_le_pos; lra). lra. }
    split; auto. apply mult_fin; auto. }
  destruct Hc as [Hc Ec].
  rewrite prods_snoc, add_to_kept. fold c. destruct (prods_bound l Hl) as [_ HB]. fold A n in HB.
  assert (Hv : Rabs (val (prods l)) <= A + bound n A).
  { replace (val (prods l)) with (rsum (map rp l) + (val (prods l) - rsum (map rp l))) by ring.
    eapply Rle_trans; [apply Rabs_triang|]. apply Rplus_le_compat; auto. apply rsum_tri. }
  rewrite (Rle_antisym _ _ (top_bound n A PA) ltac:(unfold top, bound; right; ring)) in Hv.
  destruct (prods l) as [v|] eqn:El; [|apply kept_fin; auto].
  apply kept_fin. apply plus_small; auto. cbn [val] in Hv.
  destruct (rnd_plus (B2R v) (B2R c) (B2R_format _) (B2R_format _)) as (d & Hd & Ed). refine (Rle_lt_trans _ _ _ (Req_le _ _ (f_equal Rabs Ed)) _).
  rewrite Rabs_mult. eapply Rle_lt_trans; [|exact Hb].
  assert (H1 : Rabs (1 + d) <= 1 + u53) by (apply Rle_trans with (1 := Rabs_triang _ _); rewrite Rabs_R1; lra).
  destruct (rnd_any (rp xy)) as (e & t & He & Ht & E). rewrite Ec, E.
  assert (H2 : Rabs (1 + e) <= 1 + u53) by (apply Rle_trans with (1 := Rabs_triang _ _); rewrite Rabs_R1; lra).
  assert (H3 : Rabs (B2R v + (rp xy * (1 + e) + t)) <= top n A + (Rabs (rp xy) * (1 + u53) + tiny)).
  { eapply Rle_trans; [apply Rabs_triang|]. apply Rplus_le_compat; auto. eapply Rle_trans; [apply Rabs_triang|].
    apply Rplus_le_compat; auto. rewrite Rabs_mult. apply Rmult_le_compat_l; auto. }
  eapply Rle_trans; [apply Rmult_le_compat; [apply Rabs_pos|apply Rabs_pos|exact H3|exact H1]|].
  unfold top. cbn [pow]. rewrite S_INR.
  assert (Q1 : l <> [] -> 1 + u53 <= (1 + u53) ^ n).
  { intros Hn. rewrite <- (pow_1 (1 + u53)) at 1. apply pow_mono1. unfold n. destruct l; [congruence|cbn [length]; lia]. }
  assert (Hn : l <> []) by (intros ->; discriminate). specialize (Q1 Hn). set (q := (1 + u53) ^ n) in *.
  assert (Y1 : 0 <= Rabs (rp xy) * ((1 + u53) * (q - (1 + u53)))) by (apply Rmult_le_pos; auto; apply Rmult_le_pos; lra).
  assert (Y2 : 0 <= (1 + u53) * (q - 1) * tiny) by (apply Rmult_le_pos; [apply Rmult_le_pos|]; lra).
  lra.
Qed.

(** *** Exact integers *)
Lemma int_format z : (Z.abs z <= 2 ^ 53)%Z -> dformat (IZR z).
Proof.
  intros H. destruct (Z.eq_dec (Z.abs z) (2 ^ 53)) as [E|E].
  - assert (G : exists s, IZR z = F2R (Float radix2 s 53) /\ (Z.abs s = 1)%Z).
    { destruct (Z.abs_eq_or_opp z) as [G|G]; rewrite G in E.
      - exists 1%Z. rewrite E. split; auto. unfold F2R. cbn [Defs.Fnum Defs.Fexp]. rewrite Rmult_1_l. reflexivity.
      - exists (-1)%Z. replace z with (- 2 ^ 53)%Z by lia. split; auto. unfold F2R. cbn [Defs.Fnum Defs.Fexp]. rewrite opp_IZR.
        change (IZR (2 ^ 53)) with (bpow radix2 53). change (IZR (-1)) with (Ropp 1). ring. }
    destruct G as (s & -> & Hs). apply generic_format_FLT. exists (Float radix2 s 53); cbn [Defs.Fnum Defs.Fexp]; auto; [rewrite Hs; reflexivity|lia].
  - apply generic_format_FLT. exists (Float radix2 z 0); cbn [Defs.Fnum Defs.Fexp]; [|change (Zpower radix2 53) with (2 ^ 53)%Z; lia|lia].
    unfold F2R. cbn [Defs.Fnum Defs.Fexp bpow]. rewrite Rmult_1_r. reflexivity.
Qed.
Lemma int_small z : (Z.abs z <= 2 ^ 53)%Z -> Rabs (IZR z) < bpow radix2 1024.
Proof.
  intros H. rewrite <- abs_IZR. apply Rle_lt_trans with (bpow radix2 53); [|apply bpow_lt; lia].
  change (bpow radix2 53) with (IZR (2 ^ 53)). apply IZR_le. exact H.
Qed.
Definition isint (x : R) : Prop := exists z, x = IZR z.
Lemma isint_rnd x : isint x -> Rabs x <= bpow radix2 53 -> rnd x = x /\ Rabs (rnd x) < bpow radix2 1024.
Proof.
  intros [z ->] H. change (bpow radix2 53) with (IZR (2 ^ 53)) in H. rewrite <- abs_IZR in H. apply le_IZR in H.
  rewrite rnd_id by (apply int_format; auto). split; auto. apply int_small; auto.
Qed.
Lemma isint_sum l : (forall x, In x l -> isint x) -> isint (rsum l).
Proof.
  induction l as [|x l IH]; intros H; [exists 0%Z; reflexivity|].
  destruct (H x (or_introl eq_refl)) as [z Hz]. destruct IH as [s Hs]; [intros; apply H; right; auto|].
  exists (z + s)%Z. unfold rsum in *. cbn [fold_right]. rewrite plus_IZR. congruence.
Qed.
Lemma prods_exact l : (forall xy, In xy l -> is_finite (fst xy) = true /\ is_finite (snd xy) = true /\ isint (rp xy)) ->
  rsum (map Rabs (map rp l)) <= bpow radix2 53 -> fin (prods l) /\ val (prods l) = rsum (map rp l).
Proof.
  induction l as [|xy l IH] using rev_ind; intros Hf Hb; [split; [exact I|reflexivity]|].
  assert (Pp := Rabs_pos (rp xy)). assert (PA := rsum_abs_pos (map rp l)).
  rewrite !map_app, rsum_app in *. cbn [map] in *. change (rsum [Rabs (rp xy)]) with (Rabs (rp xy) + 0) in Hb.
  rewrite ?rsum_app. change (rsum [rp xy]) with (rp xy + 0). rewrite Rplus_0_r in *.
  set (A := rsum (map Rabs (map rp l))) in *. change (A + Rabs (rp xy) <= bpow radix2 53) in Hb.
  destruct IH as [I1 I2]; [intros; apply Hf, in_or_app; auto|lra|].
  destruct (Hf xy) as (F1 & F2 & F3); [apply in_or_app; right; left; auto|].
  set (c := Bmult mode_NE (fst xy) (snd xy)).
  destruct (isint_rnd (rp xy)) as [R1 R2]; auto; [lra|].
  assert (Hc : is_finite c = true) by (apply mult_small; auto).
  assert (Ec : B2R c = rp xy) by (rewrite <- R1; apply mult_fin; auto).
  rewrite prods_snoc, add_to_kept. fold c.
  assert (HS : isint (rsum (map rp l) + rp xy)).
  { destruct (isint_sum (map rp l)) as [s Hs].
    - intros x Hx. apply in_map_iff in Hx. destruct Hx as (y & <- & Hy). apply Hf, in_or_app; auto.
    - destruct F3 as [z Hz]. exists (s + z)%Z. rewrite plus_IZR. congruence. }
  assert (HT : Rabs (rsum (map rp l) + rp xy) <= bpow radix2 53).
  { eapply Rle_trans; [apply Rabs_triang|]. assert (T := rsum_tri (map rp l)). fold A in T. lra. }
  destruct (isint_rnd _ HS HT) as [S1 S2].
  destruct (prods l) as [v|] eqn:El; rewrite kept_fin, kept_val; cbn [val] in I2.
  - assert (Hp : is_finite (Bplus mode_NE v c) = true).
    { apply plus_small; auto. rewrite Ec. change (B2R v) with (val (Some v)). cbn [val]. rewrite I2. exact S2. }
    split; auto. destruct (plus_fin v c Hp) as (_ & _ & E). refine (eq_trans E _). rewrite Ec, I2. exact S1.
  - split; auto. rewrite <- I2. lra.
Qed.

(** ** Gduals *)
Lemma val_cf g W k : val (stored g W k) = cf g W k.
Proof. reflexivity. Qed.
Lemma conv_factors a b W k : rsum (map rp (factors a b W k)) = conv a b W k.
Proof.
  unfold conv, factors. induction (splits k) as [|[i j] l IH]; cbn [flat_map map fold_right fst snd]; auto.
  rewrite map_app, rsum_app, <- IH. f_equal. unfold cf.
  destruct (stored a W i), (stored b W j); cbn; unfold rp; cbn [fst snd]; ring.
Qed.
Lemma conv_abs_factors a b W k : rsum (map Rabs (map rp (factors a b W k))) = conv_abs a b W k.
Proof.
  unfold conv_abs, factors. induction (splits k) as [|[i j] l IH]; cbn [flat_map map fold_right fst snd]; auto.
  rewrite !map_app, rsum_app, <- IH. f_equal. unfold cf.
  destruct (stored a W i), (stored b W j); cbn; unfold rp; cbn [fst snd]; rewrite ?Rmult_0_l, ?Rmult_0_r, ?Rabs_R0; ring.
Qed.

Lemma mul_prods a b W k : valid a -> valid b -> NoDup W -> length k = length W ->
  (list_sum k <= Nat.max (get_order a) (get_order b))%nat ->
  exists l, Permutation l (factors a b W k) /\ stored (gmul a b) W k = prods l.
Proof.
  intros Va Vb HW Hk Hd. destruct (stored_mul a b W k Va Vb HW Hk) as (l & Hp & E). exists l. split; auto.
  rewrite E. destruct (Nat.leb_spec (list_sum k) (Nat.max (get_order a) (get_order b))); [reflexivity|lia].
Qed.
Theorem mul_rounding a b W k : valid a -> valid b -> NoDup W -> length k = length W ->
  (list_sum k <= Nat.max (get_order a) (get_order b))%nat -> cf_finite (gmul a b) W k ->
  let n := length (factors a b W k) in
  Rabs (cf (gmul a b) W k - conv a b W k) <= ((1 + u53) ^ n - 1) * conv_abs a b W k + INR n * (1 + u53) ^ n * tiny.
Proof.
  intros Va Vb HW Hk Hd Hf. destruct (mul_prods a b W k Va Vb HW Hk Hd) as (l & Hp & E).
  change (fin (stored (gmul a b) W k)) in Hf. rewrite <- val_cf. rewrite E in *.
  destruct (prods_bound l Hf) as [_ H]. unfold bound in H.
  rewrite <- (conv_factors a b W k), <- (conv_abs_factors a b W k).
  rewrite <- (rsum_perm _ _ (Permutation_map rp Hp)), <- (rsum_perm _ _ (Permutation_map Rabs (Permutation_map rp Hp))).
  rewrite <- (Permutation_length Hp). exact H.
Qed.
(** The same for every order of the contributions. *)
Theorem any_order (a b : gdual double) W k l c : Permutation l (factors a b W k) ->
  sum_up (map (fun xy => kmul (fst xy) (snd xy)) l) = Some c -> is_finite c = true ->
  Rabs (B2R c - conv a b W k)
  <= ((1 + u53) ^ length l - 1) * conv_abs a b W k + INR (length l) * (1 + u53) ^ length l * tiny.
Proof.
  intros P E F. change (prods l = Some c) in E.
  destruct (prods_bound l) as [_ H]; [rewrite E; exact F|]. rewrite E in H. cbn [val] in H.
  rewrite (rsum_perm _ _ (Permutation_map rp P)), (rsum_perm _ _ (Permutation_map Rabs (Permutation_map rp P))) in H.
  rewrite conv_factors, conv_abs_factors in H. exact H.
Qed.

Theorem mul_finite a b W k : valid a -> valid b -> NoDup W -> length k = length W ->
  (list_sum k <= Nat.max (get_order a) (get_order b))%nat ->
  (forall x y, In (x, y) (factors a b W k) -> is_finite x = true /\ is_finite y = true) ->
  let n := length (factors a b W k) in
  (1 + u53) ^ n * (conv_abs a b W k + INR n * tiny) < bpow radix2 1024 -> cf_finite (gmul a b) W k.
Proof.
  intros Va Vb HW Hk Hd Hf n Hb. destruct (mul_prods a b W k Va Vb HW Hk Hd) as (l & Hp & E).
  change (fin (stored (gmul a b) W k)). rewrite E. apply prods_fin.
  - intros [x y] Hx. apply Hf. apply (Permutation_in _ Hp Hx).
  - rewrite (rsum_perm _ _ (Permutation_map Rabs (Permutation_map rp Hp))), (Permutation_length Hp), conv_abs_factors. exact Hb.
Qed.
Theorem mul_exact a b W k : valid a -> valid b -> NoDup W -> length k = length W ->
  (list_sum k <= Nat.max (get_order a) (get_order b))%nat ->
  (forall x y, In (x, y) (factors a b W k) -> is_finite x = true /\ is_finite y = true /\
     (exists z, B2R x = IZR z) /\ (exists z, B2R y = IZR z)) ->
  conv_abs a b W k <= bpow radix2 53 -> cf_finite (gmul a b) W k /\ cf (gmul a b) W k = conv a b W k.
Proof.
  intros Va Vb HW Hk Hd Hf Hb. destruct (mul_prods a b W k Va Vb HW Hk Hd) as (l & Hp & E).
  change (cf_finite (gmul a b) W k) with (fin (stored (gmul a b) W k)). rewrite <- val_cf, E.
  rewrite <- (conv_factors a b W k). rewrite <- (rsum_perm _ _ (Permutation_map rp Hp)). apply prods_exact.
  - intros [x y] Hx. destruct (Hf x y (Permutation_in _ Hp Hx)) as (F1 & F2 & [z Hz] & [w Hw]). conjs; auto.
    exists (z * w)%Z. unfold rp. cbn [fst snd]. rewrite mult_IZR. congruence.
  - rewrite (rsum_perm _ _ (Permutation_map Rabs (Permutation_map rp Hp))), conv_abs_factors. exact Hb.
Qed.
Lemma mul_beyond a b W k : valid a -> valid b -> NoDup W -> length k = length W ->
  (Nat.max (get_order a) (get_order b) < list_sum k)%nat -> cf (gmul a b) W k = 0.
Proof.
  intros Va Vb HW Hk Hd. destruct (stored_mul a b W k Va Vb HW Hk) as (l & Hp & E). unfold cf. rewrite E.
  destruct (Nat.leb_spec (list_sum k) (Nat.max (get_order a) (get_order b))); [lia|reflexivity].
Qed.

Theorem add_rounding a b W k : valid a -> valid b -> cf_finite (gadd a b) W k ->
  cf_finite a W k /\ cf_finite b W k /\ cf (gadd a b) W k = rnd (cf a W k + cf b W k).
Proof.
  intros Va Vb. unfold cf_finite, cf. rewrite (stored_add a b W k Va Vb).
  destruct (stored a W k) as [x|], (stored b W k) as [y|]; cbn beta iota.
  - change (if keqb (kadd x y) k0 then None else Some (kadd x y)) with (kept (Bplus mode_NE x y)).
    intros H. apply kept_fin in H. change (match kept (Bplus mode_NE x y) with Some c => B2R c | None => 0 end) with (val (kept (Bplus mode_NE x y))).
    rewrite kept_val. apply plus_fin in H. exact H.
  - intros H. conjs; auto. rewrite Rplus_0_r, rnd_id; auto. apply B2R_format.
  - intros H. conjs; auto. rewrite Rplus_0_l, rnd_id; auto. apply B2R_format.
  - intros _. conjs; auto. rewrite Rplus_0_r, rnd_0. reflexivity.
Qed.
Theorem neg_rounding (a : gdual double) W k : cf (gneg a) W k = - cf a W k /\ (cf_finite (gneg a) W k <-> cf_finite a W k).
Proof.
  unfold cf, cf_finite. rewrite stored_neg. destruct (stored a W k) as [x|]; cbn [option_map kopp OpsB64].
  - rewrite B2R_Bopp, is_finite_Bopp. tauto.
  - split; [ring|tauto].
Qed.
Lemma neg_nz_dbl (c : double) : keqb c k0 = false -> keqb (kopp c) k0 = false.
Proof.
  intros H. apply not_true_iff_false. intros E. apply not_true_iff_false in H. apply H. apply eqb_zero in E. destruct E as [s E].
  apply eqb_zero. destruct c; cbn in E; try discriminate. eauto.
Qed.
Lemma valid_neg_dbl (a : gdual double) : valid a -> valid (gneg a).
Proof. intros V. apply valid_iff in V. apply valid_iff. destruct V. split; auto using gneg_gwf, (gneg_nz neg_nz_dbl). Qed.
Theorem sub_rounding a b W k : valid a -> valid b -> cf_finite (gsub a b) W k ->
  cf_finite a W k /\ cf_finite b W k /\ cf (gsub a b) W k = rnd (cf a W k - cf b W k).
Proof.
  intros Va Vb H. change (gsub a b) with (gadd a (gneg b)) in *.
  destruct (add_rounding a (gneg b) W k Va (valid_neg_dbl b Vb) H) as (H1 & H2 & H3).
  destruct (neg_rounding b W k) as [N1 N2]. conjs; auto; [apply N2; auto|]. rewrite H3, N1. reflexivity.
Qed.
Theorem add_comm_dbl a b W k : valid a -> valid b -> cf_finite (gadd a b) W k -> cf_finite (gadd b a) W k ->
  cf (gadd a b) W k = cf (gadd b a) W k.
Proof.
  intros Va Vb H1 H2. destruct (add_rounding a b W k Va Vb H1) as (_ & _ & ->).
  destruct (add_rounding b a W k Vb Va H2) as (_ & _ & ->). f_equal. ring.
Qed.

(** *** Scalars *)
Lemma kplus_zeros (j : key) : kplus (repeat 0%nat (length j)) j = j.
Proof. induction j; cbn [length repeat kplus]; f_equal; auto. Qed.
Lemma splits_head (k : key) : exists r, splits k = (repeat 0%nat (length k), k) :: r /\ forall i j, In (i, j) r -> i <> repeat 0%nat (length k).
Proof.
  assert (G : exists r, splits k = (repeat 0%nat (length k), k) :: r).
  { induction k as [|e k [r IH]]; cbn [splits length repeat]; [eexists; reflexivity|].
    change (seq 0 (S e)) with (0%nat :: seq 1 e). cbn [flat_map]. rewrite IH. cbn [map app fst snd]. rewrite Nat.sub_0_r. eexists. reflexivity. }
  destruct G as [r E]. exists r. split; auto. intros i j H ->. assert (N := splits_NoDup k).
  assert (Hj : j = k).
  { assert (H' : In (repeat 0%nat (length k), j) (splits k)) by (rewrite E; right; auto). apply splits_kplus in H'.
    destruct H' as (_ & L & E'). rewrite <- L in E'. rewrite kplus_zeros in E'. exact E'. }
  subst j. rewrite E in N. inversion N; subst. contradiction.
Qed.
Lemma stored_const (c : double) n W k : NoDup W -> length k = length W ->
  stored (gconst_ord c n) W k = if Nat.eqb (list_sum k) 0 then kept c else None.
Proof.
  intros HW Hk. unfold stored, gconst_ord, pconst. cbn [gp psyms pterms add_term]. unfold kept.
  destruct (keqb c k0); cbn [find].
  - destruct (Nat.eqb _ _); reflexivity.
  - cbn [fst snd]. replace (same_mono [] [] W k) with (Nat.eqb (list_sum k) 0); [destruct (Nat.eqb _ _); reflexivity|].
    apply eq_true_iff_eq. rewrite Nat.eqb_eq, same_mono_spec. change (list_sum k) with (kdeg k). split.
    + intros H s _. cbn [expo]. assert (G := expo_le_kdeg W k s). destruct W; cbn [expo] in *; lia.
    + intros H. rewrite (kdeg_ssum W k) by auto. apply ssum_zero. intros s Hs. rewrite <- H by auto. destruct W; reflexivity.
Qed.
Lemma list_sum_zeros n : list_sum (repeat 0%nat n) = 0%nat.
Proof. induction n; cbn; auto. Qed.
Lemma list_sum_0 (i : key) : list_sum i = 0%nat -> i = repeat 0%nat (length i).
Proof. apply kdeg_0_inv. Qed.
Lemma factors_const c n (g : gdual double) W k : NoDup W -> length k = length W ->
  factors (gconst_ord c n) g W k =
  match kept c, stored g W k with Some x, Some y => [(x, y)] | _, _ => [] end.
Proof.
  intros HW Hk. unfold factors. destruct (splits_head k) as (r & E & Hr). rewrite E. cbn [flat_map fst snd].
  rewrite stored_const by (auto; rewrite repeat_length; auto). rewrite list_sum_zeros. cbn [Nat.eqb].
  rewrite <- (app_nil_r (match kept c with Some _ => _ | None => _ end)) at 2. f_equal.
  assert (Hin : forall i j, In (i, j) r -> In (i, j) (splits k)) by (intros; rewrite E; right; auto).
  clear E. induction r as [|[i j] r IH]; cbn [flat_map fst snd]; auto.
  rewrite IH; [|intros x y Hx; apply (Hr x y); right; auto|intros x y Hx; apply Hin; right; auto]. rewrite app_nil_r.
  assert (L : length i = length k) by (apply (splits_kplus k i j), Hin; left; auto).
  rewrite stored_const by (auto; congruence). destruct (Nat.eqb_spec (list_sum i) 0) as [Z|Z]; auto.
  exfalso. apply (Hr i j); [left; auto|]. rewrite <- L. apply list_sum_0; auto.
Qed.
Lemma valid_const_ord_dbl (c : double) n : valid (gconst_ord c n).
Proof. apply valid_iff. split; [apply gconst_ord_gwf|]. unfold FunStruct.gnz. cbn [gconst_ord gp pconst pterms]. apply add_term_nz. constructor. Qed.
Lemma perm_nil_inv {A} (l : list A) : Permutation l [] -> l = [].
Proof. intros H. apply Permutation_nil. symmetry. exact H. Qed.
Lemma perm_one_inv {A} (l : list A) x : Permutation l [x] -> l = [x].
Proof. intros H. apply Permutation_length_1_inv. symmetry. exact H. Qed.
Lemma stored_degree (g : gdual double) W k y : valid g -> NoDup W -> length k = length W -> stored g W k = Some y -> (list_sum k <= gord g)%nat.
Proof.
  intros [Hs Hl Hd _ Ho] HW Hk H. unfold stored in H. destruct (find _ _) as [t|] eqn:E; [|discriminate].
  apply find_some in E. destruct E as [E1 E2]. rewrite same_mono_spec in E2.
  replace (list_sum k) with (list_sum (fst t)); auto. apply (kdeg_same (psyms (gp g)) (fst t) W k); auto. apply ssorted_NoDup; auto.
Qed.
Lemma stored_scale c (g : gdual double) W k : valid g -> NoDup W -> length k = length W ->
  stored (gmul_sg c g) W k = match kept c, stored g W k with Some x, Some y => kept (Bmult mode_NE x y) | _, _ => None end.
Proof.
  intros Vg HW Hk. unfold gmul_sg.
  destruct (stored_mul (gconst_ord c (gord g)) g W k (valid_const_ord_dbl _ _) Vg HW Hk) as (l & Hp & E).
  rewrite factors_const in Hp by auto. rewrite E. clear E. cbn [gconst_ord get_order gord]. rewrite Nat.max_id.
  assert (Hd : forall y, stored g W k = Some y -> (list_sum k <= gord g)%nat).
  { intros y Hy. eapply stored_degree; eauto. }
  destruct (kept c) as [x|] eqn:Ec; [destruct (stored g W k) as [y|] eqn:Ey|].
  - apply perm_one_inv in Hp. subst l. specialize (Hd y eq_refl). unfold get_order.
    destruct (Nat.leb_spec (list_sum k) (gord g)); [reflexivity|lia].
  - apply perm_nil_inv in Hp. subst l. destruct (Nat.leb _ _); reflexivity.
  - apply perm_nil_inv in Hp. subst l. destruct (Nat.leb _ _); reflexivity.
Qed.
Theorem scale_rounding c (g : gdual double) W k : valid g -> NoDup W -> length k = length W -> is_finite c = true ->
  cf_finite (gmul_sg c g) W k -> cf (gmul_sg c g) W k = rnd (B2R c * cf g W k).
Proof.
  intros Vg HW Hk Fc. unfold cf_finite, cf. rewrite stored_scale by auto. assert (Hc := kept_spec c).
  destruct (kept c) as [x|]; [subst x|].
  - destruct (stored g W k) as [y|].
    + change (match kept (Bmult mode_NE c y) with Some c => is_finite c = true | None => True end) with (fin (kept (Bmult mode_NE c y))).
      change (match kept (Bmult mode_NE c y) with Some c => B2R c | None => 0 end) with (val (kept (Bmult mode_NE c y))).
      rewrite kept_fin, kept_val. intros H. apply mult_fin; auto.
    + intros _. rewrite Rmult_0_r, rnd_0. reflexivity.
  - intros _. destruct Hc as [_ ->]. rewrite Rmult_0_l, rnd_0. reflexivity.
Qed.

(** *** Whole numbers as doubles *)
Lemma ofZ_exact z : (Z.abs z <= 2 ^ 53)%Z -> is_finite (kofZ z : double) = true /\ B2R (kofZ z : double) = IZR z.
Proof.
  intros H. cbn [kofZ OpsB64]. assert (C := binary_normalize_correct 53 1024 prec53 prec53_lt mode_NE z 0 false).
  cbn zeta in C. assert (E : F2R (Float radix2 z 0) = IZR z) by (unfold F2R; cbn [Defs.Fnum Defs.Fexp bpow]; apply Rmult_1_r).
  rewrite E in C. rewrite rnd_eq, rnd_id in C by (apply int_format; auto). rewrite Rlt_bool_true in C by (apply int_small; auto). tauto.
Qed.
Lemma kofnat_exact n : (Z.of_nat n <= 2 ^ 53)%Z -> is_finite (kofnat n : double) = true /\ B2R (kofnat n : double) = INR n.
Proof. intros H. unfold kofnat. rewrite INR_IZR_INZ. apply ofZ_exact. lia. Qed.

Theorem partial_rounding (g r : gdual double) s W k : valid g -> gpartial g s = Ok r -> NoDup W -> length k = length W -> In (dsym s) W ->
  (Z.of_nat (S (expo W k (dsym s))) <= 2 ^ 53)%Z -> cf_finite r W k ->
  cf r W k = rnd (INR (S (expo W k (dsym s))) * cf g W (incr W k (dsym s))).
Proof.
  intros Vg E HW Hk HS He. unfold cf_finite, cf. rewrite (stored_partial g r s W k Vg E HW Hk HS).
  destruct (kofnat_exact _ He) as [Fe Ee]. set (e := S (expo W k (dsym s))) in *.
  destruct (stored g W _) as [c|].
  - change (match kept (kmul c (kofnat e)) with Some c => is_finite c = true | None => True end) with (fin (kept (Bmult mode_NE c (kofnat e)))).
    change (match kept (kmul c (kofnat e)) with Some c => B2R c | None => 0 end) with (val (kept (Bmult mode_NE c (kofnat e)))).
    rewrite kept_fin, kept_val. intros H. apply mult_fin in H. destruct H as (_ & _ & ->). rewrite Ee, Rmult_comm. reflexivity.
  - intros _. rewrite Rmult_0_r, rnd_0. reflexivity.
Qed.
Theorem integrate_rounding (g r : gdual double) s W k : valid g -> gintegrate g s = Ok r -> (Z.of_nat (get_order g) < 2 ^ 31)%Z ->
  NoDup W -> length k = length W -> In (dsym s) W -> (list_sum k < get_order g)%nat -> cf_finite r W (incr W k (dsym s)) ->
  cf r W (incr W k (dsym s)) = rnd (cf g W k / INR (S (expo W k (dsym s)))).
Proof.
  intros Vg E Ho HW Hk HS Hd. unfold cf_finite, cf. rewrite (stored_integrate g r s W k Vg E Ho HW Hk HS).
  destruct (Nat.ltb_spec (list_sum k) (get_order g)); [|lia].
  assert (He : (Z.of_nat (S (expo W k (dsym s))) <= 2 ^ 53)%Z).
  { assert (L := expo_le_kdeg W k (dsym s)). change (kdeg k) with (list_sum k) in L.
    assert (2 ^ 31 <= 2 ^ 53)%Z by (apply Z.pow_le_mono_r; lia). lia. }
  destruct (kofnat_exact _ He) as [Fe Ee]. set (e := S (expo W k (dsym s))) in *.
  destruct (stored g W k) as [c|].
  - change (match kept (kdiv c (kofnat e)) with Some c => is_finite c = true | None => True end) with (fin (kept (Bdiv mode_NE c (kofnat e)))).
    change (match kept (kdiv c (kofnat e)) with Some c => B2R c | None => 0 end) with (val (kept (Bdiv mode_NE c (kofnat e)))).
    rewrite kept_fin, kept_val. intros H'. rewrite div_fin; auto; [rewrite Ee; reflexivity|].
    rewrite Ee. apply not_0_INR. discriminate.
  - intros _. unfold Rdiv. rewrite Rmult_0_l, rnd_0. reflexivity.
Qed.

(** *** The scalar on the right, division by a scalar *)
Definition swap {A B} (p : A * B) : B * A := (snd p, fst p).
Lemma splits_swap (k : key) : Permutation (splits k) (map swap (splits k)).
Proof.
  assert (N := splits_NoDup k). apply NoDup_Permutation; auto.
  - apply FinFun.Injective_map_NoDup; auto. intros [a b] [c d] E. unfold swap in E. cbn [fst snd] in E. congruence.
  - assert (C : forall a b : key, kplus a b = kplus b a).
    { induction a as [|x a IH]; intros [|y b]; cbn [kplus]; auto. rewrite IH. f_equal. lia. }
    intros [i j]. rewrite in_map_iff. rewrite splits_kplus. split.
    + intros (H1 & H2 & H3). exists (j, i). split; auto. apply splits_kplus. rewrite C. auto.
    + intros ([a b] & E & H). unfold swap in E. cbn [fst snd] in E. injection E as -> ->. apply splits_kplus in H. rewrite C. tauto.
Qed.
Lemma factors_swap (a b : gdual double) W k : Permutation (factors a b W k) (map swap (factors b a W k)).
Proof.
  unfold factors. rewrite (splits_swap k) at 1. induction (splits k) as [|[i j] l IH]; cbn [map flat_map fst snd swap]; auto.
  rewrite map_app. apply Permutation_app; auto. cbn [fst snd]. destruct (stored a W j), (stored b W i); cbn; auto.
Qed.
Lemma stored_scale_r c (g : gdual double) W k : valid g -> NoDup W -> length k = length W ->
  stored (gmul_gs g c) W k = match kept c, stored g W k with Some x, Some y => kept (Bmult mode_NE y x) | _, _ => None end.
Proof.
  intros Vg HW Hk. unfold gmul_gs.
  destruct (stored_mul g (gconst_ord c (gord g)) W k Vg (valid_const_ord_dbl _ _) HW Hk) as (l & Hp & E).
  rewrite factors_swap in Hp. rewrite factors_const in Hp by auto. rewrite E. clear E. cbn [gconst_ord get_order gord]. rewrite Nat.max_id.
  assert (Hd : forall y, stored g W k = Some y -> (list_sum k <= gord g)%nat).
  { intros y Hy. eapply stored_degree; eauto. }
  destruct (kept c) as [x|] eqn:Ec; [destruct (stored g W k) as [y|] eqn:Ey|]; cbn [map swap fst snd] in Hp.
  - apply perm_one_inv in Hp. subst l. specialize (Hd y eq_refl). unfold get_order.
    destruct (Nat.leb_spec (list_sum k) (gord g)); [reflexivity|lia].
  - apply perm_nil_inv in Hp. subst l. destruct (Nat.leb _ _); reflexivity.
  - apply perm_nil_inv in Hp. subst l. destruct (Nat.leb _ _); reflexivity.
Qed.
Theorem scale_r_rounding c (g : gdual double) W k : valid g -> NoDup W -> length k = length W -> is_finite c = true ->
  cf_finite (gmul_gs g c) W k -> cf (gmul_gs g c) W k = rnd (cf g W k * B2R c).
Proof.
  intros Vg HW Hk Fc. unfold cf_finite, cf. rewrite stored_scale_r by auto. assert (Hc := kept_spec c).
  destruct (kept c) as [x|]; [subst x|].
  - destruct (stored g W k) as [y|].
    + change (match kept (Bmult mode_NE y c) with Some c => is_finite c = true | None => True end) with (fin (kept (Bmult mode_NE y c))).
      change (match kept (Bmult mode_NE y c) with Some c => B2R c | None => 0 end) with (val (kept (Bmult mode_NE y c))).
      rewrite kept_fin, kept_val. intros H. apply mult_fin; auto.
    + intros _. rewrite Rmult_0_l, rnd_0. reflexivity.
  - intros _. destruct Hc as [_ ->]. rewrite Rmult_0_r, rnd_0. reflexivity.
Qed.
Theorem div_rounding c (g : gdual double) W k : valid g -> NoDup W -> length k = length W -> B2R c <> 0 ->
  is_finite (kdiv k1 c) = true -> cf_finite (gdiv_gs g c) W k -> cf (gdiv_gs g c) W k = rnd (cf g W k * rnd (1 / B2R c)).
Proof.
  intros Vg HW Hk Hc Fc H. unfold gdiv_gs in *. rewrite scale_r_rounding by auto. f_equal. f_equal.
  change (B2R (Bdiv mode_NE Bone c) = rnd (1 / B2R c)). rewrite div_fin by auto. rewrite Bone_correct. reflexivity.
Qed.
