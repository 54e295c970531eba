(** * Functions of models that are not simple, at every order (proof file) *)
From Coq Require Import String List Arith Bool ZArith Reals Permutation Lra Lia FunctionalExtensionality.
From Coquelicot Require Import Coquelicot.
From Verif Require Import Ops Syms SymsFacts Poly PolyFacts Gdual GdualFacts Functions FunStruct Bounding SpecBounding BoundSamples Spec SpecTaylor CoefFacts CoreProofs CalcProofs ValueProofs MiscProofs ElemR FunAlg TayProofs Uni UniFun Interval TaylorModel TMFunctions SpecTM TMMaps TMArith TMMul Lagrange TMTaylor TMBounds TMPow TMMisc TMSamples TMFlat TMRefute TMExact TMRefute2 TMInst TMGlue TMRefute5.
From Verif Require Import Sem Den.
Import ListNotations.
Local Open Scope string_scope.
Local Open Scope list_scope.
Local Open Scope R_scope.

(** ** Intervals by the size of their bounds *)
Definition small (I : R * R) (b : R) : Prop := Rabs (fst I) <= b /\ Rabs (snd I) <= b.
Lemma Rmin_abs a b c : Rabs a <= c -> Rabs b <= c -> Rabs (Rmin a b) <= c.
Proof. intros. unfold Rmin. destruct (Rle_dec a b); auto. Qed.
Lemma Rmax_abs a b c : Rabs a <= c -> Rabs b <= c -> Rabs (Rmax a b) <= c.
Proof. intros. unfold Rmax. destruct (Rle_dec a b); auto. Qed.
Lemma abs_mult_le a b x y : Rabs a <= x -> Rabs b <= y -> Rabs (a * b) <= x * y.
Proof. intros. rewrite Rabs_mult. apply Rmult_le_compat; auto using Rabs_pos. Qed.
Lemma small_imul I J a b : small I a -> small J b -> small (imul I J) (a * b).
Proof.
  destruct I as [i1 i2], J as [j1 j2]. intros [A1 A2] [B1 B2]. cbn [fst snd] in *. rewrite imul_R. split; cbn [fst snd];
  [apply Rmin_abs; apply Rmin_abs|apply Rmax_abs; apply Rmax_abs]; apply abs_mult_le; auto.
Qed.
Lemma small_ipt v : small (ipt v) (Rabs v).
Proof. split; cbn; lra. Qed.
Lemma small_ipt' v b : Rabs v <= b -> small (ipt v) b.
Proof. split; cbn; lra. Qed.
Lemma small_le I a b : small I a -> a <= b -> small I b.
Proof. unfold small. lra. Qed.
Lemma small_ineg I b : small I b -> small (ineg I) b.
Proof. intros [A B]. split; cbn; rewrite Rabs_Ropp; auto. Qed.
Lemma small_ipow I b m : small I b -> small (ipow I m) (b ^ m).
Proof.
  intros [A B]. assert (P : forall v, Rabs v <= b -> Rabs (v ^ m) <= b ^ m) by (intros v H; rewrite <- RPow_abs; apply pow_incr; split; auto using Rabs_pos).
  assert (B0 : 0 <= b) by (assert (X := Rabs_pos (fst I)); lra).
  unfold ipow. rewrite !kpow_pow. destruct (Nat.even m); [|split; cbn [fst snd]; auto].
  destruct (negb _); [split; cbn [fst snd]; auto|]. destruct (negb _); split; cbn [fst snd]; auto.
  - change (@k0 R OpsR) with 0. rewrite Rabs_R0. apply pow_le; auto.
  - rewrite kmax_Rmax. apply Rmax_abs; auto.
Qed.
Lemma imul_pos a b c d : 0 <= a <= b -> 0 <= c <= d -> imul (a, b) (c, d) = (a * c, b * d).
Proof.
  intros H1 H2. rewrite imul_R. assert (a * c <= a * d) by (apply Rmult_le_compat_l; lra). assert (b * c <= b * d) by (apply Rmult_le_compat_l; lra).
  assert (a * c <= b * c) by (apply Rmult_le_compat_r; lra). assert (a * d <= b * d) by (apply Rmult_le_compat_r; lra).
  rewrite (Rmin_left (a * c)), (Rmin_left (b * c)), (Rmax_right (a * c)), (Rmax_right (b * c)), Rmin_left, Rmax_right by lra. reflexivity.
Qed.
Lemma zero_in_pos I : 0 < fst I -> zero_in I = false.
Proof.
  intros H. unfold zero_in. change (@k0 R OpsR) with 0. change (@kltb R OpsR) with Rltb. unfold Rltb at 1. destruct (Rlt_dec 0 (fst I)); [reflexivity|lra].
Qed.
Lemma idiv_pos I J : 0 < fst J -> idiv I J = Ok (imul I (1 / snd J, 1 / fst J)).
Proof. intros H. unfold idiv. rewrite zero_in_pos by auto. reflexivity. Qed.
Lemma idiv_small I J a l : small I a -> 0 < l <= fst J -> fst J <= snd J -> exists Q, idiv I J = Ok Q /\ small Q (a * / l).
Proof.
  intros H HJ HJ'. eexists. split; [apply idiv_pos; lra|]. apply small_imul; auto.
  assert (P : forall v, l <= v -> Rabs (1 / v) <= / l).
  { intros v Hv. unfold Rdiv. rewrite Rmult_1_l, Rabs_right by (apply Rle_ge, Rlt_le, Rinv_0_lt_compat; lra). apply Rinv_le_contravar; lra. }
  split; cbn [fst snd]; apply P; lra.
Qed.

(** ** Models and points at which the polynomial of the result is known: the
    argument is c + H there, the bounds of f_bar are [0, h], and the polynomial
    of the result holds the powers of H up to N only. *)
Record probe (iter : list (string * (R * R)) -> list (string * (R * R))) (A : taylor_model R) (D : SpecTM.point -> Prop) (f : SpecTM.point -> R) (x0 : SpecTM.point)
    (N : nat) (c h H : R) : Prop := mkProbe {
  pr_rep : represents D A f;
  pr_in : D x0;
  pr_at : f x0 = c + H;
  pr_all : forall x, D x -> c <= f x;
  pr_cf : constant_cf (m_tpol A) = c;
  pr_F : f_bar_remainder_bounds iter A = Ok (0, h);
  pr_B : exists b, tm_bounds iter A = Ok b /\ iadd b (m_rem A) = (c, c + h);
  pr_val : forall r a, sto (gsyms (m_tpol A)) (gord (m_tpol A)) r ->
    seqv (Some (gord (m_tpol A))) (gden idR r) (psum a (gord (m_tpol A)) (ghat idR (m_tpol A))) ->
    value r (displacement (m_exp A) x0) = usum a N H;
  pr_n : (1 <= get_order (m_tpol A))%nat
}.
(** The first lost term is larger than the remainder. *)
Record gaps (h H : R) (N n : nat) : Prop := mkGaps {
  g_h : 0 < h <= 1 / 16;
  g_H : H = 1 / 16;
  g_N : (N <= n)%nat;
  g_fact : 32 * (h ^ (n + 1) / INR (fact (n + 1))) <= H ^ S N / INR (fact (S N));
  g_pow : 2 * h ^ (n + 1) < H ^ S N * / (17 / 16) ^ S N
}.
Lemma trimmed_made A p r : well_formed A -> valid p -> psyms (gp p) = psyms (gp (m_tpol A)) ->
  exists T, trimmed p r A = Ok T /\ m_rem T = r /\ m_tpol T = p /\
    forall x, value p (displacement (m_exp T) x) = value p (displacement (m_exp A) x).
Proof.
  intros WA Vp Hs. assert (Np : d_names p) by (unfold d_names; rewrite Hs; apply WA).
  assert (Sp : forall s, In s (psyms (gp p)) -> In s (psyms (gp (m_tpol A))) \/ In s (psyms (gp (m_tpol A)))) by (intros s; rewrite Hs; auto).
  assert (X := trim_spec (get_symbol_set p) (m_exp A) (wf_exp _ WA)). assert (Y := trim_spec (get_symbol_set p) (m_domain A) (wf_dom _ WA)).
  assert (Kp : forall s, In s (get_symbol_set p) <-> In (dsym s) (psyms (gp (m_tpol A)))) by (intros s; rewrite In_get_symbol_set, Hs; tauto).
  unfold trimmed. destruct (trim_map _ (m_exp A)) as [ne|x]; [|exfalso].
  2:{ destruct X as (_ & s & Hi & Hn). apply Hn. rewrite (wf_exp_keys _ WA). apply Kp; auto. }
  destruct (trim_map _ (m_domain A)) as [nd|x]; [|exfalso].
  2:{ destruct Y as (_ & s & Hi & Hn). apply Hn. rewrite (wf_dom_keys _ WA). apply Kp; auto. }
  destruct X as (N1 & _ & X), Y as (N2 & _ & Y).
  assert (M : merged A A p ne nd).
  { constructor; auto; intros s v; [rewrite X|rewrite Y]; rewrite (In_get_symbol_set p s Np); tauto. }
  cbn [rbind]. destruct (merged_make A A p ne nd WA WA Vp Np Sp M r) as (T & E & ET & WT). exists T. split; auto. subst T. cbn [m_domain m_rem m_tpol m_exp].
  split; auto. split; auto. intros x. apply (merged_value_l A A p ne nd WA Np M p). intros s; rewrite Hs; auto.
Qed.

(** ** Sizes of derivatives *)
Lemma trig_abs i x : (Rabs (sin_d i x) = Rabs (sin x) /\ Rabs (cos_d i x) = Rabs (cos x)) \/ (Rabs (sin_d i x) = Rabs (cos x) /\ Rabs (cos_d i x) = Rabs (sin x)).
Proof.
  unfold sin_d, cos_d. induction i; [left; auto|]. cbn [trig_d fst snd]. rewrite Rabs_Ropp. destruct IHi as [[A B]|[A B]]; auto.
Qed.
Lemma hyp_abs i x : (sinh_d i x = sinh x /\ cosh_d i x = cosh x) \/ (sinh_d i x = cosh x /\ cosh_d i x = sinh x).
Proof.
  unfold sinh_d, cosh_d. induction i; [left; auto|]. cbn [hyp_d fst snd]. destruct IHi as [[A B]|[A B]]; auto.
Qed.
Lemma sin_cos_half x : 3 / 4 <= x <= 13 / 16 -> 1 / 2 <= Rabs (sin x) /\ 1 / 2 <= Rabs (cos x).
Proof.
  intros H. assert (P4 := PI_4). assert (P3 := PI2_3_2). split.
  - rewrite <- sin_PI6. rewrite Rabs_right; [apply sin_incr_1; lra|]. apply Rle_ge, sin_ge_0; lra.
  - rewrite <- cos_PI3. rewrite Rabs_right; [apply cos_decr_1; lra|]. apply Rle_ge, cos_ge_0; lra.
Qed.
Lemma sinh_cosh_half x : 3 / 4 <= x -> 1 / 2 <= sinh x /\ 1 / 2 <= cosh x.
Proof.
  intros H. assert (A := exp_ineq1_le x). assert (B : exp (- x) <= 1) by (rewrite <- exp_0; apply TMInst.exp_le; lra). assert (C := exp_pos (- x)).
  unfold sinh, cosh. split; [|lra]. assert (E : exp (- x) <= 4 / 7).
  { rewrite exp_Ropp. replace (4 / 7) with (/ (7 / 4)) by field. apply Rinv_le_contravar; lra. }
  lra.
Qed.

(** ** Powers *)
Lemma pow17 N n : (2 * N <= n)%nat -> (1 <= n)%nat -> 2 * 17 ^ S N < 16 ^ (n + 1).
Proof.
  intros H1 H2. assert (X : forall a b, (a <= b)%nat -> 16 ^ a <= 16 ^ b) by (intros; apply Rle_pow; lra || lia).
  destruct N as [|j].
  - assert (Y := X 2%nat (n + 1)%nat ltac:(lia)). lra.
  - assert (Y := X (3 + 2 * j)%nat (n + 1)%nat ltac:(lia)). rewrite pow_add, pow_mult in Y.
    assert (Z : 17 ^ j <= (16 ^ 2) ^ j) by (apply pow_incr; lra). assert (Z0 : 0 < 17 ^ j) by (apply pow_lt; lra). cbn [pow] in *. nra.
Qed.
Lemma ipow_up I m : 0 <= fst I -> fst I <= snd I -> ipow I m = (fst I ^ m, snd I ^ m).
Proof.
  intros H1 H2. unfold ipow. rewrite !kpow_pow. change (@k0 R OpsR) with 0. change (@kltb R OpsR) with Rltb. unfold Rltb at 1.
  destruct (Rlt_dec (fst I) 0); [lra|]. destruct (Nat.even m); reflexivity.
Qed.
Lemma ipow_ge1 I m : 1 <= fst I -> fst I <= snd I -> 1 <= fst (ipow I m) /\ fst (ipow I m) <= snd (ipow I m).
Proof.
  intros H1 H2. rewrite ipow_up by lra. cbn [fst snd]. split; [apply pow_R1_Rle; lra|apply pow_incr; lra].
Qed.
Lemma idiv_one I a : small I a -> exists Q, idiv I (ipt 1) = Ok Q /\ small Q a.
Proof. intros H. destruct (idiv_small I (ipt 1) a 1 H) as (Q & E & S); [cbn; lra|cbn; lra|]. exists Q. split; auto. eapply small_le; [exact S|]. lra. Qed.
Lemma idiv_up h : 0 <= h -> idiv (0, h) (ipt 1) = Ok (0, h).
Proof.
  intros H. rewrite idiv_pos by (cbn; lra). f_equal. cbn [ipt fst snd]. rewrite imul_pos by lra. f_equal; field.
Qed.
Lemma gdiv_psum (g : gdual R) v : gwf g -> constant_cf g <> 0 ->
  seqv (Some (gord g)) (gden idR (gdiv_sg v g)) (psum (fun i => v * (inv_d i (constant_cf g) / INR (fact i))) (gord g) (ghat idR g)).
Proof.
  intros Wg Hc. destruct (grecip_gwf g Wg) as [Wr Or]. unfold gdiv_sg. set (c := constant_cf g) in *.
  rewrite (gden_div_gs idR (Some (gord g)) c) by (apply gmul_sg_gwf; auto).
  rewrite (gden_mul_sg idR (Some (gord g)) v) by auto.
  rewrite (gden_grecip idR (gord g) g Wg (le_n _)) by exact Hc.
  rewrite (psum_trunc alt (gord g)); [|apply vanish_scale, ghat_vanish|lia].
  rewrite (psum_arg (Some (gord g))).
  rewrite <- (psum_scale (Some (gord g)) v), <- (psum_scale (Some (gord g)) (1 / c)%K).
  rewrite (psum_ext _ (fun i => v * (inv_d i c / INR (fact i)))); [reflexivity|].
  intros i _. toR. unfold inv_d. cbn [pow]. unfold Rdiv. fold c. rewrite Rmult_1_l, pow_inv.
  assert (P : c ^ i <> 0) by (apply pow_nonzero; auto). field. split; [apply INR_fact_neq_0|auto].
Qed.
Lemma logc_d c i : c <> 0 -> logc c i = ln_d i c / INR (fact i).
Proof.
  intros Hc. destruct i; cbn [logc ln_d].
  - change (e_log c) with (ln c). cbn [fact]. change (INR 1) with 1. field.
  - toR. unfold inv_d. rewrite fact_simpl, mult_INR. field. repeat split; auto using INR_fact_neq_0. apply pow_nonzero; auto. apply not_0_INR; lia.
Qed.
Lemma abs_sign i : Rabs ((-1) ^ i) = 1.
Proof. rewrite <- RPow_abs. replace (Rabs (-1)) with 1 by (rewrite Rabs_left; lra). apply pow1. Qed.
Lemma inv_abs i x : 0 < x -> Rabs (inv_d i x) = INR (fact i) / x ^ S i.
Proof.
  intros H. unfold inv_d, Rdiv. rewrite !Rabs_mult, abs_sign, Rmult_1_l. assert (X := INR_fact_lt_0 i). assert (Y : 0 < x ^ S i) by (apply pow_lt; auto).
  rewrite (Rabs_right (INR _)) by lra. rewrite Rabs_right; auto. apply Rle_ge, Rlt_le, Rinv_0_lt_compat; auto.
Qed.
Lemma inv_pow_le x m : 1 <= x <= 17 / 16 -> / (17 / 16) ^ m <= / x ^ m.
Proof. intros H. apply Rinv_le_contravar; [apply pow_lt; lra|]. apply pow_incr; lra. Qed.
(** |binomial(1/2, k)| *)
Definition bin_half (k : nat) : R := Rabs (root_c k) / INR (fact k).
Lemma bin_half_pos k : 0 < bin_half k.
Proof.
  apply Rdiv_lt_0_compat; [|apply INR_fact_lt_0]. induction k; cbn [root_c]; [rewrite Rabs_R1; lra|]. rewrite Rabs_mult. apply Rmult_lt_0_compat; auto.
  apply Rabs_pos_lt. destruct k; [cbn; lra|]. rewrite S_INR. assert (X := pos_INR k). lra.
Qed.
Lemma bin_half_S k : bin_half (S k) <= bin_half k.
Proof.
  assert (P := bin_half_pos k). unfold bin_half in *. cbn [root_c]. rewrite Rabs_mult, fact_simpl, mult_INR. assert (F := INR_fact_lt_0 k). assert (K := pos_INR k). rewrite S_INR.
  replace (Rabs (root_c k) * Rabs (1 / 2 - INR k) / ((INR k + 1) * INR (fact k))) with (Rabs (root_c k) / INR (fact k) * (Rabs (1 / 2 - INR k) / (INR k + 1))) by (field; lra).
  rewrite <- (Rmult_1_r (Rabs (root_c k) / INR (fact k))) at 2. apply Rmult_le_compat_l; [lra|]. apply (Rmult_le_reg_r (INR k + 1)); [lra|].
  unfold Rdiv. rewrite Rmult_assoc, Rinv_l, Rmult_1_r, Rmult_1_l by lra. apply Rabs_le. lra.
Qed.
Lemma bin_half_le a b : (a <= b)%nat -> bin_half b <= bin_half a.
Proof. induction 1; [lra|]. eapply Rle_trans; [apply bin_half_S|auto]. Qed.

(** Lagrange at degree N. *)
Lemma rest N c h (d : nat -> R -> R) (Dm : R -> Prop) m : 0 < h -> (forall i x, Dm x -> is_derive (d i) x (d (S i) x)) -> (forall x, c <= x <= c + h -> Dm x) ->
  (forall x, c <= x <= c + h -> m <= Rabs (d (S N) x)) -> 
  m * (h ^ S N / INR (fact (S N))) <= Rabs (d O (c + h) - usum (fun i => d i c / INR (fact i)) N h).
Proof.
  intros Hh Hd HD Hm. destruct (lagrange d c h N) as (th & Ht & E); [intros i t Ht; apply Hd, HD; nra|]. rewrite E.
  match goal with |- _ <= Rabs (?a + ?b - ?a') => replace (a + b - a') with b by ring end.
  assert (X := Hm (c + th * h) ltac:(nra)). assert (Fp := INR_fact_lt_0 (S N)). assert (Hp : 0 < h ^ S N) by (apply pow_lt; lra).
  assert (Z : 0 < h ^ S N / INR (fact (S N))) by (apply Rdiv_lt_0_compat; auto).
  match goal with |- _ <= Rabs ?b => replace b with (d (S N) (c + th * h) * (h ^ S N / INR (fact (S N)))) by (unfold Rdiv; ring) end.
  rewrite Rabs_mult, (Rabs_right (h ^ S N / _)) by lra. apply Rmult_le_compat_r; lra.
Qed.


(** The gap between the orders N and n *)
Lemma gaps_half N n : (2 * N <= n)%nat -> (1 <= n)%nat -> gaps (1 / 16) (1 / 16) N n.
Proof.
  intros HN Hn. set (h := 1 / 16). assert (Hh : h = 1 / 16) by reflexivity. constructor; try lra; try lia.
  - assert (Fp := INR_fact_lt_0 (S N)). assert (Fq := INR_fact_lt_0 (n + 1)). assert (Hp : 0 < h ^ S N) by (apply pow_lt; lra).
    assert (F2 : 2 * INR (fact (S N)) <= INR (fact (n + 1))).
    { replace 2 with (INR 2) by reflexivity. rewrite <- mult_INR. apply le_INR.
      assert (L := fact_le (S (S N)) (n + 1) ltac:(lia)). rewrite (fact_simpl (S N)) in L. nia. }
    assert (H2 : h ^ (n + 1) <= h ^ S N * (1 / 16)).
    { replace (n + 1)%nat with (S N + (1 + (n - N - 1)))%nat by lia. rewrite pow_add. apply Rmult_le_compat_l; [lra|]. rewrite pow_add, pow_1.
      assert (X : h ^ (n - N - 1) <= 1) by (rewrite <- (pow1 (n - N - 1)); apply pow_incr; lra).
      assert (Y : 0 <= h ^ (n - N - 1)) by (apply pow_le; lra). nra. }
    assert (I2 : / INR (fact (n + 1)) <= / INR (fact (S N)) * / 2).
    { rewrite <- Rinv_mult. apply Rinv_le_contravar; lra. }
    assert (Ip : 0 < / INR (fact (S N))) by (apply Rinv_0_lt_compat; auto). assert (Iq : 0 < / INR (fact (n + 1))) by (apply Rinv_0_lt_compat; auto).
    assert (X : h ^ (n + 1) * / INR (fact (n + 1)) <= h ^ S N * (1 / 16) * (/ INR (fact (S N)) * / 2)).
    { apply Rmult_le_compat; auto; [apply pow_le; lra|lra]. }
    unfold Rdiv at 1 2. lra.
  - assert (HP : forall m, h ^ m = / 16 ^ m) by (intros; unfold h, Rdiv; rewrite Rmult_1_l; apply pow_inv).
    rewrite !HP, <- Rinv_mult, <- Rpow_mult_distr. replace (16 * (17 / 16)) with 17 by field. assert (P17 := pow17 _ _ HN Hn).
    assert (X : 0 < 17 ^ S N) by (apply pow_lt; lra). assert (Y : 0 < 16 ^ (n + 1)) by (apply pow_lt; lra).
    apply (Rmult_lt_reg_r (16 ^ (n + 1))); auto. rewrite Rmult_assoc, Rinv_l, Rmult_1_r by lra.
    apply (Rmult_lt_reg_l (17 ^ S N)); auto. rewrite <- Rmult_assoc, Rinv_r by lra. lra.
Qed.
(** The gap left by bounds that are too small *)
Lemma gaps_swap n : (1 <= n)%nat -> gaps (1 / 128) (1 / 16) n n.
Proof.
  intros Hn. constructor; try lra; try lia.
  - rewrite Nat.add_1_r. assert (Fp := INR_fact_lt_0 (S n)). replace (1 / 128) with (1 / 16 * (1 / 8)) by field. rewrite Rpow_mult_distr.
    assert (X : (1 / 8) ^ S n <= 1 / 64).
    { replace (S n) with (2 + (n - 1))%nat by lia. rewrite pow_add. assert (Y : (1 / 8) ^ (n - 1) <= 1) by (apply (Rle_trans _ (1 ^ (n - 1))); [apply pow_incr; lra|rewrite pow1; lra]). cbn [pow] in *. lra. }
    assert (Z : 0 < (1 / 16) ^ S n / INR (fact (S n))) by (apply Rdiv_lt_0_compat; auto; apply pow_lt; lra).
    replace ((1 / 16) ^ S n * (1 / 8) ^ S n / INR (fact (S n))) with ((1 / 16) ^ S n / INR (fact (S n)) * (1 / 8) ^ S n) by (unfold Rdiv; ring). nra.
  - rewrite Nat.add_1_r, <- pow_inv, <- Rpow_mult_distr. replace (1 / 16 * / (17 / 16)) with (/ 17) by field. replace (1 / 128) with (/ 17 * (17 / 128)) by field.
    rewrite Rpow_mult_distr. assert (Z : 0 < (/ 17) ^ S n) by (apply pow_lt; lra).
    assert (X : (17 / 128) ^ S n <= 17 / 128).
    { cbn [pow]. assert (Y : (17 / 128) ^ n <= 1) by (rewrite <- (pow1 n); apply pow_incr; lra). lra. }
    nra.
Qed.

Section Probe.
  Variables (iter : list (string * (R * R)) -> list (string * (R * R))) (A : taylor_model R) (D : SpecTM.point -> Prop) (f : SpecTM.point -> R) (x0 : SpecTM.point)
    (N : nat) (c h H : R).
  Hypothesis P : probe iter A D f x0 N c h H.
  Hypothesis GP : gaps h H N (get_order (m_tpol A)).
  Let Hh : 0 < h <= 1 / 16 := g_h _ _ _ _ GP.
  Let HH : H = 1 / 16 := g_H _ _ _ _ GP.
  Let HNn : (N <= get_order (m_tpol A))%nat := g_N _ _ _ _ GP.
  Notation g := (m_tpol A).
  Notation n := (get_order (m_tpol A)).
  Let W : well_formed A := proj1 (pr_rep _ _ _ _ _ _ _ _ _ P).
  Let V : valid g := wf_poly _ W.
  Let Wg : gwf g := valid_gwf _ V.
  Let Ng : gnz g := proj2 (proj1 (valid_iff g) V).
  Let S0 := sto_self g Wg Ng.

  Lemma beyond T r Q a (F : R -> R) q : m_rem T = Q -> m_tpol T = r -> value r (displacement (m_exp T) x0) = value r (displacement (m_exp A) x0) ->
    sto (gsyms g) (gord g) r ->
    seqv (Some (gord g)) (gden idR r) (psum a (gord g) (ghat idR g)) -> small Q q -> q < Rabs (F (c + H) - usum a N H) ->
    ~ encloses D T (fun x => F (f x)).
  Proof using P.
    intros E1 E2 E3 S E [Q1 Q2] L C. destruct (C x0 (pr_in _ _ _ _ _ _ _ _ _ P)) as [_ [L1 L2]].
    rewrite E2, E3, (pr_val _ _ _ _ _ _ _ _ _ P r a S E), (pr_at _ _ _ _ _ _ _ _ _ P), E1 in L1, L2.
    revert L. apply Rle_not_lt. apply Rabs_le. unfold Rabs in Q1, Q2. destruct (Rcase_abs (fst Q)), (Rcase_abs (snd Q)); lra.
  Qed.
  Lemma lost r Q a (F : R -> R) q : sto (gsyms g) (gord g) r ->
    seqv (Some (gord g)) (gden idR r) (psum a (gord g) (ghat idR g)) -> small Q q -> q < Rabs (F (c + H) - usum a N H) ->
    exists T, tm_make r Q (m_exp A) (m_domain A) = Ok T /\ ~ encloses D T (fun x => F (f x)).
  Proof using P.
    intros S E HQ L. destruct (same_make A r Q W) as (T & ET & XT & _); [eapply valid_sto; exact S|exact (sto_sym _ _ _ S)|].
    exists T. split; auto. apply (beyond T r Q a F q); auto; subst T; auto.
  Qed.
  Lemma lost_trimmed r Q a (F : R -> R) q : sto (gsyms g) (gord g) r ->
    seqv (Some (gord g)) (gden idR r) (psum a (gord g) (ghat idR g)) -> small Q q -> q < Rabs (F (c + H) - usum a N H) ->
    exists T, trimmed r Q A = Ok T /\ ~ encloses D T (fun x => F (f x)).
  Proof using P.
    intros S E HQ L. destruct (trimmed_made A r Q W) as (T & ET & E1 & E2 & E3); [eapply valid_sto; exact S|exact (sto_sym _ _ _ S)|].
    exists T. split; auto. apply (beyond T r Q a F q); auto.
  Qed.
  Lemma gap (B m : R) : 0 <= B -> B < 32 * m -> B * (h ^ (n + 1) / INR (fact (n + 1))) < m * (H ^ S N / INR (fact (S N))).
  Proof using GP.
    intros B0 Bm. assert (X := g_fact _ _ _ _ GP). assert (Z : 0 < H ^ S N / INR (fact (S N))) by (apply Rdiv_lt_0_compat; [apply pow_lt; lra|apply INR_fact_lt_0]). nra.
  Qed.
  Lemma small_F : small (ipow (0, h) (n + 1)) (h ^ (n + 1)).
  Proof using GP. apply small_ipow. split; cbn [fst snd]; rewrite Rabs_right; lra. Qed.
  Context {iv : IvFun R}.
  Hypothesis MV : iv_moderate iv.

  Lemma unit_F : imul (0, h) unit_interval = (0, h).
  Proof using GP.
    unfold unit_interval. change (@k0 R OpsR) with 0. change (@k1 R OpsR) with 1. rewrite imul_pos by lra. f_equal; ring.
  Qed.
  Lemma exp_lost : (Z.of_nat n <= 169)%Z -> exists T, tm_exp iter A = Ok T /\ ~ encloses D T (fun x => exp (f x)).
  Proof using P GP MV.
    intros Hk. unfold tm_exp. rewrite (pr_F _ _ _ _ _ _ _ _ _ P). cbn [rbind]. rewrite factorial_fits_le by exact Hk. rewrite (pr_cf _ _ _ _ _ _ _ _ _ P), unit_F.
    apply (lost _ _ (fun i => exp_d i c / INR (fact i)) exp (exp c * (1 / INR (fact (n + 1))) * h ^ (n + 1) * 8)).
    - apply sto_exp; auto.
    - rewrite (gexp_psum idR (gord g) g Wg (le_n _)), (pr_cf _ _ _ _ _ _ _ _ _ P).
      rewrite (psum_ext _ (fun i => exp_d i c / INR (fact i))); [reflexivity|]. intros i _. rewrite kfct_R. reflexivity.
    - apply small_imul; [apply small_imul; [|apply small_F]|apply (mod_exp _ MV); cbn [fst snd]; lra].
      rewrite kfact_R. apply small_ipt'. change (@e_exp R ElemR c * (1 / INR (fact (n + 1))))%K with (exp c * (1 / INR (fact (n + 1)))).
      rewrite Rabs_right; [lra|]. assert (X := exp_pos c). assert (Y := INR_fact_lt_0 (n + 1)). apply Rle_ge, Rlt_le. apply Rmult_lt_0_compat; auto. apply Rdiv_lt_0_compat; lra.
    - assert (X := exp_pos c). eapply Rlt_le_trans; [|apply (rest N c H exp_d (fun _ => True) (exp c) ltac:(lra)); auto].
      + replace (exp c * (1 / INR (fact (n + 1))) * h ^ (n + 1) * 8) with (8 * exp c * (h ^ (n + 1) / INR (fact (n + 1)))) by (unfold Rdiv; ring).
        apply gap; lra.
      + intros; apply exp_ds.
      + intros x Hx. unfold exp_d. rewrite Rabs_right by (apply Rle_ge, Rlt_le, exp_pos). destruct (Req_dec x c) as [->|]; [lra|]. left. apply exp_increasing. lra.
  Qed.

  Lemma trig_lost (d : nat -> R -> R) (G : gdual R) (ev od : R * R -> R * R) (neg : nat -> bool) : 0 <= c <= 15 / 16 -> (Z.of_nat n <= 169)%Z ->
    (forall i x, is_derive (d i) x (d (S i) x)) -> (forall I, 0 <= fst I -> fst I <= snd I -> snd I <= 1 -> small (ev I) 8 /\ small (od I) 8) ->
    (forall x, c <= x <= c + H -> 1 / 2 <= Rabs (d (S N) x)) ->
    sto (gsyms g) (gord g) G -> seqv (Some (gord g)) (gden idR G) (psum (fun i => d i c / INR (fact i)) (gord g) (ghat idR g)) ->
    exists T, tm_make G (trig_remainder ev od neg c (0, h) n) (m_exp A) (m_domain A) = Ok T /\ ~ encloses D T (fun x => d O (f x)).
  Proof using P GP.
    intros Hc Hk Hd HI Hm S E. apply (lost _ _ _ _ (1 / INR (fact (n + 1)) * 8 * h ^ (n + 1)) S E).
    - unfold trig_remainder. rewrite unit_F. apply small_imul; [apply small_imul|apply small_F].
      + rewrite kfact_R. apply small_ipt'. change (k1 / INR (fact (n + 1)))%K with (1 / INR (fact (n + 1))). rewrite Rabs_right; [lra|].
        assert (Y := INR_fact_lt_0 (n + 1)). apply Rle_ge, Rlt_le. apply Rdiv_lt_0_compat; lra.
      + destruct (HI (iadd (ipt c) (0, h))) as [H1 H2]; try (cbn; lra). destruct (neg n); [apply small_ineg|]; destruct (Nat.eqb _ _); auto.
    - eapply Rlt_le_trans; [|apply (rest N c H d (fun _ => True) (1 / 2) ltac:(lra)); auto].
      replace (1 / INR (fact (n + 1)) * 8 * h ^ (n + 1)) with (8 * (h ^ (n + 1) / INR (fact (n + 1)))) by (unfold Rdiv; ring). apply gap; lra.
  Qed.
  Hypothesis Hk : (Z.of_nat n <= 169)%Z.
  Hypothesis Hc : c = 3 / 4.
  Ltac start := rewrite (pr_F _ _ _ _ _ _ _ _ _ P); cbn [rbind]; rewrite factorial_fits_le by exact Hk; rewrite (pr_cf _ _ _ _ _ _ _ _ _ P).
  Lemma sin_lost : exists T, tm_sin iter A = Ok T /\ ~ encloses D T (fun x => sin (f x)).
  Proof using P GP MV Hk Hc.
    unfold tm_sin. start. apply (trig_lost sin_d); auto using sin_ds; try lra.
    - intros I H1 H2 H3. split; [apply (mod_cos _ MV)|apply (mod_sin _ MV)]; auto.
    - intros x Hx. destruct (sin_cos_half x) as [X Y]; [lra|]. destruct (trig_abs (S N) x) as [[-> _]|[-> _]]; auto.
    - apply gsin_sto; auto.
    - rewrite (gsin_psum idR (gord g) g Wg (le_n _) ltac:(unfold get_order in Hk; lia)).
      rewrite (psum_ext _ (fun i => sin_d i c / INR (fact i))); [reflexivity|]. intros i _. rewrite <- (pr_cf _ _ _ _ _ _ _ _ _ P). apply (sin_coef _ (cst_simple 0 (0, 0))).
  Qed.
  Lemma cos_lost : exists T, tm_cos iter A = Ok T /\ ~ encloses D T (fun x => cos (f x)).
  Proof using P GP MV Hk Hc.
    unfold tm_cos. start. apply (trig_lost cos_d); auto using cos_ds; try lra.
    - intros I H1 H2 H3. split; [apply (mod_sin _ MV)|apply (mod_cos _ MV)]; auto.
    - intros x Hx. destruct (sin_cos_half x) as [X Y]; [lra|]. destruct (trig_abs (S N) x) as [[_ ->]|[_ ->]]; auto.
    - apply gcos_sto; auto.
    - rewrite (gcos_psum idR (gord g) g Wg (le_n _) ltac:(unfold get_order in Hk; lia)).
      rewrite (psum_ext _ (fun i => cos_d i c / INR (fact i))); [reflexivity|]. intros i _. rewrite <- (pr_cf _ _ _ _ _ _ _ _ _ P). apply (cos_coef _ (cst_simple 0 (0, 0))).
  Qed.
  Lemma sinh_lost : exists T, tm_sinh iter A = Ok T /\ ~ encloses D T (fun x => sinh (f x)).
  Proof using P GP MV Hk Hc.
    unfold tm_sinh. start. apply (trig_lost sinh_d); auto using sinh_ds; try lra.
    - intros I H1 H2 H3. split; [apply (mod_cosh _ MV)|apply (mod_sinh _ MV)]; auto.
    - intros x Hx. destruct (sinh_cosh_half x) as [X Y]; [lra|]. destruct (hyp_abs (S N) x) as [[-> _]|[-> _]]; rewrite Rabs_right; lra.
    - apply gsinh_sto; auto.
    - rewrite (gsinh_psum idR (gord g) g Wg (le_n _)).
      rewrite (psum_ext _ (fun i => sinh_d i c / INR (fact i))); [reflexivity|]. intros i _. rewrite <- (pr_cf _ _ _ _ _ _ _ _ _ P). apply (sinh_coef _ (cst_simple 0 (0, 0))).
  Qed.
  Lemma cosh_lost : exists T, tm_cosh iter A = Ok T /\ ~ encloses D T (fun x => cosh (f x)).
  Proof using P GP MV Hk Hc.
    unfold tm_cosh. start. apply (trig_lost cosh_d); auto using cosh_ds; try lra.
    - intros I H1 H2 H3. split; [apply (mod_sinh _ MV)|apply (mod_cosh _ MV)]; auto.
    - intros x Hx. destruct (sinh_cosh_half x) as [X Y]; [lra|]. destruct (hyp_abs (S N) x) as [[_ ->]|[_ ->]]; rewrite Rabs_right; lra.
    - apply gcosh_sto; auto.
    - rewrite (gcosh_psum idR (gord g) g Wg (le_n _)).
      rewrite (psum_ext _ (fun i => cosh_d i c / INR (fact i))); [reflexivity|]. intros i _. rewrite <- (pr_cf _ _ _ _ _ _ _ _ _ P). apply (cosh_coef _ (cst_simple 0 (0, 0))).
  Qed.
End Probe.

(** The reciprocal, the logarithm and the square root: the constant term is 1. *)
Section ProbeOne.
  Variables (iter : list (string * (R * R)) -> list (string * (R * R))) (A : taylor_model R) (D : SpecTM.point -> Prop) (f : SpecTM.point -> R) (x0 : SpecTM.point)
    (N : nat) (h H : R).
  Hypothesis P : probe iter A D f x0 N 1 h H.
  Hypothesis GP : gaps h H N (get_order (m_tpol A)).
  Let Hh : 0 < h <= 1 / 16 := g_h _ _ _ _ GP.
  Let HH : H = 1 / 16 := g_H _ _ _ _ GP.
  Let HNn : (N <= get_order (m_tpol A))%nat := g_N _ _ _ _ GP.
  Notation g := (m_tpol A).
  Notation n := (get_order (m_tpol A)).
  Let W : well_formed A := proj1 (pr_rep _ _ _ _ _ _ _ _ _ P).
  Let V : valid g := wf_poly _ W.
  Let Wg : gwf g := valid_gwf _ V.
  Let Ng : gnz g := proj2 (proj1 (valid_iff g) V).
  Let S0 := sto_self g Wg Ng.
  Let c1 : constant_cf g = 1 := pr_cf _ _ _ _ _ _ _ _ _ P.

  Lemma gap17 : 2 * h ^ (n + 1) < H ^ S N * / (17 / 16) ^ S N.
  Proof using GP. exact (g_pow _ _ _ _ GP). Qed.
  Lemma rem_one (s : R) (m : nat) : exists q, idiv (imul (ipt s) (ipow (0, h) (n + 1))) (ipt (kpow (1 : R) m)) = Ok q /\ small q (Rabs s * h ^ (n + 1)).
  Proof using GP.
    rewrite kpow_pow, pow1. apply idiv_one. apply small_imul; [apply small_ipt|]. apply (small_F A N h H GP).
  Qed.
  Lemma arg_one : iadd (ipt 1) (imul (0, h) unit_interval) = (1, 1 + h).
  Proof using GP. rewrite (unit_F A N h H GP). unfold iadd, ipt. cbn [fst snd]. apply (f_equal2 pair); cbn; ring. Qed.
  Lemma guard b : iadd b (m_rem A) = (1, 1 + h) -> negb (iabove (iadd b (m_rem A)) 0)%K = false.
  Proof. intros ->. unfold iabove. cbn [fst]. change (@k0 R OpsR) with 0. change (@kltb R OpsR) with Rltb. unfold Rltb. destruct (Rlt_dec 1 0); [lra|reflexivity]. Qed.

  Lemma recip_lost : exists T, tm_div_sg iter 1 A = Ok T /\ ~ encloses D T (fun x => / f x).
  Proof using P GP.
    destruct (pr_B _ _ _ _ _ _ _ _ _ P) as (b & Eb & Hb). unfold tm_div_sg. rewrite Eb. cbn [rbind]. rewrite Hb, zero_in_pos by (cbn; lra).
    rewrite (pr_F _ _ _ _ _ _ _ _ _ P). cbn [rbind]. rewrite c1. change (@k1 R OpsR) with 1. rewrite idiv_up by lra. cbn [rbind]. rewrite arg_one.
    destruct (rem_one (kpow (- (1))%K (n + 1)) (n + 2)) as (q & Eq & Sq). change (@k1 R OpsR) with 1 in Eq. rewrite Eq. cbn [rbind]. change (@k1 R OpsR) with 1.
    destruct (ipow_ge1 (1, 1 + h) (n + 2)) as [I1 I2]; [cbn; lra|cbn; lra|].
    destruct (idiv_small (ipt 1) (ipow (1, 1 + h) (n + 2)) 1 1) as (t & Et & St); [apply small_ipt'; rewrite Rabs_R1; lra|lra|auto|]. rewrite Et. cbn [rbind].
    apply (lost iter A D f x0 N 1 h H P _ _ (fun i => 1 * (inv_d i 1 / INR (fact i))) (fun x => / x) (h ^ (n + 1))).
    - apply sto_div_sg; auto.
    - assert (X := gdiv_psum g 1 Wg). rewrite c1 in X. apply X. lra.
    - eapply small_le; [apply small_imul; [exact Sq|exact St]|]. rewrite kpow_pow. change (- (1))%K with (-1). rewrite abs_sign. lra.
    - rewrite (usum_ext _ (fun i => inv_d i 1 / INR (fact i))) by (intros; ring).
      replace (/ (1 + H)) with (inv_d 0 (1 + H)) by (unfold inv_d; cbn; field; lra).
      eapply Rlt_le_trans; [|apply (rest N 1 H inv_d (fun x => 0 < x) (INR (fact (S N)) * / (17 / 16) ^ S (S N)) ltac:(lra))].
      + assert (X := INR_fact_lt_0 (S N)). assert (Y : 0 < (17 / 16) ^ S N) by (apply pow_lt; lra).
        replace (INR (fact (S N)) * / (17 / 16) ^ S (S N) * (H ^ S N / INR (fact (S N)))) with (H ^ S N * / (17 / 16) ^ S N * (16 / 17)) by (cbn [pow] in *; field; repeat split; lra).
        assert (G := gap17). assert (Z : 0 < h ^ (n + 1)) by (apply pow_lt; lra). lra.
      + intros i x Hx. apply inv_ds. lra.
      + intros x Hx; lra.
      + intros x Hx. rewrite inv_abs by lra. apply Rmult_le_compat_l; [apply pos_INR|]. apply inv_pow_le. lra.
  Qed.
  Lemma log_lost {iv : IvFun R} : exists T, tm_log iter A = Ok T /\ ~ encloses D T (fun x => ln (f x)).
  Proof using P GP.
    destruct (pr_B _ _ _ _ _ _ _ _ _ P) as (b & Eb & Hb). unfold tm_log. rewrite Eb. cbn [rbind]. rewrite (guard b Hb).
    rewrite (pr_F _ _ _ _ _ _ _ _ _ P). cbn [rbind]. rewrite c1. change (@k1 R OpsR) with 1.
    destruct (rem_one (kpow (- (1))%K (n + 2) * (1 / kofnat (n + 1)))%K (n + 1)) as (q & Eq & Sq). change (@k1 R OpsR) with 1 in Eq. rewrite Eq. cbn [rbind].
    rewrite idiv_up by lra. cbn [rbind]. rewrite arg_one.
    destruct (idiv_small (ipt 1) (1, 1 + h) 1 1) as (t & Et & St); [apply small_ipt'; rewrite Rabs_R1; lra|cbn; lra|cbn; lra|]. rewrite Et. cbn [rbind].
    assert (F1 : 0 < INR (n + 1)) by (apply lt_0_INR; lia). assert (F2 : INR (S N) <= INR (n + 1)) by (apply le_INR; lia).
    assert (F3 : 0 < INR (S N)) by (apply lt_0_INR; lia).
    apply (lost iter A D f x0 N 1 h H P _ _ (fun i => ln_d i 1 / INR (fact i)) ln (/ INR (n + 1) * h ^ (n + 1))).
    - apply sto_log; auto.
    - rewrite (glog_psum idR (gord g) g Wg (le_n _)) by (rewrite c1; apply R1_neq_R0).
      rewrite (psum_ext _ (fun i => ln_d i 1 / INR (fact i))); [reflexivity|]. intros i _. rewrite c1. apply logc_d. lra.
    - eapply small_le; [apply small_imul; [exact Sq|apply small_ipow; exact St]|]. rewrite kpow_pow, kofnat_R. toR. change (- (1))%K with (-1).
      rewrite Rabs_mult, abs_sign, Rinv_1, Rmult_1_l, Rmult_1_l, pow1, Rmult_1_r. unfold Rdiv. rewrite Rmult_1_l, Rabs_right; [lra|].
      apply Rle_ge, Rlt_le, Rinv_0_lt_compat; auto.
    - replace (ln (1 + H)) with (ln_d 0 (1 + H)) by reflexivity.
      eapply Rlt_le_trans; [|apply (rest N 1 H ln_d (fun x => 0 < x) (INR (fact N) * / (17 / 16) ^ S N) ltac:(lra))].
      + assert (X := INR_fact_lt_0 N). assert (Y : 0 < (17 / 16) ^ S N) by (apply pow_lt; lra).
        replace (INR (fact N) * / (17 / 16) ^ S N * (H ^ S N / INR (fact (S N)))) with (/ INR (S N) * (H ^ S N * / (17 / 16) ^ S N)).
        2:{ rewrite fact_simpl, mult_INR. unfold Rdiv. field. repeat split; lra. }
        assert (G := gap17). assert (Z : 0 < h ^ (n + 1)) by (apply pow_lt; lra).
        assert (I1 : / INR (n + 1) <= / INR (S N)) by (apply Rinv_le_contravar; auto). assert (I2 : 0 < / INR (n + 1)) by (apply Rinv_0_lt_compat; auto). nra.
      + intros i x Hx. apply ln_ds. lra.
      + intros x Hx; lra.
      + intros x Hx. cbn [ln_d]. rewrite inv_abs by lra. apply Rmult_le_compat_l; [apply pos_INR|]. apply inv_pow_le. lra.
  Qed.
  Lemma sqrt_lost {iv : IvFun R} : iv_moderate iv -> (n <= 17)%nat -> exists T, tm_sqrt iter A = Ok T /\ ~ encloses D T (fun x => sqrt (f x)).
  Proof using P GP.
    intros MV Hk. destruct (pr_B _ _ _ _ _ _ _ _ _ P) as (b & Eb & Hb). unfold tm_sqrt. rewrite (pr_F _ _ _ _ _ _ _ _ _ P), Eb. cbn [rbind]. rewrite (guard b Hb).
    rewrite c1. unfold root_denominator. rewrite idiv_up by lra. cbn [rbind]. change (@k1 R OpsR) with 1. rewrite arg_one. rewrite factorial_fits_le by lia.
    set (s := (_ / _)%K). destruct (rem_one s (n + 1)) as (q & Eq & Sq). rewrite Eq. cbn [rbind].
    destruct (ipow_ge1 (1, 1 + h) (2 * n + 1)) as [I1 I2]; [cbn; lra|cbn; lra|].
    destruct (mod_sqrt _ MV (ipow (1, 1 + h) (2 * n + 1)) I1 I2) as [J1 J2].
    assert (Es : Rabs s = bin_half (S n)).
    { unfold s. rewrite factorial2_odf by auto. toR. rewrite kfact_R. change (@e_pow R ElemR) with rpow. replace (1 / 2) with (1 / 2 - INR 0) by (cbn; lra).
      rewrite rpow_half by lra. cbn [pow]. unfold Rdiv at 2. rewrite sqrt_1, Rinv_1, !Rmult_1_r. unfold bin_half. rewrite root_c_odf, Nat.add_1_r.
      assert (X := INR_fact_lt_0 (S n)). assert (Y : 0 < 2 ^ S n) by (apply pow_lt; lra).
      replace (- (1)) with (-1) by lra. replace ((-1) ^ n * IZR (odf n) / (INR (fact (S n)) * 2 ^ S n)) with ((-1) ^ n * IZR (odf n) / 2 ^ S n * / INR (fact (S n))) by (field; lra).
      rewrite Rabs_mult, (Rabs_right (/ _)); [reflexivity|]. apply Rle_ge, Rlt_le, Rinv_0_lt_compat; auto. }
    destruct (idiv_small (imul q (ipt 1)) (i_sqrt (ipow (1, 1 + h) (2 * n + 1))) (Rabs s * h ^ (n + 1) * 1) (1 / 2)) as (t & Et & St);
      [apply small_imul; [exact Sq|apply small_ipt'; rewrite Rabs_R1; lra]|lra|auto|]. change (@k1 R OpsR) with 1. rewrite Et. cbn [rbind].
    apply (lost_trimmed iter A D f x0 N 1 h H P _ _ (fun i => sqrt_d i 1 / INR (fact i)) sqrt (2 * bin_half (S n) * h ^ (n + 1))).
    - apply sto_pow_real; auto.
    - change (1 / kofZ 2)%K with (@kdiv R OpsR k1 (kofZ 2)). rewrite pow_half_series, (gpow_series_psum idR (gord g) g _ Wg (le_n _)).
      rewrite (psum_ext _ (fun i => sqrt_d i 1 / INR (fact i))); [reflexivity|]. intros i _. unfold powc. rewrite c1. toR.
      change (@e_pow R ElemR) with rpow. rewrite rpow_half by lra. rewrite gbin_root. unfold sqrt_d, Rdiv. ring.
    - eapply small_le; [exact St|]. rewrite Es. lra.
    - replace (sqrt (1 + H)) with (sqrt_d 0 (1 + H)) by (unfold sqrt_d; cbn [root_c pow]; field).
      eapply Rlt_le_trans; [|apply (rest N 1 H sqrt_d (fun x => 0 < x) (Rabs (root_c (S N)) * / (17 / 16) ^ S N) ltac:(lra))].
      + replace (Rabs (root_c (S N)) * / (17 / 16) ^ S N * (H ^ S N / INR (fact (S N)))) with (bin_half (S N) * (H ^ S N * / (17 / 16) ^ S N)) by (unfold bin_half, Rdiv; ring).
        assert (X := bin_half_le (S N) (S n) ltac:(lia)). assert (X0 := bin_half_pos (S n)).
        assert (G := gap17). assert (Z : 0 < h ^ (n + 1)) by (apply pow_lt; lra). nra.
      + intros i x Hx. apply sqrt_ds. lra.
      + intros x Hx; lra.
      + intros x Hx. unfold sqrt_d, Rdiv. rewrite !Rabs_mult. rewrite Rmult_assoc. apply Rmult_le_compat_l; [apply Rabs_pos|].
        assert (Y : 1 <= sqrt x) by (rewrite <- sqrt_1; apply sqrt_le_1; lra). rewrite (Rabs_right (sqrt x)) by lra.
        assert (Z := inv_pow_le x (S N) ltac:(lra)). assert (Z0 : 0 < / (17 / 16) ^ S N) by (apply Rinv_0_lt_compat, pow_lt; lra).
        rewrite (Rabs_right (/ _)) by lra. nra.
  Qed.
End ProbeOne.

(** ** The constant c with the remainder [0, h], at order n *)
Definition slack_model (c h : R) (n : nat) : taylor_model R := mkTM (mkG (mkPoly [] [([], c)]) n) n 0 (0, h) [] [].
Section Slack.
  Variables (c h : R) (n : nat).
  Hypothesis Hc : c <> 0.
  Hypothesis Hh : 0 <= h.
  Hypothesis Hn : (1 <= n)%nat.
  Lemma slack_wf : well_formed (slack_model c h n).
  Proof using Hc Hn.
    constructor; cbn [slack_model m_tpol m_order m_ndim m_exp m_domain]; try reflexivity; try constructor; cbn; try tauto; try constructor; try tauto; auto; try constructor.
    - intros t [<-|[]]; reflexivity.
    - intros t [<-|[]]. cbn. unfold Reqb. destruct (Req_EM_T c 0); [contradiction|reflexivity].
    - intros t [<-|[]]; cbn; lia.
  Qed.
  Lemma slack_value rho : value (m_tpol (slack_model c h n)) rho = c.
  Proof using. cbn. ring. Qed.
  Lemma slack_probe iter : permutes iter -> (Z.of_nat n < 4294967296)%Z -> probe iter (slack_model c h n) everywhere (fun _ => c + h) (fun _ => 0) 0 c h h.
  Proof using Hc Hh Hn.
    intros Hp Ho. assert (W := slack_wf). assert (V := wf_poly _ W). assert (C : constant_cf (m_tpol (slack_model c h n)) = c) by (rewrite <- (value_zero _ V); apply slack_value).
    assert (L : linear (slack_model c h n)) by (intros t [<-|[]]; cbn; lia).
    assert (Oi : ordered_on iter (variables (slack_model c h n))) by (apply no_vars; auto).
    constructor; auto.
    - split; auto. intros x _. split; [intros ? ? []|]. rewrite slack_value. unfold within. cbn. lra.
    - exact I.
    - intros; lra.
    - destruct (f_bar_exact iter _ W) as (lo & hi & x & y & E & _ & _ & Vx & Vy); auto. rewrite slack_value in Vx, Vy. rewrite E. f_equal. unfold iadd. cbn [fst snd m_rem slack_model].
      apply (f_equal2 pair); cbn; rewrite C in *; lra.
    - destruct (tm_bounds_exact iter _ W) as (lo & hi & x & y & E & _ & _ & Vx & Vy); auto. rewrite slack_value in Vx, Vy. exists (lo, hi). split; auto.
      unfold iadd. cbn [fst snd m_rem slack_model]. apply (f_equal2 pair); cbn; lra.
    - intros r a S E. rewrite (linear_value (m_tpol (slack_model c h n)) r a); auto; try apply S.
      + rewrite slack_value, C, Rminus_eq_0. cbn [slack_model m_tpol gord]. clear. induction n as [|m IH]; [rewrite !usum_0; auto|]. rewrite usum_S, IH, !usum_0. cbn [pow]. ring.
  Qed.
  Lemma slack_linear : linear (slack_model c h n).
  Proof using Hn. intros t [<-|[]]; cbn; lia. Qed.
End Slack.

(** ** c + x y on [0, 1/4] x [0, 1/4], exactly, at order n *)
Definition cxy_poly (c : R) (n : nat) : gdual R := mkG (mkPoly ["dx"; "dy"] [([0; 0]%nat, c); ([1; 1]%nat, 1)]) n.
Definition cxy_model (c : R) (n : nat) : taylor_model R :=
  mkTM (cxy_poly c n) n 2 (0, 0) [("x", 0); ("y", 0)] [("x", (0, 1 / 4)); ("y", (0, 1 / 4))].
Definition small_square : SpecTM.point -> Prop := fun x => 0 <= x "x" <= 1 / 4 /\ 0 <= x "y" <= 1 / 4.
Lemma xy_bounds iter (p : gdual R) k : permutes iter -> valid p -> psyms (gp p) = ["dx"; "dy"] -> (Z.of_nat (gord p) < 4294967296)%Z ->
  (forall t i, In t (pterms (gp p)) -> (nth i (fst t) 0 <= 1)%nat) -> (forall t, In t (pterms (gp p)) -> (list_sum (fst t) <= 62)%nat) ->
  (forall rho, value p rho = k + rho "dx" * rho "dy") ->
  get_bounds iter p [("x", 0); ("y", 0)] [("x", (0, 1 / 4)); ("y", (0, 1 / 4))] = Ok (k, k + 1 / 16).
Proof.
  intros Hp Vp Hs Ho H1 D HV.
  set (ex := [("x", 0); ("y", 0)]). set (dom := [("x", (0, 1 / 4)); ("y", (0, 1 / 4))]).
  assert (N1 : NoDup (map fst dom)) by (cbn; repeat constructor; cbn; intuition discriminate).
  assert (N2 : NoDup (map fst ex)) by (cbn; repeat constructor; cbn; intuition discriminate).
  assert (L : forall s, In s ["x"; "y"] -> In (s, (0, 1 / 4)) dom /\ In (s, 0) ex) by (intros s [<-|[<-|[]]]; cbn; auto).
  destruct (linear_exact p ["x"; "y"] ex dom (fun _ => (0, 1 / 4)) (fun _ => 0) iter) as (lo & hi & rho & rho' & E & I1 & I2 & E1 & E2); auto.
  - intros; cbn; lra.
  - destruct (enclose_equal p ["x"; "y"] ex dom (fun _ => (0, 1 / 4)) (fun _ => 0) iter) as (lo' & hi' & E' & B); auto.
    rewrite E in E'. injection E' as <- <-. rewrite E. f_equal.
    assert (B0 := B (fun _ => 0) (fun _ => 0) ltac:(intros; cbn; lra) ltac:(intros; cbn; lra)).
    assert (B1 := B (fun _ => 1 / 4) (fun _ => 1 / 4) ltac:(intros; cbn; lra) ltac:(intros; cbn; lra)). rewrite HV in B0, B1, E1, E2.
    assert (Q : forall r, inside (map dsym ["x"; "y"]) (map snd (iter (relative_box ["x"; "y"] (fun _ => (0, 1 / 4)) (fun _ => 0)))) r -> 0 <= r "dx" * r "dy" <= 1 / 16).
    { intros r H. set (bx := map snd (iter (relative_box ["x"; "y"] (fun _ => (0, 1 / 4)) (fun _ => 0)))) in H.
      assert (Pi : forall J, In J bx -> J = (0 - 0, 1 / 4 - 0)).
      { intros J HJ. assert (P := Permutation_map snd (Hp (relative_box ["x"; "y"] (fun _ => (0, 1 / 4)) (fun _ => 0)))).
        apply (Permutation_in _ P) in HJ. destruct HJ as [<-|[<-|[]]]; reflexivity. }
      clearbody bx. inversion H as [|a I0 la l0 H0 H']; subst. inversion H' as [|b J0 lb l1 H1' H'']; subst.
      rewrite (Pi I0 (or_introl eq_refl)) in H0. rewrite (Pi J0 (or_intror (or_introl eq_refl))) in H1'. cbn [fst snd] in H0, H1'.
      change (dsym "x") with "dx" in H0. change (dsym "y") with "dy" in H1'. nra. }
    assert (Q1 := Q _ I1). assert (Q2 := Q _ I2). apply (f_equal2 pair); lra.
Qed.
Section CXY.
  Variables (c : R) (n : nat).
  Hypothesis Hc : c <> 0.
  Hypothesis Hn : (2 <= n)%nat.
  Lemma cxy_valid : valid (cxy_poly c n).
  Proof using Hc Hn.
    constructor; cbn [cxy_poly gp psyms pterms gord].
    - repeat constructor.
    - intros t [<-|[<-|[]]]; reflexivity.
    - cbn. repeat constructor; intros H; cbn in H; intuition discriminate.
    - intros t [<-|[<-|[]]]; cbn; unfold Reqb; destruct (Req_EM_T _ _); auto; exfalso; lra.
    - intros t [<-|[<-|[]]]; cbn; lia.
  Qed.
  Lemma cxy_wf : well_formed (cxy_model c n).
  Proof using Hc Hn.
    constructor; cbn [cxy_model m_tpol m_order m_ndim m_exp m_domain]; try reflexivity; try exact cxy_valid.
    - repeat constructor; cbn; intuition discriminate.
    - repeat constructor; cbn; intuition discriminate.
    - intros s. cbn. change "dx" with (dsym "x"). change "dy" with (dsym "y"). split; intros [E|[E|[]]]; try (subst; auto; fail); injection E as <-; auto.
    - intros s. cbn. change "dx" with (dsym "x"). change "dy" with (dsym "y"). split; intros [E|[E|[]]]; try (subst; auto; fail); injection E as <-; auto.
    - intros s v J. cbn. intros [E|[E|[]]] [F|[F|[]]]; injection E as <- <-; try discriminate F; injection F as <-; unfold within; cbn; lra.
  Qed.
  Lemma cxy_value rho : value (cxy_poly c n) rho = c + rho "dx" * rho "dy".
  Proof using. cbn. ring. Qed.
  Lemma cxy_at x : value (m_tpol (cxy_model c n)) (displacement (m_exp (cxy_model c n)) x) = c + x "x" * x "y".
  Proof using. cbn [cxy_model m_tpol m_exp]. rewrite cxy_value. unfold displacement, center_of. cbn. ring. Qed.
  Lemma cxy_cf : constant_cf (cxy_poly c n) = c.
  Proof using Hc Hn. rewrite <- (value_zero _ cxy_valid). rewrite cxy_value. change (c + 0 * 0 = c). ring. Qed.
  Lemma cxy_fbar : f_bar (cxy_model c n) = xy_poly n.
  Proof using Hc Hn.
    unfold f_bar. cbn [cxy_model m_tpol]. rewrite cxy_cf. unfold gsub_gs, psub, padd, pneg, pconst, cxy_poly, xy_poly. cbn.
    unfold Reqb. destruct (Req_EM_T c 0); [contradiction|]. cbn. unfold Reqb. destruct (Req_EM_T (c + - c) 0); [reflexivity|exfalso; lra].
  Qed.
  Lemma cxy_ghat : sdle 2 (ghat idR (cxy_poly c n)) /\ vanish 2 (ghat idR (cxy_poly c n)).
  Proof using Hc Hn.
    assert (C : scc (gden idR (cxy_poly c n)) = c).
    { rewrite <- (constant_cf_scc idR) by (apply valid_gwf, cxy_valid; auto). exact cxy_cf. }
    unfold ghat. rewrite C. split.
    - unfold gden, den, tden, ssub, sadd, sopp, scon. cbn. repeat constructor.
    - intros F HF. rewrite Lf_ssub, Lf_scon. unfold gden, den. rewrite Lf_tden. cbn [cxy_poly gp psyms pterms fold_right fst snd].
      rewrite (HF (kdeg [1; 1]%nat)) by (cbn; lia). change (kdeg [0; 0]%nat) with O.
      replace (expo ["dx"; "dy"] [0; 0]%nat) with mon0.
      2:{ apply functional_extensionality. intros s. symmetry. exact (expo_zero ["dx"; "dy"] 2 s). }
      toR. ring.
  Qed.
  Lemma cxy_probe iter : permutes iter -> (Z.of_nat n < 4294967296)%Z ->
    probe iter (cxy_model c n) small_square (fun x => c + x "x" * x "y") (fun _ => 1 / 4) (n / 2) c (1 / 16) (1 / 16).
  Proof using Hc Hn.
    intros Hp Ho. assert (W := cxy_wf). assert (V := wf_poly _ W). assert (LN := Nat.div_mod n 2 ltac:(lia)). assert (LM := Nat.mod_upper_bound n 2 ltac:(lia)).
    constructor.
    - split; [exact W|]. intros x [Hx Hy]. split.
      + intros s J. cbn. intros [E|[E|[]]]; injection E as <- <-; unfold within; cbn; lra.
      + rewrite cxy_at. unfold within. cbn. lra.
    - unfold small_square. lra.
    - lra.
    - intros x [Hx Hy]. nra.
    - exact cxy_cf.
    - unfold f_bar_remainder_bounds. rewrite cxy_fbar. cbn [cxy_model m_exp m_domain m_rem]. rewrite (xy_bounds iter (xy_poly n) 0); auto.
      + cbn [rbind]. f_equal. unfold iadd. cbn [fst snd]. apply (f_equal2 pair); cbn; lra.
      + apply xy_valid; auto.
      + intros t i [<-|[]]. destruct i as [|[|[|i]]]; cbn; lia.
      + intros t [<-|[]]; cbn; lia.
      + intros rho. rewrite xy_value. ring.
    - exists (c, c + 1 / 16). unfold tm_bounds. cbn [cxy_model m_tpol m_exp m_domain m_rem]. rewrite (xy_bounds iter (cxy_poly c n) c); auto.
      + split; auto. unfold iadd. cbn [fst snd]. apply (f_equal2 pair); cbn; lra.
      + intros t i [<-|[<-|[]]]; destruct i as [|[|[|i]]]; cbn; lia.
      + intros t [<-|[<-|[]]]; cbn; lia.
      + exact cxy_value.
    - intros r a S E. destruct cxy_ghat as [G1 G2]. rewrite (homog_value (cxy_poly c n) r a 2 (n / 2)); auto; try apply S; try (cbn [cxy_poly gord]; lia).
      assert (X := cxy_at (fun _ => 1 / 4)). cbn [cxy_model m_tpol m_exp] in X. cbn [cxy_model m_exp]. rewrite X, cxy_cf. f_equal. lra.
    - cbn [cxy_model m_tpol get_order cxy_poly gord]. lia.
  Qed.
End CXY.

(** ** The functions are wrong on both *)
Lemma probe_wrong {iv : IvFun R} iter F A D g x0 N c h H : probe iter A D g x0 N c h H -> gaps h H N (get_order (m_tpol A)) -> iv_moderate iv ->
  In F [Fexp; Fsin; Fcos; Fsinh; Fcosh; Flog; Fsqrt] -> c = (match F with Flog | Fsqrt => 1 | _ => 3 / 4 end) ->
  (F = Fsqrt -> (get_order (m_tpol A) <= 17)%nat) -> (F <> Flog -> (get_order (m_tpol A) <= 169)%nat) ->
  (forall x, D x -> dom1 F (g x)) /\ exists T, tm_apply iter F A = Ok T /\ ~ encloses D T (fun x => real1 F (g x)).
Proof.
  intros P HN MV HF Hc B1 B2. assert (L := pr_all _ _ _ _ _ _ _ _ _ P).
  assert (B3 : F <> Flog -> (Z.of_nat (get_order (m_tpol A)) <= 169)%Z) by (intros X; specialize (B2 X); lia).
  destruct HF as [<-|[<-|[<-|[<-|[<-|[<-|[<-|[]]]]]]]]; cbn [tm_apply real1 dom1]; (split; [intros x Hx; specialize (L x Hx); try exact I; cbn; lra|]); subst c.
  - exact (exp_lost iter A D g x0 N (3 / 4) h H P HN MV (B3 ltac:(discriminate))).
  - exact (sin_lost iter A D g x0 N (3 / 4) h H P HN MV (B3 ltac:(discriminate)) eq_refl).
  - exact (cos_lost iter A D g x0 N (3 / 4) h H P HN MV (B3 ltac:(discriminate)) eq_refl).
  - exact (sinh_lost iter A D g x0 N (3 / 4) h H P HN MV (B3 ltac:(discriminate)) eq_refl).
  - exact (cosh_lost iter A D g x0 N (3 / 4) h H P HN MV (B3 ltac:(discriminate)) eq_refl).
  - exact (log_lost iter A D g x0 N h H P HN).
  - exact (sqrt_lost iter A D g x0 N h H P HN MV (B1 eq_refl)).
Qed.
Lemma not_simple {iv : IvFun R} iter F n : permutes iter -> iv_moderate iv -> In F [Fexp; Fsin; Fcos; Fsinh; Fcosh; Flog; Fsqrt] ->
  (1 <= n)%nat -> (Z.of_nat n < 4294967296)%Z -> (F = Fsqrt -> (n <= 17)%nat) -> (F <> Flog -> (n <= 169)%nat) ->
  (exists (D : SpecTM.point -> Prop) A g T, represents D A g /\ linear A /\ get_order (m_tpol A) = n /\ (forall x, D x -> dom1 F (g x)) /\
     tm_apply iter F A = Ok T /\ ~ encloses D T (fun x => real1 F (g x))) /\
  ((2 <= n)%nat -> exists (D : SpecTM.point -> Prop) A g T, represents D A g /\ m_rem A = (0, 0) /\ get_order (m_tpol A) = n /\ (forall x, D x -> dom1 F (g x)) /\
     tm_apply iter F A = Ok T /\ ~ encloses D T (fun x => real1 F (g x))).
Proof.
  intros Hp MV HF H1 Hn B1 B2. set (c := match F with Flog | Fsqrt => 1 | _ => 3 / 4 end). assert (Hc : c <> 0) by (unfold c; destruct F; lra).
  split.
  - assert (P := slack_probe c (1 / 16) n Hc ltac:(lra) H1 iter Hp Hn). assert (HN := gaps_half 0 n ltac:(lia) H1).
    destruct (probe_wrong iter F _ _ _ _ _ _ _ _ P HN MV HF eq_refl B1 B2) as (Q & T & E & X).
    exists everywhere, (slack_model c (1 / 16) n), (fun _ => c + 1 / 16), T.
    split; [exact (pr_rep _ _ _ _ _ _ _ _ _ P)|]. split; [apply slack_linear; auto|]. auto.
  - intros H2. assert (P := cxy_probe c n Hc H2 iter Hp Hn). assert (HN := gaps_half (n / 2) n ltac:(apply Nat.mul_div_le; lia) ltac:(lia)).
    destruct (probe_wrong iter F _ _ _ _ _ _ _ _ P HN MV HF eq_refl B1 B2) as (Q & T & E & X).
    exists small_square, (cxy_model c n), (fun x => c + x "x" * x "y"), T.
    split; [exact (pr_rep _ _ _ _ _ _ _ _ _ P)|]. auto.
Qed.
Lemma not_simple_recip iter n : permutes iter -> (1 <= n)%nat -> (Z.of_nat n < 4294967296)%Z ->
  (exists (D : SpecTM.point -> Prop) A g T, represents D A g /\ linear A /\ get_order (m_tpol A) = n /\ (forall x, D x -> 0 < g x) /\
     tm_div_sg iter 1 A = Ok T /\ ~ encloses D T (fun x => / g x)) /\
  ((2 <= n)%nat -> exists (D : SpecTM.point -> Prop) A g T, represents D A g /\ m_rem A = (0, 0) /\ get_order (m_tpol A) = n /\ (forall x, D x -> 0 < g x) /\
     tm_div_sg iter 1 A = Ok T /\ ~ encloses D T (fun x => / g x)).
Proof.
  intros Hp H1 Hn. split.
  - assert (P := slack_probe 1 (1 / 16) n R1_neq_R0 ltac:(lra) H1 iter Hp Hn). assert (HN := gaps_half 0 n ltac:(lia) H1).
    destruct (recip_lost _ _ _ _ _ _ _ _ P HN) as (T & E & X).
    exists everywhere, (slack_model 1 (1 / 16) n), (fun _ => 1 + 1 / 16), T.
    split; [exact (pr_rep _ _ _ _ _ _ _ _ _ P)|]. split; [apply slack_linear; auto|]. split; auto. split; [intros; lra|auto].
  - intros H2. assert (P := cxy_probe 1 n R1_neq_R0 H2 iter Hp Hn). assert (HN := gaps_half (n / 2) n ltac:(apply Nat.mul_div_le; lia) ltac:(lia)).
    destruct (recip_lost _ _ _ _ _ _ _ _ P HN) as (T & E & X).
    exists small_square, (cxy_model 1 n), (fun x => 1 + x "x" * x "y"), T.
    split; [exact (pr_rep _ _ _ _ _ _ _ _ _ P)|]. split; auto. split; auto. split; auto. intros x Hx. assert (Y := pr_all _ _ _ _ _ _ _ _ _ P x Hx). lra.
Qed.
Lemma iv_std_moderate : iv_moderate iv_std.
Proof.
  assert (E3 := exp_le_3). assert (X : forall v, 0 <= v -> v <= 1 -> 1 <= exp v <= 3).
  { intros v H1 H2. assert (A := exp_le 0 v H1). rewrite exp_0 in A. assert (B := exp_le v 1 H2). lra. }
  assert (Y : forall v, 0 <= v -> v <= 1 -> Rabs (exp v) <= 8) by (intros v H1 H2; specialize (X v H1 H2); rewrite Rabs_right; lra).
  assert (Z : forall v, 0 <= v -> v <= 1 -> Rabs (sinh v) <= 8).
  { intros v H1 H2. assert (A := X v H1 H2). unfold sinh. assert (B := exp_le (- v) v ltac:(lra)). assert (C := exp_pos (- v)). rewrite Rabs_right; lra. }
  assert (U : Rabs (-1) <= 8 /\ Rabs 1 <= 8) by (rewrite Rabs_left, Rabs_right; lra).
  constructor; intros [a b]; cbn [fst snd iv_std i_exp i_sqrt i_sin i_cos i_sinh i_cosh]; intros H1 H2; [intros H3..|]; try exact U.
  - split; apply Y; lra.
  - split; apply Z; lra.
  - split; [apply U|]. rewrite Rmax_left by lra. apply Y; lra.
  - split; [|apply sqrt_le_1; lra]. assert (A : 1 <= sqrt a) by (rewrite <- sqrt_1; apply sqrt_le_1; lra). lra.
Qed.
Lemma not_simple_case : permutes in_order /\ iv_sound iv_std /\ iv_moderate iv_std.
Proof. destruct degree_two_case as (A & B & _). split; [exact A|]. split; [exact B|exact iv_std_moderate]. Qed.
