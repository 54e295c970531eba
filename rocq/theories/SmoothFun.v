(** * Smooth functions of displacements: closure, iterated derivatives *)
From Coq Require Import String Reals List ZArith Bool Arith Lra Lia.
From Coquelicot Require Import Coquelicot.
From Verif Require Import Ops Syms Poly Gdual Functions Spec ElemR SpecTaylor TayQuad TayDeriv Smooth.
Import ListNotations.
Open Scope R_scope.

Lemma sdk_inc W : forall k s a, NoDup W -> length k = length W -> In s W ->
  forall x, sdef a x -> seval (sd s (sdk W k a)) x = seval (sdk W (inc W k s) a) x.
Proof.
  induction W as [|w W IH]; intros [|n k] s a N L I x D; try discriminate; [destruct I|]. inversion N; subst.
  cbn [sdk inc]. destruct (String.eqb_spec w s) as [->|Ne]; [reflexivity|].
  destruct I as [I|I]; [congruence|]. rewrite times_comm by (apply sdk_def; auto). cbn [sdk].
  revert x D. apply (times_ext w n _ _ a); [intros x D; split; [apply sd_def|]; apply sdk_def; auto|].
  intros x D. apply IH; auto.
Qed.
Lemma sdk_zero W a : sdk W (map (fun _ => 0%nat) W) a = a.
Proof. induction W; cbn; auto. Qed.

Definition smoothf (f : (string -> R) -> R) : Prop :=
  exists a d, 0 < d /\ sdef a center /\ forall x, small x d -> f x = seval a x.

Lemma zero_key (W : list string) : forall k : list nat, length k = length W -> forallb (Nat.eqb 0) k = true -> k = map (fun _ => 0%nat) W.
Proof.
  induction W; intros [|n k] L H; try discriminate; auto. cbn in *. apply andb_prop in H. destruct H as [A B].
  destruct n; [|discriminate]. f_equal. apply IHW; auto.
Qed.
Lemma smooth_derivatives f W n : smoothf f -> NoDup W -> exists F, derivatives W n f F.
Proof.
  intros (a & d & Hd & Da & E) N. destruct (sdef_near a Da) as (r1 & P1 & B1 & D1).
  set (F := fun k x => if forallb (Nat.eqb 0) k then f x else seval (sdk W k a) x). exists F.
  assert (FE : forall k x, length k = length W -> small x d -> F k x = seval (sdk W k a) x).
  { intros k x L Hx. unfold F. destruct (forallb (Nat.eqb 0) k) eqn:Z; auto.
    apply zero_key with (W := W) in Z; auto. subst k. rewrite sdk_zero. auto. }
  split.
  - intros x. unfold F. replace (forallb (Nat.eqb 0) (map (fun _ => 0%nat) W)) with true; auto. clear. induction W; cbn; auto.
  - set (r := Rmin r1 (d / 2)). assert (L1 : r <= r1) by apply Rmin_l. assert (L2 : r <= d / 2) by apply Rmin_r.
    exists r. split; [apply Rmin_case; lra|]. split.
    + intros k s x L S I Hx. assert (Dx : sdef a x) by (apply D1; eapply small_le; eauto).
      rewrite incr_inc by auto. rewrite FE; [|rewrite inc_length; auto|eapply small_le; [exact Hx|lra]]. rewrite <- sdk_inc by auto.
      apply is_derive_Reals. apply (is_derive_ext_loc (fun t => seval (sdk W k a) (update x s t))); [|apply sd_derive, sdk_def; auto].
      exists (mkposreal (d / 2) ltac:(lra)). intros t Ht. symmetry. apply FE; auto. intros v. unfold update.
      destruct (String.eqb_spec v s) as [->|_]; [|eapply Rle_trans; [apply Hx|lra]].
      assert (Hs := Hx s). change (Rabs (t - x s) < d / 2) in Ht. replace t with (x s + (t - x s)) by ring.
      eapply Rle_trans; [apply Rabs_triang|lra].
    + intros k L S. destruct (sb_bnd _ _ (sb_sdk r W k a (sb_le _ _ _ L1 B1))) as (M & HM). exists M. intros x Hx.
      rewrite FE; auto. eapply small_le; [exact Hx|lra].
Qed.

(** ** Closure *)
Lemma smooth_near f g : (exists d, 0 < d /\ forall x, small x d -> g x = f x) -> smoothf f -> smoothf g.
Proof.
  intros (d & Hd & E) (a & d' & Hd' & D & E'). exists a, (Rmin d d'). split; [apply Rmin_case; auto|]. split; auto. intros x Hx.
  rewrite E by (eapply small_le; [exact Hx|apply Rmin_l]). apply E'. eapply small_le; [exact Hx|apply Rmin_r].
Qed.
Lemma smooth_ext f g : (forall x, g x = f x) -> smoothf f -> smoothf g.
Proof. intros E. apply smooth_near. exists 1. split; [lra|auto]. Qed.
Lemma smooth_const c : smoothf (fun _ => c).
Proof. exists (SC c), 1. split; [lra|]. cbn. auto. Qed.
Lemma smooth_var s : smoothf (fun x => x s).
Proof. exists (SV s), 1. split; [lra|]. cbn. auto. Qed.
Lemma smooth_plus f g : smoothf f -> smoothf g -> smoothf (fun x => f x + g x).
Proof.
  intros (a & d & Hd & D & E) (b & d' & Hd' & D' & E'). exists (SAdd a b), (Rmin d d'). split; [apply Rmin_case; auto|]. split; [cbn; auto|].
  intros x Hx. cbn. rewrite E by (eapply small_le; [exact Hx|apply Rmin_l]). rewrite E' by (eapply small_le; [exact Hx|apply Rmin_r]). auto.
Qed.
Lemma smooth_mult f g : smoothf f -> smoothf g -> smoothf (fun x => f x * g x).
Proof.
  intros (a & d & Hd & D & E) (b & d' & Hd' & D' & E'). exists (SMul a b), (Rmin d d'). split; [apply Rmin_case; auto|]. split; [cbn; auto|].
  intros x Hx. cbn. rewrite E by (eapply small_le; [exact Hx|apply Rmin_l]). rewrite E' by (eapply small_le; [exact Hx|apply Rmin_r]). auto.
Qed.
Lemma smooth_u u f : udef u (f center) -> smoothf f -> smoothf (fun x => ueval u (f x)).
Proof.
  intros U (a & d & Hd & D & E). exists (SU u a), d. split; auto. split.
  - cbn. split; auto. rewrite <- E; auto. apply small_center. lra.
  - intros x Hx. cbn. rewrite E; auto.
Qed.
Lemma smooth_cont f : smoothf f -> cont f.
Proof.
  intros (a & d & Hd & D & E) e He. destruct (scont a D e He) as (r & Hr & B). exists (Rmin r d). split; [apply Rmin_case; auto|].
  intros x Hx. rewrite (E x) by (eapply small_le; [exact Hx|apply Rmin_r]). rewrite (E center) by (apply small_center; lra).
  apply B. eapply small_le; [exact Hx|apply Rmin_l].
Qed.
Lemma smooth_opp f : smoothf f -> smoothf (fun x => - f x).
Proof. intros F. apply (smooth_ext (fun x => -1 * f x)); [intros; ring|]. apply smooth_mult; auto. apply smooth_const. Qed.
Lemma smooth_minus f g : smoothf f -> smoothf g -> smoothf (fun x => f x - g x).
Proof. intros F G. apply smooth_plus; auto. apply smooth_opp; auto. Qed.
Lemma smooth_div f g : g center <> 0 -> smoothf f -> smoothf g -> smoothf (fun x => f x / g x).
Proof. intros N F G. apply smooth_mult; auto. apply (smooth_u Uinv); auto. Qed.
Lemma smooth_pow n f : smoothf f -> smoothf (fun x => f x ^ n).
Proof. intros F. induction n; cbn; [apply smooth_const|apply smooth_mult; auto]. Qed.
(** Powers of positive numbers. *)
Lemma smooth_Rpower f g : 0 < f center -> smoothf f -> smoothf g -> smoothf (fun x => Rpower (f x) (g x)).
Proof.
  intros P F G. unfold Rpower. apply (smooth_u Uexp); [exact I|]. apply smooth_mult; auto. apply (smooth_u Uln); auto.
Qed.
Lemma smooth_pos f : smoothf f -> 0 < f center -> exists d, 0 < d /\ forall x, small x d -> 0 < f x.
Proof. intros F P. apply (cont_near f (fun y => 0 < y) (smooth_cont f F)). apply near_gt0. auto. Qed.
Lemma smooth_neg f : smoothf f -> f center < 0 -> exists d, 0 < d /\ forall x, small x d -> f x < 0.
Proof. intros F P. apply (cont_near f (fun y => y < 0) (smooth_cont f F)). apply near_lt0. auto. Qed.
Lemma smooth_sqrt f : 0 < f center -> smoothf f -> smoothf (fun x => sqrt (f x)).
Proof.
  intros P F. destruct (smooth_pos f F P) as (d & Hd & Pd). apply (smooth_near (fun x => Rpower (f x) (/ 2))).
  - exists d. split; auto. intros x Hx. rewrite Rpower_sqrt; auto.
  - apply smooth_Rpower; auto. apply smooth_const.
Qed.
Lemma smooth_cbrt f : f center <> 0 -> smoothf f -> smoothf (fun x => cbrt_R (f x)).
Proof.
  intros P F. destruct (Rlt_dec 0 (f center)) as [L|L].
  - destruct (smooth_pos f F L) as (d & Hd & Pd). apply (smooth_near (fun x => Rpower (f x) (1 / 3))).
    + exists d. split; auto. intros x Hx. unfold cbrt_R. destruct (Rlt_dec 0 (f x)); auto. specialize (Pd x Hx). contradiction.
    + apply smooth_Rpower; auto. apply smooth_const.
  - assert (L' : f center < 0) by lra. destruct (smooth_neg f F L') as (d & Hd & Pd). apply (smooth_near (fun x => - Rpower (- f x) (1 / 3))).
    + exists d. split; auto. intros x Hx. unfold cbrt_R. specialize (Pd x Hx). destruct (Rlt_dec 0 (f x)); [lra|]. destruct (Rlt_dec (f x) 0); [auto|lra].
    + apply smooth_opp. apply smooth_Rpower; [lra|apply smooth_opp; auto|apply smooth_const].
Qed.
Lemma smooth_abs f : f center <> 0 -> smoothf f -> smoothf (fun x => Rabs (f x)).
Proof.
  intros P F. destruct (Rlt_dec 0 (f center)) as [L|L].
  - destruct (smooth_pos f F L) as (d & Hd & Pd). apply (smooth_near f); auto. exists d. split; auto. intros x Hx. apply Rabs_pos_eq. left. auto.
  - assert (L' : f center < 0) by lra. destruct (smooth_neg f F L') as (d & Hd & Pd). apply (smooth_near (fun x => - f x)).
    + exists d. split; auto. intros x Hx. apply Rabs_left. auto.
    + apply smooth_opp; auto.
Qed.
Lemma smooth_asin f : -1 < f center < 1 -> smoothf f -> smoothf (fun x => asin (f x)).
Proof.
  intros P F. assert (0 < 1 - f center * f center) by nra.
  destruct (cont_near f (fun y => -1 < y) (smooth_cont f F) (near_gt0 _ _ (proj1 P))) as (d1 & P1 & B1).
  destruct (cont_near f (fun y => y < 1) (smooth_cont f F) (near_lt0 _ _ (proj2 P))) as (d2 & P2 & B2).
  apply (smooth_near (fun x => atan (f x / sqrt (1 - f x * f x)))).
  - exists (Rmin d1 d2). split; [apply Rmin_case; auto|]. intros x Hx. destruct (near_and _ _ _ _ B1 B2 x Hx).
    rewrite asin_atan; [reflexivity|lra].
  - apply (smooth_u Uatan); [exact I|].
    assert (smoothf (fun x => 1 - f x * f x)) by (apply smooth_minus; [apply smooth_const|apply smooth_mult; auto]).
    apply smooth_div; auto; [|apply smooth_sqrt; auto]. intros E. apply sqrt_eq_0 in E; lra.
Qed.
Lemma smooth_acos f : -1 < f center < 1 -> smoothf f -> smoothf (fun x => acos (f x)).
Proof.
  intros P F. 
  destruct (cont_near f (fun y => -1 < y) (smooth_cont f F) (near_gt0 _ _ (proj1 P))) as (d1 & P1 & B1).
  destruct (cont_near f (fun y => y < 1) (smooth_cont f F) (near_lt0 _ _ (proj2 P))) as (d2 & P2 & B2).
  apply (smooth_near (fun x => PI / 2 - asin (f x))).
  - exists (Rmin d1 d2). split; [apply Rmin_case; auto|]. intros x Hx. destruct (near_and _ _ _ _ B1 B2 x Hx). apply acos_asin. lra.
  - apply smooth_minus; [apply smooth_const|apply smooth_asin; auto].
Qed.
Lemma smooth_exp f : smoothf f -> smoothf (fun x => exp (f x)).
Proof. apply (smooth_u Uexp). exact I. Qed.
Lemma smooth_ln f : 0 < f center -> smoothf f -> smoothf (fun x => ln (f x)).
Proof. apply (smooth_u Uln). Qed.
Lemma smooth_sin f : smoothf f -> smoothf (fun x => sin (f x)).
Proof. apply (smooth_u Usin). exact I. Qed.
Lemma smooth_cos f : smoothf f -> smoothf (fun x => cos (f x)).
Proof. apply (smooth_u Ucos). exact I. Qed.
Lemma smooth_sinh f : smoothf f -> smoothf (fun x => sinh (f x)).
Proof. intros F. unfold sinh. apply smooth_div; [lra| |apply smooth_const]. apply smooth_minus; apply smooth_exp; auto. apply smooth_opp; auto. Qed.
Lemma smooth_cosh f : smoothf f -> smoothf (fun x => cosh (f x)).
Proof. intros F. unfold cosh. apply smooth_div; [lra| |apply smooth_const]. apply smooth_plus; apply smooth_exp; auto. apply smooth_opp; auto. Qed.
Lemma smooth_tan f : cos (f center) <> 0 -> smoothf f -> smoothf (fun x => tan (f x)).
Proof. intros N F. unfold tan. apply smooth_div; auto; [apply smooth_sin|apply smooth_cos]; auto. Qed.
Lemma cosh_pos x : 0 < cosh x.
Proof. unfold cosh. assert (A := exp_pos x). assert (B := exp_pos (- x)). lra. Qed.
Lemma smooth_tanh f : smoothf f -> smoothf (fun x => tanh (f x)).
Proof. intros F. unfold tanh. apply smooth_div; [assert (A := cosh_pos (f center)); lra|apply smooth_sinh; auto|apply smooth_cosh; auto]. Qed.
Lemma asinh_arg y : 0 < y + sqrt (1 + y * y).
Proof.
  assert (Q := sq_pos y). assert (R : 0 <= sqrt (1 + y * y)) by apply sqrt_pos. assert (E : sqrt (1 + y * y) * sqrt (1 + y * y) = 1 + y * y) by (apply sqrt_sqrt; lra). nra.
Qed.
Lemma smooth_asinh f : smoothf f -> smoothf (fun x => asinh_R (f x)).
Proof.
  intros F. unfold asinh_R. apply smooth_ln; [apply asinh_arg|]. apply smooth_plus; auto. apply smooth_sqrt; [apply sq_pos|].
  apply smooth_plus; [apply smooth_const|apply smooth_mult; auto].
Qed.
Lemma smooth_acosh f : 1 < f center -> smoothf f -> smoothf (fun x => acosh_R (f x)).
Proof.
  intros P F. unfold acosh_R. apply smooth_ln; [assert (R := sqrt_pos (f center * f center - 1)); lra|]. apply smooth_plus; auto. apply smooth_sqrt; [nra|].
  apply smooth_minus; [apply smooth_mult; auto|apply smooth_const].
Qed.
Lemma smooth_atanh f : -1 < f center < 1 -> smoothf f -> smoothf (fun x => atanh_R (f x)).
Proof.
  intros P F. unfold atanh_R. apply smooth_mult; [apply smooth_const|]. apply smooth_ln; [apply Rdiv_lt_0_compat; lra|].
  apply smooth_div; [lra|apply smooth_plus; [apply smooth_const|auto]|apply smooth_minus; [apply smooth_const|auto]].
Qed.
Lemma smooth_erf f : smoothf f -> smoothf (fun x => erf_R (f x)).
Proof. apply (smooth_u Uerf). exact I. Qed.

(** Polynomials. *)
Lemma smooth_kpow f n : smoothf f -> smoothf (fun x => kpow (f x) n).
Proof. intros F. induction n; cbn; [apply smooth_const|]. apply (smooth_mult f (fun x => kpow (f x) n)); auto. Qed.
Lemma smooth_mono V k : smoothf (mono_at V k).
Proof.
  unfold mono_at. generalize (expo V k) as ex. intros ex. induction V as [|v V IH]; cbn [fold_right]; [apply smooth_const|].
  refine (smooth_mult (fun x => kpow (x v) (ex v)) _ _ IH).
  apply (smooth_kpow (fun x => x v)), smooth_var.
Qed.
Lemma smooth_value g : smoothf (value g).
Proof.
  unfold value, sum_list. generalize (psyms (gp g)) as V. intros V. induction (pterms (gp g)) as [|t l IH]; cbn [fold_right]; [apply smooth_const|].
  refine (smooth_plus (fun x => kmul (snd t) (mono_at V (fst t) x)) _ _ IH).
  apply (smooth_mult (fun _ => snd t) (mono_at V (fst t))); [apply smooth_const|apply smooth_mono].
Qed.
