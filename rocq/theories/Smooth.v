(** * Functions with all their partial derivatives

    Expressions that are closed under differentiation, and the iterated
    partial derivatives of the functions they denote. *)
From Coq Require Import String Reals List ZArith Bool Arith Lra Lia.
From Coquelicot Require Import Coquelicot.
From Verif Require Import Ops Syms Poly Gdual Functions Spec ElemR SpecTaylor TayQuad.
Import ListNotations.
Open Scope R_scope.

Inductive ufun : Type := Uinv | Uexp | Uln | Usin | Ucos | Uatan | Uerf.
Definition ueval (u : ufun) (p : R) : R :=
  match u with
  | Uinv => / p | Uexp => exp p | Uln => ln p | Usin => sin p | Ucos => cos p | Uatan => atan p | Uerf => erf_R p
  end.
Definition udef (u : ufun) (p : R) : Prop :=
  match u with Uinv => p <> 0 | Uln => 0 < p | _ => True end.

Inductive sx : Type := SC (c : R) | SV (s : string) | SAdd (a b : sx) | SMul (a b : sx) | SU (u : ufun) (a : sx).
Fixpoint seval (a : sx) (x : string -> R) : R :=
  match a with
  | SC c => c | SV s => x s
  | SAdd a b => seval a x + seval b x
  | SMul a b => seval a x * seval b x
  | SU u a => ueval u (seval a x)
  end.
Fixpoint sdef (a : sx) (x : string -> R) : Prop :=
  match a with
  | SC _ | SV _ => True
  | SAdd a b | SMul a b => sdef a x /\ sdef b x
  | SU u a => sdef a x /\ udef u (seval a x)
  end.

(** ** Differentiation *)
Definition du (u : ufun) (a : sx) : sx :=
  match u with
  | Uinv => SMul (SC (-1)) (SMul (SU Uinv a) (SU Uinv a))
  | Uexp => SU Uexp a
  | Uln => SU Uinv a
  | Usin => SU Ucos a
  | Ucos => SMul (SC (-1)) (SU Usin a)
  | Uatan => SU Uinv (SAdd (SC 1) (SMul a a))
  | Uerf => SMul (SC (2 / sqrt PI)) (SU Uexp (SMul (SC (-1)) (SMul a a)))
  end.
Fixpoint sd (s : string) (a : sx) : sx :=
  match a with
  | SC _ => SC 0
  | SV t => SC (if String.eqb t s then 1 else 0)
  | SAdd a b => SAdd (sd s a) (sd s b)
  | SMul a b => SAdd (SMul (sd s a) b) (SMul a (sd s b))
  | SU u a => SMul (sd s a) (du u a)
  end.

Lemma sq_pos (x : R) : 0 < 1 + x * x.
Proof. nra. Qed.
Lemma du_def u a x : sdef a x -> udef u (seval a x) -> sdef (du u a) x.
Proof.
  intros A U. pose proof (sq_pos (seval a x)). destruct u; cbn in *; repeat split; auto; try (intros ?; lra).
Qed.
Lemma sd_def s a x : sdef a x -> sdef (sd s a) x.
Proof.
  induction a; cbn; intros H; auto.
  - destruct H; auto.
  - destruct H; auto.
  - destruct H. split; auto. apply du_def; auto.
Qed.
Lemma ueval_derive u p : udef u p -> is_derive (ueval u) p (seval (du u (SC p)) center).
Proof.
  destruct u; cbn; intros H.
  - replace (-1 * (/ p * / p)) with (- 1 / p ^ 2) by (field; auto). apply (is_derive_inv (fun x => x) p 1); auto. apply (@is_derive_id R_AbsRing).
  - apply is_derive_exp.
  - apply is_derive_Reals, derivable_pt_lim_ln. auto.
  - apply is_derive_Reals, derivable_pt_lim_sin.
  - replace (-1 * sin p) with (- sin p) by ring. apply is_derive_Reals, derivable_pt_lim_cos.
  - apply is_derive_Reals. replace (/ (1 + p * p)) with (/ (1 + p ^ 2)) by (f_equal; ring). apply derivable_pt_lim_atan.
  - replace (2 / sqrt PI * exp (-1 * (p * p))) with (2 / sqrt PI * exp (- p * p)) by (f_equal; f_equal; ring). apply is_derive_erf.
Qed.
Lemma du_at u a x : seval (du u a) x = seval (du u (SC (seval a x))) center.
Proof. destruct u; reflexivity. Qed.

Lemma update_self (x : string -> R) s : forall a, seval a (update x s (x s)) = seval a x.
Proof.
  induction a; cbn; auto; try congruence. unfold update. destruct (String.eqb s0 s) eqn:E; auto. apply String.eqb_eq in E. congruence.
Qed.
Lemma sdef_self (x : string -> R) s : forall a, sdef a x -> sdef a (update x s (x s)).
Proof. induction a; cbn; auto; try tauto. rewrite update_self. tauto. Qed.

Lemma sd_derive s a x : sdef a x -> is_derive (fun t => seval a (update x s t)) (x s) (seval (sd s a) x).
Proof.
  induction a; cbn; intros H.
  - apply (@is_derive_const R_AbsRing).
  - unfold update. destruct (String.eqb s0 s) eqn:E; [apply (@is_derive_id R_AbsRing)|apply (@is_derive_const R_AbsRing)].
  - destruct H. apply (is_derive_plus (fun t => seval a1 (update x s t)) (fun t => seval a2 (update x s t))); auto.
  - destruct H as [H1 H2]. pose proof (is_derive_mult (fun t => seval a1 (update x s t)) (fun t => seval a2 (update x s t)) _ _ _ (IHa1 H1) (IHa2 H2) Rmult_comm) as D.
    cbn in D. rewrite !update_self in D. exact D.
  - destruct H as [H1 H2]. pose proof (is_derive_comp (ueval u) (fun t => seval a (update x s t)) (x s) (seval (du u a) x) (seval (sd s a) x)) as D.
    apply D; [|apply IHa; auto]. rewrite update_self, du_at. apply ueval_derive. auto.
Qed.

(** Where an expression is defined is open in every variable. *)
Lemma sdef_open s a x : sdef a x -> exists e, 0 < e /\ forall t, Rabs (t - x s) < e -> sdef a (update x s t).
Proof.
  induction a as [c|v|a1 IH1 a2 IH2|a1 IH1 a2 IH2|u a IH]; cbn; intros H.
  - exists 1. split; [lra|auto].
  - exists 1. split; [lra|auto].
  - destruct H as [H1 H2]. destruct (IH1 H1) as (e1 & P1 & D1), (IH2 H2) as (e2 & P2 & D2).
    exists (Rmin e1 e2). split; [apply Rmin_case; auto|]. intros t Ht.
    split; [apply D1|apply D2]; eapply Rlt_le_trans; try exact Ht; [apply Rmin_l|apply Rmin_r].
  - destruct H as [H1 H2]. destruct (IH1 H1) as (e1 & P1 & D1), (IH2 H2) as (e2 & P2 & D2).
    exists (Rmin e1 e2). split; [apply Rmin_case; auto|]. intros t Ht.
    split; [apply D1|apply D2]; eapply Rlt_le_trans; try exact Ht; [apply Rmin_l|apply Rmin_r].
  - destruct H as [H1 H2]. destruct (IH H1) as (e1 & P1 & D1).
    assert (CT : continuity_pt (fun t => seval a (update x s t)) (x s)).
    { apply derivable_continuous_pt. exists (seval (sd s a) x). apply is_derive_Reals, sd_derive. auto. }
    assert (exists e2, 0 < e2 /\ forall t, Rabs (t - x s) < e2 -> udef u (seval a (update x s t))) as (e2 & P2 & D2).
    { destruct u; cbn in *; try (exists 1; split; [lra|auto]; fail).
      - destruct (CT (Rabs (seval a x))) as (e & Pe & He); [apply Rabs_pos_lt; auto|]. exists e. split; auto. intros t Ht E.
        destruct (Req_dec t (x s)) as [->|N]; [rewrite update_self in E; auto|].
        specialize (He t). cbn in He. unfold R_dist in He. rewrite update_self in He.
        assert (L : Rabs (seval a (update x s t) - seval a x) < Rabs (seval a x)) by (apply He; repeat split; auto).
        rewrite E in L. rewrite Rminus_0_l, Rabs_Ropp in L. lra.
      - destruct (CT (seval a x)) as (e & Pe & He); [lra|]. exists e. split; auto. intros t Ht.
        destruct (Req_dec t (x s)) as [->|N]; [rewrite update_self; auto|].
        specialize (He t). cbn in He. unfold R_dist in He. rewrite update_self in He.
        assert (L : Rabs (seval a (update x s t) - seval a x) < seval a x) by (apply He; repeat split; auto).
        apply Rabs_def2 in L. lra. }
    exists (Rmin e1 e2). split; [apply Rmin_case; auto|]. intros t Ht.
    split; [apply D1|apply D2]; eapply Rlt_le_trans; try exact Ht; [apply Rmin_l|apply Rmin_r].
Qed.

(** Mixed derivatives. *)
Definition ddu (u : ufun) (a : sx) (x : string -> R) : R :=
  match u with
  | Uinv => 2 * (/ seval a x * / seval a x * / seval a x)
  | Uexp => exp (seval a x)
  | Uln => - (/ seval a x * / seval a x)
  | Usin => - sin (seval a x)
  | Ucos => - cos (seval a x)
  | Uatan => - (2 * seval a x * (/ (1 + seval a x * seval a x) * / (1 + seval a x * seval a x)))
  | Uerf => 2 / sqrt PI * (- (2 * seval a x) * exp (-1 * (seval a x * seval a x)))
  end.
Lemma sd_du s u a x : seval (sd s (du u a)) x = seval (sd s a) x * ddu u a x.
Proof. destruct u; cbn; ring. Qed.
Lemma sd_comm s t a : forall x, seval (sd s (sd t a)) x = seval (sd t (sd s a)) x.
Proof.
  induction a; intros x; cbn; auto.
  - rewrite IHa1, IHa2. auto.
  - rewrite IHa1, IHa2. ring.
  - rewrite !sd_du, IHa. ring.
Qed.
(** Equal functions have equal derivatives. *)
Lemma sd_ext s a b c : (forall x, sdef c x -> sdef a x /\ sdef b x) -> (forall x, sdef c x -> seval a x = seval b x) ->
  forall x, sdef c x -> seval (sd s a) x = seval (sd s b) x.
Proof.
  intros D E x Hc. destruct (D x Hc) as [Ha Hb]. pose proof (sd_derive s a x Ha) as Da. pose proof (sd_derive s b x Hb) as Db.
  apply is_derive_unique in Db. rewrite <- Db. symmetry. apply is_derive_unique.
  apply (is_derive_ext_loc (fun t => seval a (update x s t))); auto.
  destruct (sdef_open s c x Hc) as (e & Pe & He). exists (mkposreal e Pe). intros t Ht. apply E, He. exact Ht.
Qed.

(** The derivative with exponents [k] over the variables [W]. *)
Fixpoint times (s : string) (n : nat) (a : sx) : sx := match n with O => a | S n => sd s (times s n a) end.
Fixpoint sdk (W : list string) (k : list nat) (a : sx) : sx :=
  match W, k with s :: W, n :: k => times s n (sdk W k a) | _, _ => a end.
Lemma times_def s n a x : sdef a x -> sdef (times s n a) x.
Proof. intros H. induction n; cbn; auto. apply sd_def; auto. Qed.
Lemma sdk_def W : forall k a x, sdef a x -> sdef (sdk W k a) x.
Proof. induction W; intros [|n k] b x H; cbn; auto. apply times_def. auto. Qed.
Lemma times_ext s n a b c : (forall x, sdef c x -> sdef a x /\ sdef b x) -> (forall x, sdef c x -> seval a x = seval b x) ->
  forall x, sdef c x -> seval (times s n a) x = seval (times s n b) x.
Proof.
  intros D E. induction n; cbn; auto. apply sd_ext; auto. intros x H. destruct (D x H). split; apply times_def; auto.
Qed.
Lemma times_comm s t n a : forall x, sdef a x -> seval (sd s (times t n a)) x = seval (times t n (sd s a)) x.
Proof.
  induction n; cbn; auto. intros x H. rewrite sd_comm. revert x H. apply (sd_ext t _ _ a); auto.
  intros x H. split; [apply sd_def, times_def|apply times_def, sd_def]; auto.
Qed.

(** ** Continuity and bounds *)
Definition cont (f : (string -> R) -> R) : Prop :=
  forall e, 0 < e -> exists r, 0 < r /\ forall x, small x r -> Rabs (f x - f center) <= e.
Lemma small_le x r r' : small x r -> r <= r' -> small x r'.
Proof. intros H L s. eapply Rle_trans; [apply H|exact L]. Qed.
Lemma small_center r : 0 <= r -> small center r.
Proof. intros H s. unfold center. rewrite Rabs_R0. auto. Qed.
Lemma cont_comp (phi : R -> R) f : continuity_pt phi (f center) -> cont f -> cont (fun x => phi (f x)).
Proof.
  intros P F e He. destruct (P e He) as (d & Hd & D). destruct (F (d / 2) ltac:(lra)) as (r & Hr & Fr).
  exists r. split; auto. intros x Hx. specialize (Fr x Hx). destruct (Req_dec (f center) (f x)) as [E|N].
  - rewrite <- E, Rminus_eq_0, Rabs_R0. lra.
  - left. apply (D (f x)). repeat split; auto. cbn. unfold R_dist. lra.
Qed.
Lemma cont_plus f g : cont f -> cont g -> cont (fun x => f x + g x).
Proof.
  intros F G e He. destruct (F (e / 2) ltac:(lra)) as (r1 & P1 & B1), (G (e / 2) ltac:(lra)) as (r2 & P2 & B2).
  exists (Rmin r1 r2). split; [apply Rmin_case; auto|]. intros x Hx.
  specialize (B1 x (small_le _ _ _ Hx (Rmin_l _ _))). specialize (B2 x (small_le _ _ _ Hx (Rmin_r _ _))).
  replace (f x + g x - (f center + g center)) with ((f x - f center) + (g x - g center)) by ring.
  eapply Rle_trans; [apply Rabs_triang|lra].
Qed.
Lemma cont_mult f g : cont f -> cont g -> cont (fun x => f x * g x).
Proof.
  intros F G e He. set (A := Rabs (f center)). set (B := Rabs (g center)).
  assert (0 <= A) by apply Rabs_pos. assert (0 <= B) by apply Rabs_pos.
  set (q := Rmin 1 (e / (A + B + 1))).
  assert (Q : 0 < q) by (apply Rmin_case; [lra|apply Rdiv_lt_0_compat; lra]).
  assert (Q1 : q <= 1) by apply Rmin_l.
  assert (Q2 : q * (A + B + 1) <= e).
  { apply Rle_trans with (e / (A + B + 1) * (A + B + 1)); [apply Rmult_le_compat_r; [lra|apply Rmin_r]|right; field; lra]. }
  destruct (F q Q) as (r1 & P1 & B1), (G q Q) as (r2 & P2 & B2).
  exists (Rmin r1 r2). split; [apply Rmin_case; auto|]. intros x Hx.
  specialize (B1 x (small_le _ _ _ Hx (Rmin_l _ _))). specialize (B2 x (small_le _ _ _ Hx (Rmin_r _ _))).
  replace (f x * g x - f center * g center) with ((f x - f center) * (g x - g center) + f center * (g x - g center) + g center * (f x - f center)) by ring.
  eapply Rle_trans; [apply Rabs_triang|]. eapply Rle_trans; [apply Rplus_le_compat_r, Rabs_triang|]. rewrite !Rabs_mult. fold A B.
  assert (0 <= Rabs (f x - f center)) by apply Rabs_pos. assert (0 <= Rabs (g x - g center)) by apply Rabs_pos.
  assert (Rabs (f x - f center) * Rabs (g x - g center) <= q * 1) by (apply Rmult_le_compat; lra).
  assert (A * Rabs (g x - g center) <= A * q) by (apply Rmult_le_compat_l; lra).
  assert (B * Rabs (f x - f center) <= B * q) by (apply Rmult_le_compat_l; lra). lra.
Qed.
Lemma scont a : sdef a center -> cont (seval a).
Proof.
  induction a; cbn; intros H.
  - intros e He. exists 1. split; [lra|]. intros. rewrite Rminus_eq_0, Rabs_R0. lra.
  - intros e He. exists e. split; auto. intros x Hx. unfold center. rewrite Rminus_0_r. apply Hx.
  - destruct H. apply (cont_plus (seval a1) (seval a2)); auto.
  - destruct H. apply (cont_mult (seval a1) (seval a2)); auto.
  - destruct H. apply (cont_comp (ueval u) (seval a)); auto. apply derivable_continuous_pt.
    eexists. apply is_derive_Reals, ueval_derive. auto.
Qed.

Definition bnd (r : R) (f : (string -> R) -> R) : Prop := exists M, forall x, small x r -> Rabs (f x) <= M.
Lemma bnd_const r c : bnd r (fun _ => c).
Proof. exists (Rabs c). intros. apply Rle_refl. Qed.
Lemma bnd_plus r f g : bnd r f -> bnd r g -> bnd r (fun x => f x + g x).
Proof. intros (M & F) (N & G). exists (M + N). intros x Hx. eapply Rle_trans; [apply Rabs_triang|]. apply Rplus_le_compat; auto. Qed.
Lemma bnd_mult r f g : bnd r f -> bnd r g -> bnd r (fun x => f x * g x).
Proof. intros (M & F) (N & G). exists (M * N). intros x Hx. rewrite Rabs_mult. apply Rmult_le_compat; auto; apply Rabs_pos. Qed.
Lemma bnd_exp r f : bnd r f -> bnd r (fun x => exp (f x)).
Proof.
  intros (M & F). exists (exp M). intros x Hx. specialize (F x Hx). rewrite Rabs_pos_eq by (left; apply exp_pos).
  apply Rabs_le_between in F. destruct (proj2 F) as [L|E]; [left; apply exp_increasing; auto|rewrite E; lra].
Qed.
(** Every part is bounded. *)
Fixpoint sb (r : R) (a : sx) : Prop :=
  bnd r (seval a) /\
  match a with SC _ | SV _ => True | SAdd a b | SMul a b => sb r a /\ sb r b
  | SU u a => sb r a /\ (u = Uln -> bnd r (fun x => / seval a x)) end.
Lemma sb_bnd r a : sb r a -> bnd r (seval a).
Proof. destruct a; intros H; apply H. Qed.
Lemma sb_add r a b : sb r a -> sb r b -> sb r (SAdd a b).
Proof. intros A B. split; auto. apply (bnd_plus r (seval a) (seval b)); apply sb_bnd; auto. Qed.
Lemma sb_mul r a b : sb r a -> sb r b -> sb r (SMul a b).
Proof. intros A B. split; auto. apply (bnd_mult r (seval a) (seval b)); apply sb_bnd; auto. Qed.
Lemma sb_c r c : sb r (SC c).
Proof. split; auto. apply bnd_const. Qed.
Lemma sb_u r u a : u <> Uln -> bnd r (seval (SU u a)) -> sb r a -> sb r (SU u a).
Proof. intros U B A. split; auto. split; auto. intros E. contradiction. Qed.
Lemma sb_exp r a : sb r a -> sb r (SU Uexp a).
Proof. intros A. apply sb_u; [discriminate| |auto]. apply (bnd_exp r (seval a)), sb_bnd. auto. Qed.
Lemma sb_trig r u a : u = Usin \/ u = Ucos -> sb r a -> sb r (SU u a).
Proof.
  intros U A. apply sb_u; [destruct U; subst; discriminate| |auto]. exists 1. intros x _. apply Rabs_le.
  destruct U as [->| ->]; cbn; [apply SIN_bound|apply COS_bound].
Qed.
Lemma sb_inv1 r a : sb r a -> sb r (SU Uinv (SAdd (SC 1) (SMul a a))).
Proof.
  intros A. apply sb_u; [discriminate| |apply sb_add; [apply sb_c|apply sb_mul; auto]].
  exists 1. intros x _. cbn. set (y := seval a x). pose proof (sq_pos y).
  rewrite Rabs_pos_eq by (left; apply Rinv_0_lt_compat; auto). rewrite <- Rinv_1. apply Rinv_le_contravar; [lra|]. nra.
Qed.
Lemma sb_du r u a : sb r (SU u a) -> sb r (du u a).
Proof.
  intros H. assert (A : sb r a) by apply H. destruct u; cbn [du].
  - apply sb_mul; [apply sb_c|]. apply sb_mul; exact H.
  - exact H.
  - apply sb_u; [discriminate| |auto]. destruct H as (_ & _ & B). exact (B eq_refl).
  - apply sb_trig; auto.
  - apply sb_mul; [apply sb_c|]. apply sb_trig; auto.
  - apply sb_inv1; auto.
  - apply sb_mul; [apply sb_c|]. apply sb_exp. apply sb_mul; [apply sb_c|]. apply sb_mul; auto.
Qed.
Lemma sb_sd r s a : sb r a -> sb r (sd s a).
Proof.
  induction a as [c|v|a1 IH1 a2 IH2|a1 IH1 a2 IH2|u a IH]; intros H; cbn [sd].
  - apply sb_c.
  - apply sb_c.
  - apply sb_add; [apply IH1|apply IH2]; apply H.
  - destruct H as (_ & H1 & H2). apply sb_add; apply sb_mul; auto.
  - apply sb_mul; [apply IH; apply H|apply sb_du; auto].
Qed.
Lemma sb_sdk r W : forall k a, sb r a -> sb r (sdk W k a).
Proof.
  induction W as [|w W IH]; intros [|n k] a H; cbn; auto. specialize (IH k a H). induction n; cbn; auto. apply sb_sd; auto.
Qed.
Lemma bnd_le r r' f : r' <= r -> bnd r f -> bnd r' f.
Proof. intros L (M & B). exists M. intros x Hx. apply B. eapply small_le; eauto. Qed.
Lemma sb_le r r' a : r' <= r -> sb r a -> sb r' a.
Proof.
  intros L. induction a; cbn; intros H; decompose [and] H; repeat split; eauto using bnd_le.
Qed.
Lemma cont_bnd f : cont f -> exists r, 0 < r /\ bnd r f.
Proof.
  intros C. destruct (C 1 ltac:(lra)) as (r & Hr & B). exists r. split; auto. exists (Rabs (f center) + 1). intros x Hx.
  specialize (B x Hx). replace (f x) with (f center + (f x - f center)) by ring. eapply Rle_trans; [apply Rabs_triang|lra].
Qed.
(** A property that holds near the value at the center. *)
Lemma cont_near f (P : R -> Prop) : cont f -> (exists e, 0 < e /\ forall y, Rabs (y - f center) <= e -> P y) ->
  exists r, 0 < r /\ forall x, small x r -> P (f x).
Proof. intros C (e & He & H). destruct (C e He) as (r & Hr & B). exists r. split; auto. Qed.
Lemma near_neq0 p : p <> 0 -> exists e, 0 < e /\ forall y, Rabs (y - p) <= e -> y <> 0.
Proof.
  intros N. exists (Rabs p / 2). assert (0 < Rabs p) by (apply Rabs_pos_lt; auto). split; [lra|]. intros y H1 E. subst y.
  rewrite Rminus_0_l, Rabs_Ropp in H1. lra.
Qed.
Lemma near_gt0 a p : a < p -> exists e, 0 < e /\ forall y, Rabs (y - p) <= e -> a < y.
Proof. intros N. exists ((p - a) / 2). split; [lra|]. intros y H1. apply Rabs_le_between in H1. lra. Qed.
Lemma near_lt0 b p : p < b -> exists e, 0 < e /\ forall y, Rabs (y - p) <= e -> y < b.
Proof. intros N. exists ((b - p) / 2). split; [lra|]. intros y H1. apply Rabs_le_between in H1. lra. Qed.
Lemma near_and r1 r2 (P Q : (string -> R) -> Prop) : (forall x, small x r1 -> P x) -> (forall x, small x r2 -> Q x) ->
  forall x, small x (Rmin r1 r2) -> P x /\ Q x.
Proof. intros A B x Hx. split; [apply A|apply B]; eapply small_le; try exact Hx; [apply Rmin_l|apply Rmin_r]. Qed.
Lemma sdef_near a : sdef a center -> exists r, 0 < r /\ sb r a /\ forall x, small x r -> sdef a x.
Proof.
  induction a as [c|v|a1 IH1 a2 IH2|a1 IH1 a2 IH2|u a IH]; intros H.
  - exists 1. split; [lra|]. split; [apply sb_c|cbn; auto].
  - exists 1. split; [lra|]. split; [|cbn; auto]. split; auto. exists 1. intros x Hx. apply Hx.
  - destruct H as [H1 H2]. destruct (IH1 H1) as (r1 & P1 & B1 & D1), (IH2 H2) as (r2 & P2 & B2 & D2).
    exists (Rmin r1 r2). split; [apply Rmin_case; auto|]. split; [|exact (near_and _ _ _ _ D1 D2)].
    apply sb_add; [apply (sb_le r1); auto; apply Rmin_l|apply (sb_le r2); auto; apply Rmin_r].
  - destruct H as [H1 H2]. destruct (IH1 H1) as (r1 & P1 & B1 & D1), (IH2 H2) as (r2 & P2 & B2 & D2).
    exists (Rmin r1 r2). split; [apply Rmin_case; auto|]. split; [|exact (near_and _ _ _ _ D1 D2)].
    apply sb_mul; [apply (sb_le r1); auto; apply Rmin_l|apply (sb_le r2); auto; apply Rmin_r].
  - assert (CU := scont (SU u a) H). destruct H as [H1 H2]. assert (CA := scont a H1).
    destruct (IH H1) as (r1 & P1 & B1 & D1). destruct (cont_bnd _ CU) as (r2 & P2 & B2).
    assert (exists r3, 0 < r3 /\ (forall x, small x r3 -> udef u (seval a x)) /\ (u = Uln -> bnd r3 (fun x => / seval a x))) as (r3 & P3 & U3 & I3).
    { destruct u; try (exists 1; split; [lra|]; split; [cbn; auto|discriminate]; fail).
      - destruct (cont_near _ (fun y => y <> 0) CA (near_neq0 _ H2)) as (r & Pr & Hr). exists r. split; auto. split; auto. discriminate.
      - cbn in H2. destruct (cont_near _ (fun y => 0 < y) CA (near_gt0 _ _ H2)) as (r & Pr & Hr).
        assert (CI : cont (seval (SU Uinv a))) by (apply scont; split; auto; cbn; intros ?; lra).
        destruct (cont_bnd _ CI) as (r' & Pr' & Br'). exists (Rmin r r'). split; [apply Rmin_case; auto|]. split.
        + intros x Hx. apply Hr. eapply small_le; [exact Hx|apply Rmin_l].
        + intros _. apply (bnd_le r'); [apply Rmin_r|exact Br']. }
    exists (Rmin r1 (Rmin r2 r3)). assert (L2 : Rmin r1 (Rmin r2 r3) <= r2) by (eapply Rle_trans; [apply Rmin_r|apply Rmin_l]).
    assert (L3 : Rmin r1 (Rmin r2 r3) <= r3) by (eapply Rle_trans; [apply Rmin_r|apply Rmin_r]).
    split; [repeat apply Rmin_case; auto|]. split; [split; [apply (bnd_le r2); auto|split; [apply (sb_le r1); auto; apply Rmin_l|]]|].
    + intros E. apply (bnd_le r3); auto.
    + intros x Hx. split; [apply D1|apply U3]; eapply small_le; try exact Hx; auto. apply Rmin_l.
Qed.
