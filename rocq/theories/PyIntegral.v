(** * integrate() of the result of a program is the expansion of the integral (proof file for C54) *)
From Coq Require Import String Ascii Reals List ZArith Bool Arith Lra Lia.
From Coquelicot Require Import Coquelicot.
From Verif Require Import Ops Syms SymsFacts Poly Gdual Functions Spec ElemR SpecTaylor CoreProofs MiscProofs TayDeriv TayProofs TayIdent PyFun SpecPy PyFunProofs Smooth SmoothFun PyDeriv
  PySamples DerivSamples.
Import ListNotations.
Open Scope R_scope.
Local Open Scope string_scope.

Lemma update_twice (x : string -> R) s t u : update (update x s t) s u = update x s u.
Proof. apply FunctionalExtensionality.functional_extensionality. intros v. unfold update. destruct (String.eqb v s); auto. Qed.
Lemma update_same (x : string -> R) s t : update x s t s = t.
Proof. unfold update. rewrite String.eqb_refl. auto. Qed.
Lemma update_id (x : string -> R) s : update x s (x s) = x.
Proof. apply FunctionalExtensionality.functional_extensionality. intros v. unfold update. destruct (String.eqb_spec v s); subst; auto. Qed.

Lemma smooth_line s f : smoothf f -> exists q, 0 < q /\ forall x, small x q -> continuous (fun t => f (update x s t)) (x s).
Proof.
  intros (a & d & Hd & Da & Ea). destruct (sdef_near a Da) as (r1 & P1 & B1 & D1).
  exists (Rmin r1 (d / 2)). split; [apply Rmin_case; lra|]. intros x Hx. apply (@ex_derive_continuous R_AbsRing R_NormedModule). exists (seval (sd s a) x).
  apply (is_derive_ext_loc (fun t => seval a (update x s t))); [|apply sd_derive, D1; eapply small_le; [exact Hx|apply Rmin_l]].
  exists (mkposreal (d / 2) ltac:(lra)). intros t Ht. symmetry. apply Ea. intros v. unfold update.
  assert (Hv := Hx v). assert (Hs := Hx s). assert (L := Rmin_r r1 (d / 2)).
  destruct (String.eqb v s); [|lra]. change (Rabs (t - x s) < d / 2) in Ht. replace t with (x s + (t - x s)) by ring.
  eapply Rle_trans; [apply Rabs_triang|lra].
Qed.
(** The integral in one symbol from its center. *)
Definition integral_from_center (s : string) (f : (string -> R) -> R) (x : string -> R) : R := RInt (fun t => f (update x s t)) 0 (x s).
Lemma integral_primitive s f : smoothf f -> exists e, 0 < e /\ forall x, small x e ->
  integral_from_center s f (update x s 0) = 0 /\
  derivable_pt_lim (fun t => integral_from_center s f (update x s t)) (x s) (f x).
Proof.
  intros Sf. destruct (smooth_line s f Sf) as (q & Hq & Hc). exists (q / 2). split; [lra|]. intros x Hx.
  unfold integral_from_center. rewrite update_same. split; [exact (RInt_point (V := R_CompleteNormedModule) 0 _)|].
  set (h := fun u => f (update x s u)).
  assert (Ch : forall u, Rabs u <= q -> continuous h u).
  { intros u Hu. assert (Sx : small (update x s u) q).
    { intros v. unfold update. destruct (String.eqb v s); auto. specialize (Hx v). lra. }
    specialize (Hc _ Sx). rewrite update_same in Hc. revert Hc. apply continuous_ext. intros t. rewrite update_twice. reflexivity. }
  apply is_derive_Reals. apply (is_derive_ext (fun t => RInt h 0 t)).
  { intros t. rewrite update_same. apply RInt_ext. intros u _. unfold h. rewrite update_twice. reflexivity. }
  replace (f x) with (h (x s)) by (unfold h; rewrite update_id; reflexivity).
  assert (Xs := Hx s). apply (is_derive_RInt h (fun t => RInt h 0 t) 0 (x s)).
  - exists (mkposreal (q / 2) ltac:(lra)). intros t Ht. change (Rabs (t - x s) < q / 2) in Ht. apply (RInt_correct (V := R_CompleteNormedModule)).
    assert (Bt : Rabs t <= q) by (replace t with ((t - x s) + x s) by ring; eapply Rle_trans; [apply Rabs_triang|lra]).
    apply (ex_RInt_continuous (V := R_CompleteNormedModule)). intros z Hz. apply Ch. apply Rabs_le_between. apply Rabs_le_between in Bt.
    revert Hz. unfold Rmin, Rmax. destruct (Rle_dec 0 t); lra.
  - apply Ch. lra.
Qed.

Lemma integral_exists s f : smoothf f -> exists q, 0 < q /\ forall x, small x q -> ex_RInt (fun t => f (update x s t)) 0 (x s).
Proof.
  intros Sf. destruct (smooth_line s f Sf) as (q & Hq & Hc). exists q. split; auto. intros x Hx.
  apply (ex_RInt_continuous (V := R_CompleteNormedModule)). intros u Hz. assert (B := Hx s). apply Rabs_le_between in B.
  assert (Sx : small (update x s u) q).
  { intros v. unfold update. destruct (String.eqb v s); [|apply Hx]. apply Rabs_le_between. revert Hz. unfold Rmin, Rmax. destruct (Rle_dec 0 (x s)); lra. }
  specialize (Hc _ Sx). rewrite update_same in Hc. revert Hc. apply continuous_ext. intros t. rewrite update_twice. reflexivity.
Qed.

Lemma integral_smooth n N (g r : gdual R) s f : valid g -> smoothf f -> (Z.of_nat (get_order g) < 2147483648)%Z -> gintegrate g s = Ok r ->
  (N <= S n)%nat -> (N <= get_order g)%nat -> taylor_of n g f ->
  (exists q, 0 < q /\ forall x, small x q -> ex_RInt (fun t => f (update x (dsym s) t)) 0 (x (dsym s))) /\
  taylor_of N r (integral_from_center (dsym s) f).
Proof. intros V Sf O E L1 L2 T. split; [apply integral_exists; auto|]. apply (integrate_taylor n N g r s f); auto. apply integral_primitive. auto. Qed.

Lemma python_integral (n m : nat) (gd : string -> bool) (env : string -> pyval R) (G : string -> gdual R) (point : string -> R) (e : pyexpr R) :
  names_hold gd env G point -> py_smooth gd e (inputs gd G point center) m -> is_number gd e = false ->
  forall s r g N, (forall s, gd s = true -> input n m (G s)) -> (Z.of_nat m < 2147483648)%Z ->
  py_eval env e = Ok (VGdual g) -> gintegrate g s = Ok r -> (N <= S n)%nat -> (N <= get_order g)%nat ->
  (exists q, 0 < q /\ forall x, small x q -> ex_RInt (fun t => py_real e (inputs gd G point (update x (dsym s) t))) 0 (x (dsym s))) /\
  taylor_of N r (fun x => RInt (fun t => py_real e (inputs gd G point (update x (dsym s) t))) 0 (x (dsym s))).
Proof.
  intros HE HS HN s r g N HI M31 Eg Er L1 L2. pose proof (eval_ok m n gd env G point HE HI e HS) as H. rewrite HN in H.
  destruct H as (g' & Eg' & (V & O & T) & Rg & Go & Om). rewrite Eg in Eg'. injection Eg' as <-.
  apply (integral_smooth n N g r s (fun x => py_real e (inputs gd G point x))); auto; [exact (smooth_py gd G point e m HS)|lia].
Qed.
Lemma program_integral point order M n e g s r N : (forall s, (n <= order s <= M)%nat) ->
  names_ok order e -> SpecTaylor.fits e M -> smooth e point -> (Z.of_nat M < 2147483648)%Z ->
  calc point order e = Ok g -> gintegrate g s = Ok r -> (N <= S n)%nat -> (N <= get_order g)%nat ->
  (exists q, 0 < q /\ forall x, small x q -> ex_RInt (fun t => real e (fun v => point v + update x (dsym s) t (dsym v))) 0 (x (dsym s))) /\
  taylor_of N r (fun x => RInt (fun t => real e (fun v => point v + update x (dsym s) t (dsym v))) 0 (x (dsym s))).
Proof.
  intros HM Nm Ft Sm M31 Eg Er L1 L2. destruct (calc_inv point order M n HM e g Eg Ft Sm) as ((V & O & T) & _ & Om).
  apply (integral_smooth n N g r s (fun x => real e (fun v => point v + x (dsym v)))); auto; [apply smooth_program; auto|unfold get_order in *; lia].
Qed.
(** 2.0 * x * log(x): its integral, to order three *)
Lemma integral_case : exists g r, py_eval case_env dexpr = Ok (VGdual g) /\ gintegrate g "x" = Ok r /\
  taylor_of 3 r (fun x => RInt (fun t => 2 * ((1 + t) * ln (1 + t))) 0 (x "dx")).
Proof.
  set (g := gmul_sg 2 (gmul case_x (run1 Flog case_x))). assert (E : py_eval case_env dexpr = Ok (VGdual g)) by reflexivity.
  destruct (gintegrate g "x") as [r|] eqn:Er; [|discriminate]. exists g, r. split; auto. split; auto.
  apply (taylor_near 3 r (fun x => RInt (fun t => py_real dexpr (inputs case_gd (fun _ => case_x) (fun _ => 2) (update x (dsym "x") t))) 0 (x (dsym "x")))).
  - exists 1. split; [lra|]. intros x _. apply RInt_ext. intros t _. rewrite dreal. change (dsym "x") with "dx". rewrite (update_same x "dx" t). reflexivity.
  - apply (python_integral 3 3 case_gd case_env (fun _ => case_x) (fun _ => 2) dexpr) with (g := g); auto.
    + intros s. unfold case_env. destruct (case_gd s); reflexivity.
    + exact dsmooth.
    + intros s _. exact case_input.
    + reflexivity.
Qed.
