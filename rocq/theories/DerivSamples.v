(** * Samples for the derivatives of programs: y * (x * log(x)) at x = 1, y = 2.0 *)
From Coq Require Import String Ascii Reals List ZArith Bool Arith Lra Lia.
From Coquelicot Require Import Coquelicot.
From Verif Require Import Ops Syms Poly Gdual Functions Spec ElemR SpecTaylor PyFun SpecPy PyFunProofs PySamples Smooth SmoothFun PyDeriv.
Import ListNotations.
Open Scope R_scope.
Local Open Scope string_scope.

Definition dexpr : pyexpr R := EBin BMul (EName "y") (EBin BMul (EName "x") (ECall "log" (EName "x"))).
Lemma dreal x : py_real dexpr (inputs case_gd (fun _ => case_x) (fun _ => 2) x) = 2 * ((1 + x "dx") * ln (1 + x "dx")).
Proof. rewrite case_inputs. cbn. reflexivity. Qed.
Lemma dsmooth : py_smooth case_gd dexpr (inputs case_gd (fun _ => case_x) (fun _ => 2) center) 3.
Proof.
  rewrite case_inputs. unfold center. cbn. unfold math_ok. cbn. repeat split; auto. lra.
Qed.
Lemma dsyms g : py_eval case_env dexpr = Ok (VGdual g) -> psyms (gp g) = ["dx"] /\ get_order g = 3%nat.
Proof.
  assert (E : py_eval case_env dexpr = Ok (VGdual (gmul_sg 2 (gmul case_x (run1 Flog case_x))))) by reflexivity.
  rewrite E. intros H. injection H as <-. split; reflexivity.
Qed.

Lemma second F : derivatives ["dx"] 3 (fun x => 2 * ((1 + x "dx") * ln (1 + x "dx"))) F -> F [2%nat] center = 2.
Proof.
  intros (F0 & r & Hr & D & _). cbn in F0.
  assert (F1 : forall x, small x (Rmin r (1 / 2)) -> F [1%nat] x = 2 * (ln (1 + x "dx") + 1)).
  { intros x Hx. assert (B : Rabs (x "dx") <= 1 / 2) by (eapply Rle_trans; [apply Hx|apply Rmin_r]). apply Rabs_le_between in B.
    assert (X := D [0%nat] "dx" x eq_refl ltac:(cbn; lia) ltac:(left; auto) (small_le _ _ _ Hx (Rmin_l _ _))). cbn in X.
    apply is_derive_Reals, is_derive_unique in X. rewrite <- X. apply is_derive_unique.
    apply (is_derive_ext (fun t => 2 * ((1 + t) * ln (1 + t)))); [intros t; rewrite F0; reflexivity|].
    auto_derive; [lra|field; lra]. }
  assert (X := D [1%nat] "dx" center eq_refl ltac:(cbn; lia) ltac:(left; auto) (small_center r ltac:(lra))). cbn in X.
  apply is_derive_Reals, is_derive_unique in X. rewrite <- X. apply is_derive_unique.
  assert (Hq : 0 < Rmin r (1 / 2)) by (apply Rmin_case; lra).
  apply (is_derive_ext_loc (fun t => 2 * (ln (1 + t) + 1))).
  - exists (mkposreal _ Hq). intros t Ht. symmetry. change (Rabs (t - 0) < Rmin r (1 / 2)) in Ht. rewrite Rminus_0_r in Ht.
    rewrite F1; [reflexivity|]. intros s. unfold update, center. destruct (String.eqb s "dx"); [lra|rewrite Rabs_R0; lra].
  - unfold center. auto_derive; [lra|field].
Qed.
Lemma deriv_case : exists g, py_eval case_env dexpr = Ok (VGdual g) /\ get_derivative g [2%nat] = Ok 2.
Proof.
  destruct (python_derivatives 3 3 case_gd case_env (fun _ => case_x) (fun _ => 2) dexpr) as (g & Eg & O & (F & HF) & D).
  - intros s. unfold case_env. destruct (case_gd s); reflexivity.
  - exact dsmooth.
  - reflexivity.
  - intros s _. exact case_input.
  - lia.
  - exists g. split; auto. destruct (dsyms g Eg) as [S Og]. rewrite (D F HF [2%nat]).
    + f_equal. apply second. rewrite S in HF. destruct HF as (F0 & r & Hr & HD & HB). split; [|exists r; auto].
      intros x. rewrite F0. apply dreal.
    + rewrite S. reflexivity.
    + cbn. lia.
    + rewrite Og. cbn. lia.
    + intros i [<-|[]]. lia.
Qed.
(** The derivative in x is 2 * (log(x) + 1). *)
Lemma partial_case : exists g r, py_eval case_env dexpr = Ok (VGdual g) /\ gpartial g "x" = Ok r /\
  taylor_of 2 r (fun x => 2 * (ln (1 + x "dx") + 1)).
Proof.
  set (g := gmul_sg 2 (gmul case_x (run1 Flog case_x))). assert (E : py_eval case_env dexpr = Ok (VGdual g)) by reflexivity.
  destruct (gpartial g "x") as [r|] eqn:Er; [|discriminate]. exists g, r. split; auto. split; auto.
  apply (python_partial 2 3 case_gd case_env (fun _ => case_x) (fun _ => 2) dexpr) with (s := "x") (g := g); auto.
  - intros s. unfold case_env. destruct (case_gd s); reflexivity.
  - exact dsmooth.
  - intros s _. exact case_input.
  - exists (1 / 2). split; [lra|]. intros x Hx. assert (B := Hx "dx"). apply Rabs_le_between in B.
    apply is_derive_Reals. apply (is_derive_ext (fun t => 2 * ((1 + t) * ln (1 + t)))); [intros t; rewrite dreal; reflexivity|].
    change (dsym "x") with "dx". auto_derive; [lra|field; lra].
Qed.
(** The same in C++: 2 * (x * log(x)). *)
Definition cexpr : expr := NumMul 2 (Mul (Var "x") (Fun1 Flog (Var "x"))).
Lemma cderiv_case : exists g, calc (fun _ => 1) (fun _ => 3%nat) cexpr = Ok g /\ get_derivative g [2%nat] = Ok 2.
Proof.
  destruct (program_derivatives (fun _ => 1) (fun _ => 3%nat) 3 3 cexpr) as (g & Eg & O & (F & HF) & D).
  - intros; lia.
  - cbn. unfold goodv. repeat split; try lia; exists "x"%char, ""; split; auto; discriminate.
  - cbn. auto.
  - cbn. repeat split; auto. lra.
  - lia.
  - exists g. split; auto.
    assert (E : calc (fun _ => 1) (fun _ => 3%nat) cexpr = Ok (gmul_sg 2 (gmul case_x (run1 Flog case_x)))) by reflexivity.
    rewrite E in Eg. injection Eg as <-. rewrite (D F HF [2%nat]).
    + f_equal. apply second. exact HF.
    + reflexivity.
    + cbn. lia.
    + cbn. lia.
    + intros i [<-|[]]. lia.
Qed.
