(** * Samples for get_derivative with a dictionary *)
From Coq Require Import String Ascii Reals List ZArith Bool Arith Lra Lia.
From Verif Require Import Ops Syms SymsFacts Poly Gdual Functions Spec ElemR SpecTaylor PyFun SpecPy PyFunProofs PySamples PyDeriv DerivSamples DictDeriv.
Import ListNotations.
Open Scope R_scope.
Local Open Scope string_scope.

(** 2.0 * x * log(x): the second derivative in x is 2 at 1, those that involve
    another variable are zero. *)
Lemma dict_case : exists g, py_eval case_env dexpr = Ok (VGdual g) /\ get_derivative_dict g [("dx", 2%nat)] = Ok 2 /\
  get_derivative_dict g [("dz", 1%nat); ("dx", 1%nat)] = Ok 0.
Proof.
  destruct (python_dict 3 3 case_gd case_env (fun _ => case_x) (fun _ => 2) dexpr) as (g & Eg & O & D).
  - intros s. unfold case_env. destruct (case_gd s); reflexivity.
  - exact dsmooth.
  - reflexivity.
  - intros s _. exact case_input.
  - lia.
  - exists g. split; auto. destruct (dsyms g Eg) as [S Og]. split.
    + destruct (D ["dx"]) as [(F & HF) X]; [repeat constructor|rewrite S; intros s Hs; exact Hs|].
      rewrite (X F [("dx", 2%nat)] HF).
      * f_equal. apply second. destruct HF as (F0 & r & Hr & HD & HB). split; [|exists r; auto]. intros x. rewrite F0. apply dreal.
      * repeat constructor. intros [].
      * intros s Hs. exact Hs.
      * intros s j [H|[]]. injection H as <- <-. lia.
      * cbn. lia.
      * rewrite Og. cbn. lia.
    + unfold get_derivative_dict. rewrite S. reflexivity.
Qed.
