(** * A Python expression (examples for C51). *)
From Coq Require Import String Ascii Reals Lra Lia List ZArith Bool.
From Verif Require Import Ops Syms Poly Gdual Functions Spec CoreProofs ValueProofs MiscProofs ElemR SpecTaylor TayProofs TayIdent PyFun SpecPy PyFunProofs.
Import ListNotations.
Open Scope R_scope.
Local Open Scope string_scope.

Definition case_gd (s : string) : bool := String.eqb s "x".
Definition case_x : gdual R := match gvar 1 "x" 3 with Ok g => g | Throw _ => gdefault end.
Definition case_env (s : string) : pyval R := if case_gd s then VGdual case_x else VFloat 2.
Definition case_expr : pyexpr R :=
  EBin BAdd
    (EBin BSub
      (EBin BAdd (EBin BMul (EInt 2) (EBin BPow (EName "x") (EInt 2))) (EBin BDiv (EName "y") (EBin BAdd (EInt 1) (ECall "exp" (EName "x")))))
      (ECall "log10" (EName "y")))
    (EBin BPow (EMethod "arctan" (EName "x")) (EBin BDiv (EInt 1) (EInt 2))).

Lemma case_var : gvar 1 "x" 3 = Ok case_x.
Proof. reflexivity. Qed.
Lemma case_value x : value case_x x = 1 + x "dx".
Proof. rewrite (gvar_value (1 : R) "x" 3 case_x x case_var). reflexivity. Qed.
Lemma case_input : input 3 3 case_x.
Proof.
  split; [exact (reach_var _ _ _ _ case_var)|]. pose proof (gvar_spec (1 : R) "x" 3) as S. rewrite case_var in S.
  destruct S as (_ & _ & O & S & _). split; [|left; unfold get_order in *; lia].
  rewrite S. intros s [<-|[]]. exists "x"%char, "". split; [reflexivity|discriminate].
Qed.
Lemma case_inputs x : inputs case_gd (fun _ => case_x) (fun _ => 2) x = fun s => if case_gd s then 1 + x "dx" else 2.
Proof. apply FunctionalExtensionality.functional_extensionality. intros s. unfold inputs. rewrite case_value. reflexivity. Qed.

Lemma python_case : exists g, py_eval case_env case_expr = Ok (VGdual g) /\ (get_order g <= 3)%nat /\
  constant_cf g = 2 + 2 / (1 + exp 1) - ln 2 / ln 10 + sqrt (PI / 4) /\
  taylor_of 3 g (fun x => 2 * ((1 + x "dx") * (1 + x "dx")) + 2 / (1 + exp (1 + x "dx")) - ln 2 / ln 10 + rpow (atan (1 + x "dx")) (1 / 2)).
Proof.
  assert (E : forall x, py_real case_expr (inputs case_gd (fun _ => case_x) (fun _ => 2) x)
     = 2 * ((1 + x "dx") * (1 + x "dx")) + 2 / (1 + exp (1 + x "dx")) - ln 2 / ln 10 + rpow (atan (1 + x "dx")) (1 / 2)).
  { intros x. rewrite case_inputs. cbn. rewrite rpow_2. reflexivity. }
  assert (E0 := E center). unfold center in E0 at 2 3 4 5. rewrite Rplus_0_r, atan_1 in E0.
  assert (P4 : 0 < PI / 4) by (pose proof PI_RGT_0; lra).
  rewrite (sqrt_rpow _ P4) in E0.
  destruct (python_gdual 3 3 case_gd case_env (fun _ => case_x) (fun _ => 2)) with (e := case_expr) as (g & Eg & I & C & T).
  - intros s. reflexivity.
  - intros s _. exact case_input.
  - rewrite case_inputs. unfold center. rewrite Rplus_0_r. cbn. unfold math_ok. cbn.
    repeat split; unfold anywhere, any_order; auto; try lra; try lia.
    + right. right. exists 1%nat. cbn. lra.
    + pose proof (exp_pos 1). lra.
    + left. rewrite atan_1. auto.
  - reflexivity.
  - exists g. split; [exact Eg|]. split; [|split].
    + destruct I as (_ & _ & O). lia.
    + rewrite C, E0. ring.
    + destruct T as (c & d & Hd & Hc & B). exists c, d. split; auto. split; auto. intros x r Hx Hr. rewrite <- E. auto.
Qed.

(** y**2 / 3 - log2(8) *)
Definition case_number : pyexpr R :=
  EBin BSub (EBin BDiv (EBin BPow (EName "y") (EInt 2)) (EInt 3)) (ECall "log2" (EInt 8)).
Lemma number_case : exists v, py_eval case_env case_number = Ok v /\ number_of v = Some (4 / 3 - 3).
Proof.
  destruct (python_number 3 0 case_gd case_env (fun _ => case_x) (fun _ => 2)) with (e := case_number) as (v & E & N).
  - intros s. reflexivity.
  - intros s _. destruct case_input as (R1 & R2 & R3). split; auto. split; auto. left. lia.
  - cbn. unfold math_ok. cbn. unfold any_order. repeat split; auto; try lra. left. lra.
  - reflexivity.
  - exists v. split; auto. rewrite N. cbn. f_equal. rewrite rpow_2.
    replace (ln 8) with (3 * ln 2). field; apply ln_neq0; lra.
    replace 8 with (2 ^ 3) by ring. rewrite <- (Rpower_pow 3 2) by lra. unfold Rpower. rewrite ln_exp. cbn. ring.
Qed.

(** (x + y) * (x - y) and x**2 - y * y *)
Lemma equal_case : exists g h,
  py_eval case_env (EBin BMul (EBin BAdd (EName "x") (EName "y")) (EBin BSub (EName "x") (EName "y"))) = Ok (VGdual g) /\
  py_eval case_env (EBin BSub (EBin BPow (EName "x") (EInt 2)) (EBin BMul (EName "y") (EName "y"))) = Ok (VGdual h) /\ geqb g h = true.
Proof.
  apply (python_equal 3 case_gd case_env (fun _ => case_x) (fun _ => 2)).
  - intros s. reflexivity.
  - intros s _. exact case_input.
  - cbn. tauto.
  - cbn. repeat split; auto. right. right. exists 1%nat. cbn. lra.
  - reflexivity.
  - reflexivity.
  - exists 1. split; [lra|]. intros y _. cbn. rewrite rpow_2. ring.
Qed.
