(** * Properties of Python expressions over numbers and gduals (C51)

    Vocabulary: SpecPy.v.  Model: PyFun.v.  Proofs: PyFunProofs.v. *)
From Coq Require Import String Ascii Reals List ZArith Lra Lia.
From Verif Require Import Ops Syms Poly Gdual Functions Spec ElemR SpecTaylor PyFun SpecPy PyFunProofs PySamples.
Import ListNotations.
Open Scope R_scope.
Local Open Scope string_scope.

(** ** C51 *)

(** A Python expression whose names hold floats and gduals.  With no gdual in
    it, its value is the number.  Otherwise it is a gdual, whatever the types
    of the subexpressions: the Taylor expansion of the same expression with
    each gdual replaced by the function it stands for.  Partial: exact real
    arithmetic; int, float and gdual_double only. *)
Theorem C51_programs_partial : forall (n m : nat) (gd : string -> bool) (env : string -> pyval R) (G : string -> gdual R) (point : string -> R) (e : pyexpr R),
  names_hold gd env G point -> (forall s, gd s = true -> input n m (G s)) ->
  py_smooth gd e (inputs gd G point center) m -> is_number gd e = false ->
  exists g, py_eval env e = Ok (VGdual g) /\ input 0 m g /\ constant_cf g = py_real e (inputs gd G point center) /\
    taylor_of n g (fun x => py_real e (inputs gd G point x)).
Proof. exact (fun n m gd env G point e H I S N => python_gdual m n gd env G point H I e S N). Qed.
Print Assumptions C51_programs_partial.

Theorem C51_numbers_partial : forall (m : nat) (gd : string -> bool) (env : string -> pyval R) (G : string -> gdual R) (point : string -> R) (e : pyexpr R),
  names_hold gd env G point -> (forall s, gd s = true -> input 0 m (G s)) ->
  py_smooth gd e (inputs gd G point center) m -> is_number gd e = true ->
  exists v, py_eval env e = Ok v /\ number_of v = Some (py_real e (inputs gd G point center)).
Proof. exact (fun m gd env G point e H I S N => python_number m 0 gd env G point H I e S N). Qed.
Print Assumptions C51_numbers_partial.

(** Two expressions that are equal as functions of real numbers near the
    point give equal gduals. *)
Theorem C51_equal_programs_partial : forall (n : nat) (gd : string -> bool) (env : string -> pyval R) (G : string -> gdual R) (point : string -> R) (e f : pyexpr R),
  names_hold gd env G point -> (forall s, gd s = true -> input n n (G s)) ->
  let p := inputs gd G point center in
  py_smooth gd e p n -> py_smooth gd f p n -> is_number gd e = false -> is_number gd f = false ->
  (exists d, 0 < d /\ forall y, (forall s, Rabs (y s - p s) <= d) -> py_real e y = py_real f y) ->
  exists g h, py_eval env e = Ok (VGdual g) /\ py_eval env f = Ok (VGdual h) /\ geqb g h = true.
Proof. exact python_equal. Qed.
Print Assumptions C51_equal_programs_partial.

(** Writing the integers of an expression as floats changes no value, for
    exact arithmetic: the same exceptions, numbers and gduals. *)
Theorem C51_int_float_partial : forall (env env' : string -> pyval R) (e : pyexpr R),
  (forall s, same_value (env s) (env' s)) -> same_result (py_eval env e) (py_eval env' (floats e)).
Proof. exact int_float. Qed.
Print Assumptions C51_int_float_partial.

(** Every function of the module is also a method of the class, with the same
    result; the inverse functions also under numpy's names. *)
Theorem C51_methods : forall (K : Type) (oK : Ops K) (eK : Elem K) (d : gdual K),
  (forall f, lookup f module_table <> None -> py_method f (VGdual d) = py_call f (VGdual d)) /\
  (forall f g, In (f, g) numpy_names -> py_method f (VGdual d) = py_call g (VGdual d)).
Proof. exact (fun K oK eK d => conj (fun f => methods K oK eK f d) (fun f g => numpy_methods K oK eK f g d)). Qed.
Print Assumptions C51_methods.

(** Inverse functions and powers. *)
Theorem C51_identities_partial : forall (env : string -> pyval R) (s : string) (d : gdual R),
  env s = VGdual d -> input (get_order d) (get_order d) d ->
  let x := EName s in
  let gives e g := py_eval env e = Ok (VGdual g) in
  (-1 < constant_cf d -> exists g, gives (ECall "expm1" (ECall "log1p" x)) g /\ geqb g d = true) /\
  (exists g, gives (ECall "log1p" (ECall "expm1" x)) g /\ geqb g d = true) /\
  (exists g, gives (ECall "log10" (EBin BPow (EInt 10) x)) g /\ geqb g d = true) /\
  (exists g, gives (ECall "log2" (EBin BPow (EInt 2) x)) g /\ geqb g d = true) /\
  (exists g h, gives (EBin BPow x (EInt 2)) g /\ gives (EBin BMul x x) h /\ geqb g h = true) /\
  (constant_cf d <> 0 -> exists g h, gives (EBin BPow x (EInt (-1))) g /\ gives (EBin BDiv (EInt 1) x) h /\ geqb g h = true) /\
  (0 < constant_cf d -> exists g h, gives (EBin BPow x (EBin BDiv (EInt 1) (EInt 2))) g /\ gives (ECall "sqrt" x) h /\ geqb g h = true).
Proof.
  exact (fun env s d H I => conj (expm1_log1p env s d H I) (conj (log1p_expm1 env s d H I) (conj (log10_pow env s d H I)
    (conj (log2_pow env s d H I) (conj (pow_two env s d H I) (conj (pow_minus_one env s d H I) (pow_half env s d H I))))))).
Qed.
Print Assumptions C51_identities_partial.

(** 2 * x**2 + y / (1 + exp(x)) - log10(y) + x.arctan() ** (1 / 2), where x is
    gdual_double(1, "x", 3) and y is 2.0. *)
Example C51_case : exists g, py_eval case_env case_expr = Ok (VGdual g) /\ (get_order g <= 3)%nat /\
  constant_cf g = 2 + 2 / (1 + exp 1) - ln 2 / ln 10 + sqrt (PI / 4) /\
  taylor_of 3 g (fun x => 2 * ((1 + x "dx") * (1 + x "dx")) + 2 / (1 + exp (1 + x "dx")) - ln 2 / ln 10 + rpow (atan (1 + x "dx")) (1 / 2)).
Proof. exact python_case. Qed.

(** y**2 / 3 - log2(8) is a number. *)
Example C51_number_case : exists v, py_eval case_env case_number = Ok v /\ number_of v = Some (4 / 3 - 3).
Proof. exact number_case. Qed.

(** (x + y) * (x - y) == x**2 - y * y *)
Example C51_equal_case : exists g h,
  py_eval case_env (EBin BMul (EBin BAdd (EName "x") (EName "y")) (EBin BSub (EName "x") (EName "y"))) = Ok (VGdual g) /\
  py_eval case_env (EBin BSub (EBin BPow (EName "x") (EInt 2)) (EBin BMul (EName "y") (EName "y"))) = Ok (VGdual h) /\ geqb g h = true.
Proof. exact equal_case. Qed.

(** log10(10**x) == x *)
Example C51_identity_case : exists g, py_eval case_env (ECall "log10" (EBin BPow (EInt 10) (EName "x"))) = Ok (VGdual g) /\ geqb g case_x = true.
Proof. exact (log10_pow case_env "x" case_x eq_refl case_input). Qed.
