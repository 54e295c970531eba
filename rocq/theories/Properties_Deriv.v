(** * Property C54: the derivatives of programs

    [derivatives W n f F] (SpecTaylor.v): F k is the partial derivative of f
    with exponents k over the symbols W, near the center, for |k| <= n + 1.
    That all of them exist is part of the theorems. *)
From Coq Require Import String Ascii Reals List ZArith.
From Coquelicot Require Import Coquelicot.
From Verif Require Import Ops Syms SymsFacts Poly Gdual Functions Spec ElemR SpecTaylor PyFun SpecPy PySamples PyDeriv DerivSamples DictDeriv DictSamples PyIntegral.
Import ListNotations.
Open Scope R_scope.
Local Open Scope string_scope.

(** A Python expression over floats and gduals: the function it computes has
    all its partial derivatives, and get_derivative returns their values.
    Partial: exact real arithmetic; exponents above 170 throw
    (C19_high_derivatives_refuted). *)
Theorem C54_python_partial : forall (n m : nat) (gd : string -> bool) (env : string -> pyval R) (G : string -> gdual R) (point : string -> R) (e : pyexpr R),
  names_hold gd env G point -> py_smooth gd e (inputs gd G point center) m -> is_number gd e = false ->
  (forall s, gd s = true -> input n m (G s)) -> (Z.of_nat m < 4294967296)%Z ->
  let f := fun x => py_real e (inputs gd G point x) in
  exists g, py_eval env e = Ok (VGdual g) /\ ((n <= get_order g)%nat \/ get_order g = 0%nat) /\
  (exists F, derivatives (psyms (gp g)) n f F) /\
  forall F, derivatives (psyms (gp g)) n f F -> forall k, length k = length (psyms (gp g)) ->
    (list_sum k <= n)%nat -> (list_sum k <= get_order g)%nat -> (forall i, In i k -> (Z.of_nat i <= 170)%Z) ->
    get_derivative g k = Ok (F k center).
Proof. exact python_derivatives. Qed.
Print Assumptions C54_python_partial.
(** y * (x * log(x)) at x = gdual_double(1, "x", 3), y = 2.0 *)
Example C54_case : exists g, py_eval case_env dexpr = Ok (VGdual g) /\ get_derivative g [2%nat] = Ok 2.
Proof. exact deriv_case. Qed.

(** The same for C++ programs over gduals. *)
Theorem C54_programs_partial : forall point order M n e, (forall s, (n <= order s <= M)%nat) ->
  names_ok order e -> SpecTaylor.fits e M -> smooth e point -> (Z.of_nat M < 4294967296)%Z ->
  let f := fun x => real e (fun s => point s + x (dsym s)) in
  exists g, calc point order e = Ok g /\ ((n <= get_order g)%nat \/ get_order g = 0%nat) /\
    (exists F, derivatives (psyms (gp g)) n f F) /\
    forall F, derivatives (psyms (gp g)) n f F -> forall k, length k = length (psyms (gp g)) ->
      (list_sum k <= n)%nat -> (list_sum k <= get_order g)%nat -> (forall i, In i k -> (Z.of_nat i <= 170)%Z) ->
      get_derivative g k = Ok (F k center).
Proof. exact program_derivatives. Qed.
Print Assumptions C54_programs_partial.
Example C54_program_case : exists g, calc (fun _ => 1) (fun _ => 3%nat) cexpr = Ok g /\ get_derivative g [2%nat] = Ok 2.
Proof. exact cderiv_case. Qed.

(** Differentiating the result of a program: partial() is the expansion, one
    order lower, of the derivative of the function. *)
Theorem C54_python_derivative_partial : forall (n m : nat) (gd : string -> bool) (env : string -> pyval R) (G : string -> gdual R) (point : string -> R) (e : pyexpr R),
  names_hold gd env G point -> py_smooth gd e (inputs gd G point center) m -> is_number gd e = false ->
  forall s r g h, (forall s, gd s = true -> input (S n) m (G s)) -> py_eval env e = Ok (VGdual g) -> gpartial g s = Ok r ->
  (exists q, 0 < q /\ forall x, small x q ->
     derivable_pt_lim (fun t => py_real e (inputs gd G point (update x (dsym s) t))) (x (dsym s)) (h x)) ->
  taylor_of n r h.
Proof. exact python_partial. Qed.
Print Assumptions C54_python_derivative_partial.
Example C54_derivative_case : exists g r, py_eval case_env dexpr = Ok (VGdual g) /\ gpartial g "x" = Ok r /\
  taylor_of 2 r (fun x => 2 * (ln (1 + x "dx") + 1)).
Proof. exact partial_case. Qed.
Theorem C54_program_derivative_partial : forall point order M n e g s r h, (forall s, (S n <= order s <= M)%nat) ->
  names_ok order e -> SpecTaylor.fits e M -> smooth e point -> calc point order e = Ok g -> gpartial g s = Ok r ->
  (exists q, 0 < q /\ forall x, small x q ->
     derivable_pt_lim (fun t => real e (fun v => point v + update x (dsym s) t (dsym v))) (x (dsym s)) (h x)) ->
  taylor_of n r h.
Proof. exact program_partial. Qed.
Print Assumptions C54_program_derivative_partial.

(** get_derivative with a dictionary: the exponents [k] of the derivative over
    any set of symbols [W] are those of the dictionary, zero for the others.
    Symbols the gdual does not have are allowed; their exponents are positive,
    since with exponent zero they give zero (C20_dict_unknown_throws_refuted). *)
Theorem C54_python_dict_partial : forall (n m : nat) (gd : string -> bool) (env : string -> pyval R) (G : string -> gdual R) (point : string -> R) (e : pyexpr R),
  names_hold gd env G point -> py_smooth gd e (inputs gd G point center) m -> is_number gd e = false ->
  (forall s, gd s = true -> input n m (G s)) -> (Z.of_nat m < 4294967296)%Z ->
  let f := fun x => py_real e (inputs gd G point x) in
  exists g, py_eval env e = Ok (VGdual g) /\ ((n <= get_order g)%nat \/ get_order g = 0%nat) /\
  forall W, ssorted W -> incl (psyms (gp g)) W -> (exists F, derivatives W n f F) /\
  forall F dict, derivatives W n f F -> NoDup (map fst dict) -> incl (map fst dict) W ->
    (forall s j, In (s, j) dict -> (1 <= j)%nat /\ (Z.of_nat j <= 170)%Z) ->
    let k := map (expo (map fst dict) (map snd dict)) W in
    (list_sum k <= n)%nat -> (list_sum k <= get_order g)%nat -> get_derivative_dict g dict = Ok (F k center).
Proof. exact python_dict. Qed.
Print Assumptions C54_python_dict_partial.
Theorem C54_program_dict_partial : forall point order M n e, (forall s, (n <= order s <= M)%nat) ->
  names_ok order e -> SpecTaylor.fits e M -> smooth e point -> (Z.of_nat M < 4294967296)%Z ->
  let f := fun x => real e (fun s => point s + x (dsym s)) in
  exists g, calc point order e = Ok g /\ ((n <= get_order g)%nat \/ get_order g = 0%nat) /\
  forall W, ssorted W -> incl (psyms (gp g)) W -> (exists F, derivatives W n f F) /\
  forall F dict, derivatives W n f F -> NoDup (map fst dict) -> incl (map fst dict) W ->
    (forall s j, In (s, j) dict -> (1 <= j)%nat /\ (Z.of_nat j <= 170)%Z) ->
    let k := map (expo (map fst dict) (map snd dict)) W in
    (list_sum k <= n)%nat -> (list_sum k <= get_order g)%nat -> get_derivative_dict g dict = Ok (F k center).
Proof. exact program_dict. Qed.
Print Assumptions C54_program_dict_partial.
(** 2.0 * x * log(x): {"dx": 2} and {"dz": 1, "dx": 1} *)
Example C54_dict_case : exists g, py_eval case_env dexpr = Ok (VGdual g) /\ get_derivative_dict g [("dx", 2%nat)] = Ok 2 /\
  get_derivative_dict g [("dz", 1%nat); ("dx", 1%nat)] = Ok 0.
Proof. exact dict_case. Qed.

(** Integrating the result of a program: integrate() is the expansion, one
    order higher where the gdual's order allows, of the integral from the center
    in one symbol.  That the integral exists near the center is proved.
    Partial: exact real arithmetic; orders below 2^31. *)
Theorem C54_python_integral_partial : forall (n m : nat) (gd : string -> bool) (env : string -> pyval R) (G : string -> gdual R) (point : string -> R) (e : pyexpr R),
  names_hold gd env G point -> py_smooth gd e (inputs gd G point center) m -> is_number gd e = false ->
  forall s r g N, (forall s, gd s = true -> input n m (G s)) -> (Z.of_nat m < 2147483648)%Z ->
  py_eval env e = Ok (VGdual g) -> gintegrate g s = Ok r -> (N <= S n)%nat -> (N <= get_order g)%nat ->
  (exists q, 0 < q /\ forall x, small x q -> ex_RInt (fun t => py_real e (inputs gd G point (update x (dsym s) t))) 0 (x (dsym s))) /\
  taylor_of N r (fun x => RInt (fun t => py_real e (inputs gd G point (update x (dsym s) t))) 0 (x (dsym s))).
Proof. exact python_integral. Qed.
Print Assumptions C54_python_integral_partial.
Theorem C54_program_integral_partial : forall point order M n e g s r N, (forall s, (n <= order s <= M)%nat) ->
  names_ok order e -> SpecTaylor.fits e M -> smooth e point -> (Z.of_nat M < 2147483648)%Z ->
  calc point order e = Ok g -> gintegrate g s = Ok r -> (N <= S n)%nat -> (N <= get_order g)%nat ->
  (exists q, 0 < q /\ forall x, small x q -> ex_RInt (fun t => real e (fun v => point v + update x (dsym s) t (dsym v))) 0 (x (dsym s))) /\
  taylor_of N r (fun x => RInt (fun t => real e (fun v => point v + update x (dsym s) t (dsym v))) 0 (x (dsym s))).
Proof. exact program_integral. Qed.
Print Assumptions C54_program_integral_partial.
(** 2.0 * x * log(x), integrated to order three *)
Example C54_integral_case : exists g r, py_eval case_env dexpr = Ok (VGdual g) /\ gintegrate g "x" = Ok r /\
  taylor_of 3 r (fun x => RInt (fun t => 2 * ((1 + t) * ln (1 + t))) 0 (x "dx")).
Proof. exact integral_case. Qed.
