(** * Properties of Python expressions over Taylor models (C52)

    Vocabulary: SpecPy.v, SpecPyTM.v.  Model: PyTM.v.  Proofs: PyTMProofs.v,
    PyTMAffine.v, PyTMMore.v, PyTMTypes.v, PyTMSamples.v. *)
From Coq Require Import String Reals List ZArith.
From Verif Require Import Ops Syms Poly Gdual Functions Spec ElemR SpecTaylor Interval TaylorModel TMFunctions SpecTM TMSamples TMInst PyFun SpecPy PyTM SpecPyTM PyTMProofs PyTMAffine PyTMMore PyTMTypes PyTMSamples.
Import ListNotations.
Open Scope R_scope.
Local Open Scope string_scope.

(** ** C52 *)
Notation iterator := (list (string * (R * R)) -> list (string * (R * R))) (only parsing).

(** A Python expression whose names hold floats and Taylor models of orders
    from 1 to [m].  If it returns, then a Taylor model, and its polynomial is
    the Taylor expansion of the same expression with each Taylor model replaced
    by its polynomial.  Partial: exact real arithmetic; expressions in which no
    subexpression has the expansion zero (see the refutation) and in which the
    exponents of Taylor models are integers and halves, not zero; nothing about
    when it returns. *)
Theorem C52_polynomials_partial : forall (iv : IvFun R) (iter : iterator) (n m : nat) (tm : string -> bool) (env : string -> tval R)
    (S : string -> taylor_model R) (pt : string -> R) (e : pyexpr R),
  (2 * Z.of_nat m < 4294967285)%Z -> models_hold tm env S pt ->
  (forall s, tm s = true -> valid (m_tpol (S s)) /\ (1 <= get_order (m_tpol (S s)) <= m)%nat /\ (n <= get_order (m_tpol (S s)))%nat) ->
  let y := inputs tm (fun s => m_tpol (S s)) pt in
  py_smooth tm e (y center) m -> proper tm n y e -> is_number tm e = false ->
  forall v, tp_eval iter env e = Ok v -> exists T, v = TModel T /\ (1 <= get_order (m_tpol T) <= m)%nat /\
    constant_cf (m_tpol T) = py_real e (y center) /\ taylor_of n (m_tpol T) (fun x => py_real e (y x)).
Proof. exact @model_polynomial. Qed.
Print Assumptions C52_polynomials_partial.

(** It is the gdual that the same expression gives when the names hold the
    polynomials of the Taylor models. *)
Theorem C52_same_as_gduals_partial : forall (iv : IvFun R) (iter : iterator) (n : nat) (tm : string -> bool) (env : string -> tval R)
    (S : string -> taylor_model R) (genv : string -> pyval R) (pt : string -> R) (e : pyexpr R),
  (1 <= n)%nat -> (2 * Z.of_nat n < 4294967285)%Z -> models_hold tm env S pt ->
  (forall s, tm s = true -> input n n (m_tpol (S s)) /\ get_order (m_tpol (S s)) = n) ->
  names_hold tm genv (fun s => m_tpol (S s)) pt ->
  let y := inputs tm (fun s => m_tpol (S s)) pt in
  py_smooth tm e (y center) n -> proper tm n y e -> is_number tm e = false ->
  forall v, tp_eval iter env e = Ok v -> exists T g, v = TModel T /\ py_eval genv e = Ok (VGdual g) /\ geqb (m_tpol T) g = true.
Proof. exact @model_gdual. Qed.
Print Assumptions C52_same_as_gduals_partial.

(** Two expressions that are equal as functions of real numbers near the
    expansion point give equal polynomials. *)
Theorem C52_equal_programs_partial : forall (iv : IvFun R) (iter : iterator) (n : nat) (tm : string -> bool) (env : string -> tval R)
    (S : string -> taylor_model R) (pt : string -> R) (e f : pyexpr R),
  (1 <= n)%nat -> (2 * Z.of_nat n < 4294967285)%Z -> models_hold tm env S pt ->
  (forall s, tm s = true -> input n n (m_tpol (S s)) /\ get_order (m_tpol (S s)) = n) ->
  let y := inputs tm (fun s => m_tpol (S s)) pt in
  py_smooth tm e (y center) n -> proper tm n y e -> is_number tm e = false ->
  py_smooth tm f (y center) n -> proper tm n y f -> is_number tm f = false ->
  (exists d, 0 < d /\ forall z, (forall s, Rabs (z s - y center s) <= d) -> py_real e z = py_real f z) ->
  forall T U, tp_eval iter env e = Ok (TModel T) -> tp_eval iter env f = Ok (TModel U) -> geqb (m_tpol T) (m_tpol U) = true.
Proof. exact @model_equal. Qed.
Print Assumptions C52_equal_programs_partial.

(** Without the condition on zero expansions the polynomials are wrong: for
    the variable x at 0 and order 1, (1 + x**3) * (1 + x**3) has the polynomial 0. *)
Theorem C52_vanishing_refuted : forall (iv : IvFun R) (iter : iterator), permutes iter -> ordered_on iter ["x"] ->
  exists tm env S pt e T, models_hold tm env S pt /\
    (forall s, tm s = true -> well_formed (S s) /\ get_order (m_tpol (S s)) = 1%nat /\ m_rem (S s) = (0, 0)) /\
    py_smooth tm e (inputs tm (fun s => m_tpol (S s)) pt center) 1 /\ is_number tm e = false /\
    tp_eval iter env e = Ok (TModel T) /\ (forall x, value (m_tpol T) x = 0) /\ py_real e (inputs tm (fun s => m_tpol (S s)) pt center) = 1.
Proof. exact @cube_square_wrong. Qed.
Print Assumptions C52_vanishing_refuted.

(** Sums and multiples: the enclosures are right, whatever the remainders, if
    no Taylor model is negated or subtracted from a number; otherwise if the
    remainders are symmetric.  The operands share expansion points and domains. *)
Theorem C52_affine_partial : forall (iv : IvFun R) (iter : iterator) (tm : string -> bool) (env : string -> tval R)
    (S : string -> taylor_model R) (pt : string -> R) (D : point -> Prop) (F : string -> point -> R)
    (c : string -> R) (J : string -> R * R) (e : pyexpr R),
  models_hold tm env S pt -> (forall s, tm s = true -> represents D (S s) (F s) /\ about c J (S s)) ->
  (forall s, tm s = true -> symmetric (S s)) \/ no_negation tm e ->
  affine tm e -> py_smooth tm e pt 0 -> is_number tm e = false ->
  exists T, tp_eval iter env e = Ok (TModel T) /\ represents D T (fun x => py_real e (values tm F pt x)) /\ about c J T.
Proof. exact @affine_enclosed. Qed.
Print Assumptions C52_affine_partial.

(** Every function of the module that takes Taylor models is also a method,
    with the same result; the inverse functions also under numpy's names. *)
Theorem C52_methods : forall (K : Type) (oK : Ops K) (eK : Elem K) (iv : IvFun K) (iter : list (string * (K * K)) -> list (string * (K * K))) (t : taylor_model K),
  (forall f, lookup f tm_module_table <> None -> tp_method iter f (TModel t) = tp_call iter f (TModel t)) /\
  (forall f g, In (f, g) numpy_names -> tp_method iter f (TModel t) = tp_call iter g (TModel t)).
Proof. exact tm_methods. Qed.
Print Assumptions C52_methods.

(** If an expression returns with its integers written as floats, it returns
    the same with integers.  Partial: exact arithmetic. *)
Theorem C52_int_float_partial : forall (iv : IvFun R) (iter : iterator) (env : string -> tval R) (e : pyexpr R),
  (forall s, not_int (env s)) -> forall v, tp_eval iter env (floats e) = Ok v -> exists w, tp_eval iter env e = Ok w /\ same_t w v.
Proof. exact (fun iv iter env e H v E => proj2 (floats_model iter env e H v E)). Qed.
Print Assumptions C52_int_float_partial.

(** An expression that returns combines its types as listed in [type_of], and
    its result has that type; every other combination raises. *)
Theorem C52_types : forall (K : Type) (oK : Ops K) (eK : Elem K) (iv : IvFun K) (iter : list (string * (K * K)) -> list (string * (K * K)))
    (env : string -> tval K) (e : pyexpr K) (v : tval K),
  tp_eval iter env e = Ok v -> type_of (fun s => kind_of (env s)) e = Some (kind_of v).
Proof. exact @types. Qed.
Print Assumptions C52_types.

(** Each of the sixteen functions of Taylor models calls the C++ function of
    that name, as a function of the module and as a method. *)
Theorem C52_functions : forall (iv : IvFun R) (iter : iterator) (f : string), listed f model_functions = true ->
  exists F, (forall x, real1 F x = math_fun f x) /\
    forall t, tp_call iter f (TModel t) = rbind (tm_apply iter F t) (fun T => Ok (TModel T)) /\
      tp_method iter f (TModel t) = rbind (tm_apply iter F t) (fun T => Ok (TModel T)).
Proof. exact @functions_named. Qed.
Print Assumptions C52_functions.

(** Intervals as operands: adding one, on either side, or subtracting one
    encloses the result. *)
Theorem C52_intervals : forall (iv : IvFun R) (iter : iterator) (env : string -> tval R) (a i : string) (A : taylor_model R) (I : R * R)
    (D : point -> Prop) (f h : point -> R),
  env a = TModel A -> env i = TInterval I -> represents D A f -> (forall x, D x -> within I (h x)) ->
  let gives op s t g := exists T, tp_eval iter env (EBin op (EName s) (EName t)) = Ok (TModel T) /\ represents D T g in
  gives BAdd a i (fun x => f x + h x) /\ gives BAdd i a (fun x => h x + f x) /\ gives BSub a i (fun x => f x - h x).
Proof. exact @interval_operands. Qed.
Print Assumptions C52_intervals.
(** Multiplying or dividing raises: interval * A and interval / A as soon as A
    has a variable, A * interval and A / interval unless it has exactly one. *)
Theorem C52_intervals_throw : forall (iv : IvFun R) (iter : iterator) (env : string -> tval R) (a i : string) (A : taylor_model R) (I : R * R),
  env a = TModel A -> env i = TInterval I -> well_formed A ->
  let throws op s t := exists x, tp_eval iter env (EBin op (EName s) (EName t)) = Throw x in
  (psyms (gp (m_tpol A)) <> [] -> throws BMul i a /\ throws BDiv i a) /\
  (length (psyms (gp (m_tpol A))) <> 1%nat -> throws BMul a i /\ throws BDiv a i).
Proof. exact @interval_throws. Qed.
Print Assumptions C52_intervals_throw.

(** y * (1 / x) - 1 for x = taylor_model(gdual(2, "x", 3)) on [1, 3], y = 3.0. *)
Example C52_case : exists T g, tp_eval (iv := iv_std) in_order penv pexpr = Ok (TModel T) /\ py_eval genv pexpr = Ok (VGdual g) /\ geqb (m_tpol T) g = true /\
  (1 <= get_order (m_tpol T) <= 3)%nat /\ constant_cf (m_tpol T) = 1 / 2 /\ taylor_of 3 (m_tpol T) (fun x => 3 * (1 / (2 + x "dx")) - 1).
Proof. exact poly_case. Qed.
(** 5 - x / 2 + 2 ** 3 * x *)
Example C52_affine_case : exists T, tp_eval (iv := iv_std) in_order penv paffine = Ok (TModel T) /\
  represents (on (1, 3)) T (fun x => 5 - x "x" / 2 + 8 * x "x").
Proof. exact affine_case. Qed.
(** -x.arcsin() + abs(x) * y is well typed, x ** x and y.exp() are not. *)
Example C52_types_case : exists v, tp_eval (iv := iv_std) in_order penv paffine = Ok v /\
  type_of (fun s => kind_of (penv s)) paffine = Some KModel /\
  type_of (fun s => kind_of (penv s)) (EBin BAdd (ENeg (EMethod "arcsin" (EName "x"))) (EBin BMul (ECall "abs" (EName "x")) (EName "y")) : pyexpr R) = Some KModel /\
  type_of (fun s => kind_of (penv s)) (EBin BPow (EName "x") (EName "x") : pyexpr R) = None /\
  type_of (fun s => kind_of (penv s)) (EMethod "exp" (EName "y") : pyexpr R) = None.
Proof. destruct affine_case as (T & E & _). exists (TModel T). repeat split; auto. Qed.
Example C52_intervals_case : exists env A I (D : point -> Prop) (f h : point -> R), env "x" = TModel A /\ env "i" = TInterval I /\ represents D A f /\ (forall x, D x -> within I (h x)) /\ D (at_x 2) /\ psyms (gp (m_tpol A)) <> [].
Proof. exact intervals_case. Qed.
