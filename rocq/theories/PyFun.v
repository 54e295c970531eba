(** * Model of the arithmetic of the Python module

    pyaudi/expose_gdual.hpp:114-140 and 171-228 (operators and methods of
    gdual_double), pyaudi/core.cpp:49-149 (functions of the module).  What a
    Python expression calls depends on the run-time types of its operands. *)
From Coq Require Import String List ZArith Bool.
From Verif Require Import Ops Syms Poly Gdual Functions Spec.
Import ListNotations.
Local Open Scope string_scope.
Local Notation "p <- a ;; b" := (rbind a (fun p => b)) (at level 61, a at next level, right associativity).

(** Python's int, float and gdual_double.  Other types (bool, complex, numpy
    scalars, the other classes of the module) are not represented.  Python
    integers have no bounds; their conversion to float is [kofZ] (no
    OverflowError). *)
Inductive pyval (K : Type) : Type := VInt (z : Z) | VFloat (x : K) | VGdual (d : gdual K).
Arguments VInt {K} z.
Arguments VFloat {K} x.
Arguments VGdual {K} d.

(** Expressions.  [ECall "sin" a] is pyaudi.sin(a); [EMethod "sin" a] is
    a.sin(), which is also what numpy.sin(a) calls on an object. *)
Inductive pybin : Type := BAdd | BSub | BMul | BDiv | BPow.
Inductive pyexpr (K : Type) : Type :=
| EInt (z : Z) | EFloat (x : K) | EName (s : string)
| EBin (op : pybin) (a b : pyexpr K) | ENeg (a : pyexpr K) | EPos (a : pyexpr K)
| ECall (name : string) (a : pyexpr K) | EMethod (name : string) (a : pyexpr K).
Arguments EInt {K} z.
Arguments EFloat {K} x.
Arguments EName {K} s.
Arguments EBin {K} op a b.
Arguments ENeg {K} a.
Arguments EPos {K} a.
Arguments ECall {K} name a.
Arguments EMethod {K} name a.

(** The C++ function a binding calls on a gdual. *)
Inductive pyfun : Type := P1 (f : fun1) | PD (f : funD).

(** pyaudi/core.cpp:99-149 (and 49-94 for doubles, under the same names).
    sin_and_cos and sinh_and_cosh return a list and are not here. *)
Definition module_table : list (string * pyfun) :=
  [("exp", P1 Fexp); ("log", P1 Flog); ("sqrt", P1 Fsqrt); ("cbrt", P1 Fcbrt);
   ("sin", P1 Fsin); ("asin", P1 Fasin); ("cos", P1 Fcos); ("acos", P1 Facos);
   ("tan", P1 Ftan); ("atan", P1 Fatan); ("sinh", P1 Fsinh); ("asinh", P1 Fasinh);
   ("cosh", P1 Fcosh); ("acosh", P1 Facosh); ("tanh", P1 Ftanh); ("atanh", P1 Fatanh);
   ("abs", P1 Fabs); ("erf", PD Derf); ("log10", P1 Flog10); ("log2", P1 Flog2);
   ("log1p", P1 Flog1p); ("expm1", P1 Fexpm1); ("erfc", PD Derfc)].
(** pyaudi/expose_gdual.hpp:171-228 *)
Definition method_table : list (string * pyfun) :=
  [("exp", P1 Fexp); ("log", P1 Flog); ("sqrt", P1 Fsqrt); ("cbrt", P1 Fcbrt);
   ("sin", P1 Fsin); ("arcsin", P1 Fasin); ("asin", P1 Fasin);
   ("cos", P1 Fcos); ("arccos", P1 Facos); ("acos", P1 Facos);
   ("tan", P1 Ftan); ("arctan", P1 Fatan); ("atan", P1 Fatan);
   ("sinh", P1 Fsinh); ("arcsinh", P1 Fasinh); ("asinh", P1 Fasinh);
   ("cosh", P1 Fcosh); ("arccosh", P1 Facosh); ("acosh", P1 Facosh);
   ("tanh", P1 Ftanh); ("arctanh", P1 Fatanh); ("atanh", P1 Fatanh);
   ("abs", P1 Fabs); ("erf", PD Derf); ("log10", P1 Flog10); ("log2", P1 Flog2);
   ("log1p", P1 Flog1p); ("expm1", P1 Fexpm1); ("erfc", PD Derfc)].
Definition lookup {A : Type} (name : string) (t : list (string * A)) : option A :=
  match find (fun p => String.eqb name (fst p)) t with Some p => Some (snd p) | None => None end.

Section PyFun.
  Context {K : Type} {oK : Ops K} {eK : Elem K}.
  Local Open Scope K_scope.

  (** The double argument of an overload: an int is converted. *)
  Definition as_double (v : pyval K) : K :=
    match v with VInt z => kofZ z | VFloat x => x | VGdual _ => 0 end.

  (** The functions of pyaudi/core.cpp:49-94, std::exp(x) ... std::erfc(x);
      log10, log2, log1p, expm1, erfc in exact arithmetic.  The last column of
      [fun1] (the quadratures) is not exposed. *)
  Definition std_fun (f : pyfun) (x : K) : K :=
    match f with
    | P1 Fexp => e_exp x | P1 Flog => e_log x | P1 Fsqrt => e_sqrt x | P1 Fcbrt => e_cbrt x
    | P1 Fsin => e_sin x | P1 Fcos => e_cos x | P1 Ftan | P1 Ftanq => e_tan x
    | P1 Fsinh => e_sinh x | P1 Fcosh => e_cosh x | P1 Ftanh | P1 Ftanhq => e_tanh x
    | P1 Fatan | PD Datan => e_atan x | P1 Fatanh | PD Datanh => e_atanh x
    | P1 Fasin | PD Dasin => e_asin x | P1 Facos | PD Dacos => e_acos x
    | P1 Fasinh | PD Dasinh => e_asinh x | P1 Facosh | PD Dacosh => e_acosh x
    | P1 Fabs => kabs x
    | P1 Flog10 => e_log x / e_log (kofZ 10) | P1 Flog2 => e_log x / e_log (kofZ 2)
    | P1 Flog1p => e_log (1 + x) | P1 Fexpm1 => e_exp x - 1
    | PD Derf => e_erf x | PD Derfc => 1 - e_erf x
    end.
  Definition gdual_fun (f : pyfun) (d : gdual K) : res (gdual K) :=
    match f with P1 f => Ok (run1 f d) | PD f => runD f d end.

  (** A function of the module: the overload for double (pybind converts an
      int), or the one for gdual_double.  An unknown name is an
      AttributeError. *)
  Definition py_call (name : string) (v : pyval K) : res (pyval K) :=
    match lookup name module_table with
    | None => Throw OtherException
    | Some f =>
        match v with
        | VGdual d => r <- gdual_fun f d;; Ok (VGdual r)
        | _ => Ok (VFloat (std_fun f (as_double v)))
        end
    end.
  (** A method: Python's numbers have none of these (AttributeError). *)
  Definition py_method (name : string) (v : pyval K) : res (pyval K) :=
    match v, lookup name method_table with
    | VGdual d, Some f => r <- gdual_fun f d;; Ok (VGdual r)
    | _, _ => Throw OtherException
    end.

  (** Python's own operators on int and float (language reference, 6.5 and
      6.7): int + int is an int, int / int a float; division by zero and zero
      to a negative power raise ZeroDivisionError; a negative float to a
      power that is not an integer is a Python complex (not represented: an
      exception here). *)
  Definition num_div (x y : K) : res (pyval K) :=
    if y =? 0 then Throw OtherException else Ok (VFloat (x / y)).
  Definition num_pow (x y : K) : res (pyval K) :=
    if (x =? 0) && (y <? 0) then Throw OtherException
    else if (x <? 0) && negb (kofZ (e_toint y) =? y) then Throw OtherException
    else Ok (VFloat (e_pow x y)).
  Definition int_pow (x y : Z) : res (pyval K) :=
    if Z.leb 0 y then Ok (VInt (Z.pow x y)) else num_pow (kofZ x) (kofZ y).

  (** Binary operators.  expose_gdual.hpp:114-121 and 124-127 for a gdual on
      either side, 132-140 [__pow__] and [__rpow__]. *)
  Definition py_bin (op : pybin) (v w : pyval K) : res (pyval K) :=
    match v, w with
    | VGdual d, VGdual e =>
        Ok (VGdual match op with BAdd => gadd d e | BSub => gsub d e | BMul => gmul d e | BDiv => gdiv d e | BPow => gpow d e end)
    | VGdual d, _ =>
        let y := as_double w in
        Ok (VGdual match op with BAdd => gadd_gs d y | BSub => gsub_gs d y | BMul => gmul_gs d y | BDiv => gdiv_gs d y | BPow => gpow_real d y end)
    | _, VGdual e =>
        let x := as_double v in
        Ok (VGdual match op with BAdd => gadd_sg x e | BSub => gsub_sg x e | BMul => gmul_sg x e | BDiv => gdiv_sg x e | BPow => gpow_sg x e end)
    | VInt a, VInt b =>
        match op with
        | BAdd => Ok (VInt (a + b)) | BSub => Ok (VInt (a - b)) | BMul => Ok (VInt (a * b))
        | BDiv => num_div (kofZ a) (kofZ b) | BPow => int_pow a b
        end
    | _, _ =>
        let x := as_double v in let y := as_double w in
        match op with
        | BAdd => Ok (VFloat (x + y)) | BSub => Ok (VFloat (x - y)) | BMul => Ok (VFloat (x * y))
        | BDiv => num_div x y | BPow => num_pow x y
        end
    end.
  (** expose_gdual.hpp:122-123 for gduals *)
  Definition py_neg (v : pyval K) : pyval K :=
    match v with VInt z => VInt (- z) | VFloat x => VFloat (- x) | VGdual d => VGdual (gneg d) end.
  Definition py_pos (v : pyval K) : pyval K :=
    match v with VGdual d => VGdual (gpos d) | _ => v end.

  (** The value of an expression, [env] being the values of the names. *)
  Section Eval.
    Variable env : string -> pyval K.
    Fixpoint py_eval (e : pyexpr K) : res (pyval K) :=
      match e with
      | EInt z => Ok (VInt z)
      | EFloat x => Ok (VFloat x)
      | EName s => Ok (env s)
      | EBin op a b => v <- py_eval a;; w <- py_eval b;; py_bin op v w
      | ENeg a => v <- py_eval a;; Ok (py_neg v)
      | EPos a => v <- py_eval a;; Ok (py_pos v)
      | ECall name a => v <- py_eval a;; py_call name v
      | EMethod name a => v <- py_eval a;; py_method name v
      end.
  End Eval.
End PyFun.
