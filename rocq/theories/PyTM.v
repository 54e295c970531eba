(** * Model of the arithmetic of Taylor models in Python

    pyaudi/expose_taylor_model.hpp:126-154 (operators) and 193-235 (methods),
    pyaudi/core.cpp:213-249 (functions of the module).  Python's numbers and
    the expressions are those of PyFun.v. *)
From Coq Require Import String List ZArith Bool.
From Verif Require Import Ops Syms Poly Gdual Functions Spec Interval TaylorModel TMFunctions PyFun.
Import ListNotations.
Local Open Scope string_scope.
Local Notation "p <- a ;; b" := (rbind a (fun p => b)) (at level 61, a at next level, right associativity).

(** [TNum]: int, float or gdual_double; taylor_model; int_d. *)
Inductive tval (K : Type) : Type := TNum (n : pyval K) | TModel (t : taylor_model K) | TInterval (i : K * K).
Arguments TNum {K} n.
Arguments TModel {K} t.
Arguments TInterval {K} i.

(** pyaudi/core.cpp:213-249.  sin_and_cos and sinh_and_cosh return a pair and
    are not here. *)
Definition tm_module_table : list (string * fun1) :=
  [("exp", Fexp); ("log", Flog); ("sqrt", Fsqrt); ("sin", Fsin); ("asin", Fasin); ("cos", Fcos); ("acos", Facos);
   ("tan", Ftan); ("atan", Fatan); ("sinh", Fsinh); ("asinh", Fasinh); ("cosh", Fcosh); ("acosh", Facosh);
   ("tanh", Ftanh); ("atanh", Fatanh); ("abs", Fabs)].
(** pyaudi/expose_taylor_model.hpp:193-235 *)
Definition tm_method_table : list (string * fun1) :=
  [("exp", Fexp); ("log", Flog); ("sqrt", Fsqrt);
   ("sin", Fsin); ("arcsin", Fasin); ("asin", Fasin); ("cos", Fcos); ("arccos", Facos); ("acos", Facos);
   ("tan", Ftan); ("arctan", Fatan); ("atan", Fatan); ("sinh", Fsinh); ("arcsinh", Fasinh); ("asinh", Fasinh);
   ("cosh", Fcosh); ("arccosh", Facosh); ("acosh", Facosh); ("tanh", Ftanh); ("arctanh", Fatanh); ("atanh", Fatanh);
   ("abs", Fabs)].

Section PyTM.
  Context {K : Type} {oK : Ops K} {eK : Elem K} {iv : IvFun K}.
  Local Open Scope K_scope.
  Variable iter : list (string * (K * K)) -> list (string * (K * K)).

  (** The C++ function behind a binding. *)
  Definition tm_run (f : fun1) : taylor_model K -> res (taylor_model K) :=
    match f with
    | Fexp => tm_exp iter | Flog => tm_log iter | Fsqrt => tm_sqrt iter
    | Fsin => tm_sin iter | Fcos => tm_cos iter | Ftan => tm_tan iter
    | Fsinh => tm_sinh iter | Fcosh => tm_cosh iter | Ftanh => tm_tanh iter
    | Fasin => tm_asin iter | Facos => tm_acos iter | Fatan => tm_atan iter
    | Fasinh => tm_asinh iter | Facosh => tm_acosh iter | Fatanh => tm_atanh iter
    | Fabs => tm_abs
    | _ => fun _ => Throw OtherException
    end.
  Definition model (r : res (taylor_model K)) : res (tval K) := t <- r;; Ok (TModel t).
  Definition number (r : res (pyval K)) : res (tval K) := v <- r;; Ok (TNum v).

  (** A function of the module; for a Taylor model without an overload
      (cbrt, erf, log10, ...), and for an interval, a TypeError. *)
  Definition tp_call (name : string) (v : tval K) : res (tval K) :=
    match v with
    | TNum n => number (py_call name n)
    | TModel t => match lookup name tm_module_table with Some f => model (tm_run f t) | None => Throw OtherException end
    | TInterval _ => Throw OtherException
    end.
  Definition tp_method (name : string) (v : tval K) : res (tval K) :=
    match v with
    | TNum n => number (py_method name n)
    | TModel t => match lookup name tm_method_table with Some f => model (tm_run f t) | None => Throw OtherException end
    | TInterval _ => Throw OtherException
    end.

  (** expose_taylor_model.hpp:149-154 [__pow__]: the overload for int takes a
      Python int that fits, the one for double the others. *)
  Definition tp_pow (t : taylor_model K) (n : pyval K) : res (taylor_model K) :=
    match n with
    | VInt z => if (Z.leb (- two31) z && Z.ltb z two31)%bool then tm_pow_int iter t z else tm_pow iter t (kofZ z)
    | _ => tm_pow iter t (as_double n)
    end.
  (** expose_taylor_model.hpp:126-154.  There is no [__rpow__]; a power with a
      Taylor model or an interval as exponent, a gdual and a Taylor model, two
      intervals, an interval and a number, raise TypeError. *)
  Definition tp_bin (op : pybin) (v w : tval K) : res (tval K) :=
    match v, w with
    | TModel a, TModel b =>
        match op with
        | BAdd => model (tm_add a b) | BSub => model (tm_sub a b) | BMul => model (tm_mul iter a b)
        | BDiv => model (tm_div iter a b) | BPow => Throw OtherException
        end
    | TModel _, TNum (VGdual _) | TNum (VGdual _), TModel _ => Throw OtherException
    | TModel a, TNum n =>
        let y := as_double n in
        match op with
        | BAdd => model (tm_add_gs a y) | BSub => model (tm_sub_gs a y) | BMul => model (tm_mul_gs a y)
        | BDiv => model (tm_div_gs a y) | BPow => model (tp_pow a n)
        end
    | TNum n, TModel b =>
        let x := as_double n in
        match op with
        | BAdd => model (tm_add_sg x b) | BSub => model (tm_sub_sg x b) | BMul => model (tm_mul_sg x b)
        | BDiv => model (tm_div_sg iter x b) | BPow => Throw OtherException
        end
    | TModel a, TInterval i =>
        match op with
        | BAdd => model (tm_add_gi a i) | BSub => model (tm_sub_gi a i) | BMul => model (tm_mul_gi iter a i)
        | BDiv => model (tm_div_gi iter a i) | BPow => Throw OtherException
        end
    | TInterval i, TModel b =>
        match op with
        | BAdd => model (tm_add_ig i b) | BSub => model (tm_sub_ig i b) | BMul => model (tm_mul_ig iter i b)
        | BDiv => model (tm_div_ig iter i b) | BPow => Throw OtherException
        end
    | TNum n, TNum k => number (py_bin op n k)
    | TInterval _, _ | _, TInterval _ => Throw OtherException
    end.
  (** expose_taylor_model.hpp:136; unary plus is not exposed. *)
  Definition tp_neg (v : tval K) : res (tval K) :=
    match v with TNum n => Ok (TNum (py_neg n)) | TModel t => model (tm_neg t) | TInterval _ => Throw OtherException end.
  Definition tp_pos (v : tval K) : res (tval K) :=
    match v with TNum n => Ok (TNum (py_pos n)) | _ => Throw OtherException end.

  Section Eval.
    Variable env : string -> tval K.
    Fixpoint tp_eval (e : pyexpr K) : res (tval K) :=
      match e with
      | EInt z => Ok (TNum (VInt z))
      | EFloat x => Ok (TNum (VFloat x))
      | EName s => Ok (env s)
      | EBin op a b => v <- tp_eval a;; w <- tp_eval b;; tp_bin op v w
      | ENeg a => v <- tp_eval a;; tp_neg v
      | EPos a => v <- tp_eval a;; tp_pos v
      | ECall name a => v <- tp_eval a;; tp_call name v
      | EMethod name a => v <- tp_eval a;; tp_method name v
      end.
  End Eval.
End PyTM.
