(** * Model of the arithmetic of the Python module on gdual_vdouble

    pyaudi/core.cpp:151-207 (the class gdual_vdouble and the functions of the
    module on it) and pyaudi/expose_gdual.hpp:114-140, 171-228 (its operators
    and methods).  A program may also hold ints, floats and gdual_double
    objects (PyFun.v). *)
From Coq Require Import String List ZArith Bool.
From Verif Require Import Ops Syms Poly Gdual Functions Spec Vectorized PyFun.
Import ListNotations.
Local Open Scope string_scope.
Local Notation "p <- a ;; b" := (rbind a (fun p => b)) (at level 61, a at next level, right associativity).

(** [WPlain]: an int, a float or a gdual_double.  [WVec]: a gdual_vdouble
    whose coefficients have 1 or N components (Vectorized.v; other
    combinations of sizes throw and are not represented). *)
Inductive vpyval (K : Type) (N : nat) : Type := WPlain (v : pyval K) | WVec (d : gdual (vec K N)).
Arguments WPlain {K N} v.
Arguments WVec {K N} d.

Section PyVec.
  Context {K : Type} {oK : Ops K} {eK : Elem K} {N : nat}.

  (** The C++ functions on gdual_v; abs has its own template
      (include/audi/functions.hpp:899-916). *)
  Definition gdual_vfun (f : pyfun) (d : gdual (vec K N)) : res (gdual (vec K N)) :=
    match f with P1 Fabs => Ok (gabs_vec d) | P1 f => Ok (run1 f d) | PD f => runD f d end.

  (** core.cpp:156-207: the names are those of [module_table]. *)
  Definition vpy_call (name : string) (v : vpyval K N) : res (vpyval K N) :=
    match v with
    | WPlain v => r <- py_call name v;; Ok (WPlain r)
    | WVec d => match lookup name module_table with
                | None => Throw OtherException
                | Some f => r <- gdual_vfun f d;; Ok (WVec r)
                end
    end.
  (** expose_gdual.hpp:171-228 *)
  Definition vpy_method (name : string) (v : vpyval K N) : res (vpyval K N) :=
    match v with
    | WPlain v => r <- py_method name v;; Ok (WPlain r)
    | WVec d => match lookup name method_table with
                | None => Throw OtherException
                | Some f => r <- gdual_vfun f d;; Ok (WVec r)
                end
    end.
  (** expose_gdual.hpp:114-121, 124-127, 132-140.  The number is a double,
      converted to a vectorized number by the C++ operators.  No operator
      takes a gdual_double and a gdual_vdouble: TypeError. *)
  Definition vpy_bin (op : pybin) (v w : vpyval K N) : res (vpyval K N) :=
    match v, w with
    | WPlain v, WPlain w => r <- py_bin op v w;; Ok (WPlain r)
    | WPlain (VGdual _), WVec _ | WVec _, WPlain (VGdual _) => Throw OtherException
    | WVec d, WVec e =>
        Ok (WVec match op with BAdd => gadd d e | BSub => gsub d e | BMul => gmul d e | BDiv => gdiv d e | BPow => gpow d e end)
    | WVec d, WPlain w =>
        let y := vec_num (as_double w) in
        Ok (WVec match op with BAdd => gadd_gs d y | BSub => gsub_gs d y | BMul => gmul_gs d y | BDiv => gdiv_gs d y | BPow => gpow_real d y end)
    | WPlain v, WVec e =>
        let x := vec_num (as_double v) in
        Ok (WVec match op with BAdd => gadd_sg x e | BSub => gsub_sg x e | BMul => gmul_sg x e | BDiv => gdiv_sg x e | BPow => gpow_sg x e end)
    end.
  (** expose_gdual.hpp:122-123 *)
  Definition vpy_neg (v : vpyval K N) : vpyval K N :=
    match v with WPlain v => WPlain (py_neg v) | WVec d => WVec (gneg d) end.
  Definition vpy_pos (v : vpyval K N) : vpyval K N :=
    match v with WPlain v => WPlain (py_pos v) | WVec d => WVec (gpos d) end.

  (** The value of an expression. *)
  Section Eval.
    Variable env : string -> vpyval K N.
    Fixpoint vpy_eval (e : pyexpr K) : res (vpyval K N) :=
      match e with
      | EInt z => Ok (WPlain (VInt z))
      | EFloat x => Ok (WPlain (VFloat x))
      | EName s => Ok (env s)
      | EBin op a b => v <- vpy_eval a;; w <- vpy_eval b;; vpy_bin op v w
      | ENeg a => v <- vpy_eval a;; Ok (vpy_neg v)
      | EPos a => v <- vpy_eval a;; Ok (vpy_pos v)
      | ECall name a => v <- vpy_eval a;; vpy_call name v
      | EMethod name a => v <- vpy_eval a;; vpy_method name v
      end.
  End Eval.
End PyVec.
