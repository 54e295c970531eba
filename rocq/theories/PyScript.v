(** * Model of Python scripts over gduals

    Sequences of assignments and loops that use pyaudi.  The right-hand sides
    are the expressions of PyFun.v, the constructor gdual_double(c, "v", k)
    (pyaudi/expose_gdual.hpp:67), the derivative g.partial("x")
    (expose_gdual.hpp:108) the attribute g.constant_cf
    (expose_gdual.hpp:141) and comparisons (expose_gdual.hpp:130).  pyaudi defines no in-place operators, so x += y is
    x = x + y; nothing here changes an object that another name refers to.
    Simplifications: every name has a value; no functions or exceptions handled by
    the script; an int and a float are compared as floats. *)
From Coq Require Import String List ZArith Bool.
From Verif Require Import Ops Syms Poly Gdual Functions Spec PyFun.
Import ListNotations.
Local Open Scope string_scope.
Local Notation "p <- a ;; b" := (rbind a (fun p => b)) (at level 61, a at next level, right associativity).

Inductive pstmt (K : Type) : Type :=
| SSkip                                          (* pass *)
| SSeq (a b : pstmt K)
| SAssign (s : string) (e : pyexpr K)            (* s = e *)
| SVariable (s c v : string) (k : nat)           (* s = gdual_double(c, "v", k) *)
| SPartial (s a v : string)                      (* s = a.partial("v") *)
| SConstant (s a : string)                       (* s = a.constant_cf *)
| SIf (x y : string) (a b : pstmt K)             (* if x < y: a else: b *)
| SFor (k : nat) (b : pstmt K).                  (* for _ in range(k): b *)
Arguments SSkip {K}.
Arguments SSeq {K} a b.
Arguments SAssign {K} s e.
Arguments SVariable {K} s c v k.
Arguments SPartial {K} s a v.
Arguments SConstant {K} s a.
Arguments SIf {K} x y a b.
Arguments SFor {K} k b.

Section PyScript.
  Context {K : Type} {oK : Ops K} {eK : Elem K}.

  Definition set_name {A : Type} (env : string -> A) (s : string) (v : A) : string -> A :=
    fun t => if String.eqb t s then v else env t.
  Fixpoint loop {A : Type} (k : nat) (f : A -> res A) (x : A) : res A :=
    match k with O => Ok x | S k => y <- f x;; loop k f y end.

  (** x < y: gduals compare their constant coefficients (gdual.hpp:803-806); a
      gdual and a number do not compare (TypeError). *)
  Definition py_less (v w : pyval K) : res bool :=
    match v, w with
    | VGdual d, VGdual e => Ok (gltb d e)
    | VGdual _, _ | _, VGdual _ => Throw OtherException
    | VInt a, VInt b => Ok (Z.ltb a b)
    | _, _ => Ok (kltb (as_double v) (as_double w))
    end.
  (** The values of the names after the script; an exception ends it. *)
  Fixpoint py_exec (c : pstmt K) (env : string -> pyval K) : res (string -> pyval K) :=
    match c with
    | SSkip => Ok env
    | SSeq a b => env' <- py_exec a env;; py_exec b env'
    | SAssign s e => v <- py_eval env e;; Ok (set_name env s v)
    | SVariable s c v k =>
        match env c with
        | VGdual _ => Throw OtherException
        | x => g <- gvar (as_double x) v k;; Ok (set_name env s (VGdual g))
        end
    | SPartial s a v =>
        match env a with
        | VGdual g => r <- gpartial g v;; Ok (set_name env s (VGdual r))
        | _ => Throw OtherException
        end
    | SConstant s a =>
        match env a with VGdual g => Ok (set_name env s (VFloat (constant_cf g))) | _ => Throw OtherException end
    | SIf x y a b => t <- py_less (env x) (env y);; if t then py_exec a env else py_exec b env
    | SFor k b => loop k (py_exec b) env
    end.
End PyScript.
