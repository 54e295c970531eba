(** * Model of Python scripts with while loops

    The scripts of PyScript.v inside `while x < y`, conditionals and sequences.
    The comparison is [py_less] (pyaudi/expose_gdual.hpp:130, gdual.hpp:803-806).
    A loop need not end, so running is a relation: [py_runs c env r] says that
    [c] ends, with the names [r] or with an exception. *)
From Coq Require Import String List ZArith Bool.
From Verif Require Import Ops Syms Poly Gdual Functions Spec PyFun PyScript.
Local Open Scope string_scope.

Inductive wstmt (K : Type) : Type :=
| WDo (c : pstmt K)
| WSeq (a b : wstmt K)
| WIf (x y : string) (a b : wstmt K)             (* if x < y: a else: b *)
| WWhile (x y : string) (b : wstmt K).           (* while x < y: b *)
Arguments WDo {K} c.
Arguments WSeq {K} a b.
Arguments WIf {K} x y a b.
Arguments WWhile {K} x y b.

Section PyWhile.
  Context {K : Type} {oK : Ops K} {eK : Elem K}.

  Inductive py_runs : wstmt K -> (string -> pyval K) -> res (string -> pyval K) -> Prop :=
  | R_do c env : py_runs (WDo c) env (py_exec c env)
  | R_seq a b env env' r : py_runs a env (Ok env') -> py_runs b env' r -> py_runs (WSeq a b) env r
  | R_seq_throw a b env u : py_runs a env (Throw u) -> py_runs (WSeq a b) env (Throw u)
  | R_then x y a b env r : py_less (env x) (env y) = Ok true -> py_runs a env r -> py_runs (WIf x y a b) env r
  | R_else x y a b env r : py_less (env x) (env y) = Ok false -> py_runs b env r -> py_runs (WIf x y a b) env r
  | R_if_throw x y a b env u : py_less (env x) (env y) = Throw u -> py_runs (WIf x y a b) env (Throw u)
  | R_stop x y b env : py_less (env x) (env y) = Ok false -> py_runs (WWhile x y b) env (Ok env)
  | R_again x y b env env' r : py_less (env x) (env y) = Ok true -> py_runs b env (Ok env') -> py_runs (WWhile x y b) env' r ->
      py_runs (WWhile x y b) env r
  | R_body_throw x y b env u : py_less (env x) (env y) = Ok true -> py_runs b env (Throw u) -> py_runs (WWhile x y b) env (Throw u)
  | R_while_throw x y b env u : py_less (env x) (env y) = Throw u -> py_runs (WWhile x y b) env (Throw u).
End PyWhile.
