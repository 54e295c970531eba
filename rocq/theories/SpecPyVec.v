(** * Vocabulary of the properties of Python expressions over gdual_vdouble
    (C53)

    What it means that a value is the i-th component of another.
    [component] and [both] are in SpecVec.v. *)
From Coq Require Import String List Arith Bool ZArith.
From Verif Require Import Ops Syms Poly Gdual Functions Spec Vectorized SpecVec PyFun PyVec.
Import ListNotations.
Local Open Scope string_scope.

Section SpecPyVec.
  Context {K : Type} {o : Ops K} {e : Elem K}.
  Variables (N i : nat).

  (** The same Python number, or a gdual_vdouble and a gdual_double computed
      by the same calls on its i-th components.  (A gdual_double on the
      vector side has no counterpart.) *)
  Definition is_component (v : vpyval K N) (w : pyval K) : Prop :=
    match v, w with
    | WPlain (VInt a), VInt b => a = b
    | WPlain (VFloat x), VFloat y => x = y
    | WVec g, VGdual h => both N i true g h
    | _, _ => False
    end.
  Definition component_outcome (r : res (vpyval K N)) (s : res (pyval K)) : Prop :=
    match r, s with Ok v, Ok w => is_component v w | Throw x, Throw y => x = y | _, _ => False end.

  (** The two steps where vectors and components can differ (C29): in
      number ** gdual the degrees are 0 together, and in abs the constant
      coefficient has all its components or needs no change of sign. *)
  Section Steps.
    Variables (env : string -> vpyval K N) (env' : string -> pyval K).
    Fixpoint steps_ok (p : pyexpr K) : Prop :=
      match p with
      | EInt _ | EFloat _ | EName _ => True
      | EBin op a b => steps_ok a /\ steps_ok b /\
          (op = BPow -> forall v g h, vpy_eval env a = Ok (WPlain v) -> vpy_eval env b = Ok (WVec g) ->
             py_eval env' b = Ok (VGdual h) -> (gdegree g = 0 <-> gdegree h = 0))
      | ENeg a | EPos a => steps_ok a
      | ECall f a | EMethod f a => steps_ok a /\
          (f = "abs" -> forall g, vpy_eval env a = Ok (WVec g) ->
             length (vl (constant_cf g)) = N \/ kltb (component N i (constant_cf g)) k0 = false)
      end.
  End Steps.
  (** Written without abs and powers: there are no such steps. *)
  Fixpoint no_steps (p : pyexpr K) : Prop :=
    match p with
    | EInt _ | EFloat _ | EName _ => True
    | EBin op a b => no_steps a /\ no_steps b /\ op <> BPow
    | ENeg a | EPos a => no_steps a
    | ECall f a | EMethod f a => no_steps a /\ f <> "abs"
    end.

  (** A gdual_vdouble occurs in the expression: its value is one. *)
  Section Kinds.
    Variable vd : string -> bool.
    Fixpoint has_vec (p : pyexpr K) : bool :=
      match p with
      | EInt _ | EFloat _ => false
      | EName s => vd s
      | EBin _ a b => has_vec a || has_vec b
      | ENeg a | EPos a | ECall _ a | EMethod _ a => has_vec a
      end.
  End Kinds.
End SpecPyVec.
