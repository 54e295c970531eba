(** * Vocabulary of the properties of Python scripts (C55)

    What a script computes in real arithmetic.  A name that holds a gdual
    stands for a function of the displacements, a name that holds a number for
    a constant function. *)
From Coq Require Import String Ascii Reals List ZArith Bool.
From Coquelicot Require Import Coquelicot.
From Verif Require Import Ops Syms Poly Gdual Functions Spec ElemR SpecTaylor PyFun SpecPy PyScript.
Import ListNotations.
Open Scope R_scope.
Local Open Scope string_scope.

(** Which names hold gduals, the functions of the names, and up to which order
    the gduals are correct. *)
Record meaning : Type := Meaning { holds_gdual : string -> bool; fun_of : string -> (string -> R) -> R; order_of : string -> nat }.
Definition put {A : Type} (f : string -> A) (s : string) (a : A) : string -> A :=
  fun t => if string_dec t s then a else f t.
Definition assign (M : meaning) (s : string) (gdual : bool) (f : (string -> R) -> R) (n : nat) : meaning :=
  Meaning (put (holds_gdual M) s gdual) (put (fun_of M) s f) (put (order_of M) s n).
(** The values of the names when the symbols are displaced by [x]. *)
Definition at_point (M : meaning) (x : string -> R) : string -> R := fun s => fun_of M s x.
(** The smallest order of the gduals in an expression. *)
Fixpoint least_order (M : meaning) (e : pyexpr R) : nat :=
  match e with
  | EInt _ | EFloat _ => 0
  | EName s => order_of M s
  | EBin _ a b =>
      if is_number (holds_gdual M) a then least_order M b
      else if is_number (holds_gdual M) b then least_order M a
      else Nat.min (least_order M a) (least_order M b)
  | ENeg a | EPos a | ECall _ a | EMethod _ a => least_order M a
  end.

Fixpoint repeat_for {A : Type} (k : nat) (f : A -> A) (x : A) : A :=
  match k with O => x | S k => repeat_for k f (f x) end.
(** What the names mean after a script: derivatives are those of calculus
    (Coquelicot's [Derive]) and cost one order; a conditional takes the branch
    it takes without displacement. *)
Fixpoint means (c : pstmt R) (M : meaning) : meaning :=
  match c with
  | SSkip => M
  | SSeq a b => means b (means a M)
  | SAssign s e => assign M s (negb (is_number (holds_gdual M) e)) (fun x => py_real e (at_point M x)) (least_order M e)
  | SVariable s c v k => assign M s true (fun x => fun_of M c center + x (dsym v)) k
  | SPartial s a v => assign M s true (fun x => Derive (fun t => fun_of M a (update x (dsym v) t)) (x (dsym v))) (order_of M a - 1)
  | SConstant s a => assign M s false (fun _ => fun_of M a center) 0
  | SIf x y a b => if Rlt_dec (fun_of M x center) (fun_of M y center) then means a M else means b M
  | SFor k b => repeat_for k (means b) M
  end.

(** The name of a variable: not empty, not starting with the letter d. *)
Definition variable_name (v : string) : Prop := exists c r, v = String c r /\ c <> "d"%char.
(** Every step is differentiable at the center and takes gduals where it must;
    no order is above [m]; the functions support order [m]; only gduals of
    positive order are differentiated. *)
Fixpoint runs_smoothly (m : nat) (c : pstmt R) (M : meaning) : Prop :=
  match c with
  | SSkip => True
  | SSeq a b => runs_smoothly m a M /\ runs_smoothly m b (means a M)
  | SAssign s e => py_smooth (holds_gdual M) e (at_point M center) m
  | SVariable s c v k => holds_gdual M c = false /\ variable_name v /\ (k <= m)%nat
  | SPartial s a v => holds_gdual M a = true /\ variable_name v /\ (1 <= order_of M a)%nat
  | SConstant s a => holds_gdual M a = true
  | SIf x y a b => holds_gdual M x = holds_gdual M y /\
      if Rlt_dec (fun_of M x center) (fun_of M y center) then runs_smoothly m a M else runs_smoothly m b M
  | SFor k b => forall j, (j < k)%nat -> runs_smoothly m b (repeat_for j (means b) M)
  end.

(** The names hold what the meaning says: the gduals are made by the library
    and are the functions, or the Taylor polynomials of the functions, the
    numbers are constant functions. *)
Definition starts (m : nat) (M : meaning) (env : string -> pyval R) : Prop :=
  forall s, if holds_gdual M s
            then exists g, env s = VGdual g /\ input (order_of M s) m g /\ forall x, fun_of M s x = value g x
            else exists c, number_of (env s) = Some c /\ forall x, fun_of M s x = c.
Definition ends (m : nat) (M : meaning) (env : string -> pyval R) : Prop :=
  forall s, if holds_gdual M s
            then exists g, env s = VGdual g /\ input (order_of M s) m g /\
                           constant_cf g = fun_of M s center /\ taylor_of (order_of M s) g (fun_of M s)
            else number_of (env s) = Some (fun_of M s center).

(** ** Newton's method *)
(** The expression uses no name but x. *)
Fixpoint only_x (e : pyexpr R) : Prop :=
  match e with
  | EInt _ | EFloat _ => True
  | EName s => s = "x"
  | EBin _ a b => only_x a /\ only_x b
  | ENeg a | EPos a | ECall _ a | EMethod _ a => only_x a
  end.
(** for _ in range(k): x = gdual_double(c, "x", 1); f = e; g = f.partial("x");
    f = f.constant_cf; g = g.constant_cf; c = c - f / g *)
Definition newton (e : pyexpr R) (k : nat) : pstmt R :=
  SFor k (SSeq (SVariable "x" "c" "x" 1) (SSeq (SAssign "f" e) (SSeq (SPartial "g" "f" "x")
    (SSeq (SConstant "f" "f") (SSeq (SConstant "g" "g") (SAssign "c" (EBin BSub (EName "c") (EBin BDiv (EName "f") (EName "g"))))))))).
Definition newton_step (f : R -> R) (t : R) : R := t - f t / Derive f t.

(** ** Types *)
Section Types.
  Context {K : Type}.
  Definition is_gdual (v : pyval K) : bool := match v with VGdual _ => true | _ => false end.
  (** Is the value of the expression a gdual, when [gd] tells which names hold
      gduals? *)
  Fixpoint gives_gdual (gd : string -> bool) (e : pyexpr K) : bool :=
    match e with
    | EInt _ | EFloat _ => false
    | EName s => gd s
    | EBin _ a b => gives_gdual gd a || gives_gdual gd b
    | ENeg a | EPos a | ECall _ a | EMethod _ a => gives_gdual gd a
    end.
  (** Methods are called on gduals only. *)
  Fixpoint methods_typed (gd : string -> bool) (e : pyexpr K) : Prop :=
    match e with
    | EInt _ | EFloat _ | EName _ => True
    | EBin _ a b => methods_typed gd a /\ methods_typed gd b
    | ENeg a | EPos a | ECall _ a => methods_typed gd a
    | EMethod _ a => methods_typed gd a /\ gives_gdual gd a = true
    end.
  (** [typed c gd gd']: the script [c] can run with gduals under the names [gd],
      leaving gduals under the names [gd']. *)
  Inductive typed : pstmt K -> (string -> bool) -> (string -> bool) -> Prop :=
  | T_skip gd : typed SSkip gd gd
  | T_seq a b gd gd' gd'' : typed a gd gd' -> typed b gd' gd'' -> typed (SSeq a b) gd gd''
  | T_assign s e gd : methods_typed gd e -> typed (SAssign s e) gd (put gd s (gives_gdual gd e))
  | T_variable s c v k gd : gd c = false -> variable_name v -> typed (SVariable s c v k) gd (put gd s true)
  | T_partial s a v gd : gd a = true -> variable_name v -> typed (SPartial s a v) gd (put gd s true)
  | T_constant s a gd : gd a = true -> typed (SConstant s a) gd (put gd s false)
  | T_then x y a b gd gd' : gd x = gd y -> typed a gd gd' -> typed (SIf x y a b) gd gd'
  | T_else x y a b gd gd' : gd x = gd y -> typed b gd gd' -> typed (SIf x y a b) gd gd'
  | T_end b gd : typed (SFor 0 b) gd gd
  | T_next k b gd gd' gd'' : typed b gd gd' -> typed (SFor k b) gd' gd'' -> typed (SFor (S k) b) gd gd''.
End Types.
