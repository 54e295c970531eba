(** * Vocabulary of the properties of Python expressions (C51)

    The value of a Python expression in real arithmetic, where it is smooth,
    and which of its parts are plain numbers.  Independent of what the
    bindings call. *)
From Coq Require Import String Ascii Reals List ZArith Bool.
From Verif Require Import Ops Syms Poly Gdual Functions Spec ElemR SpecTaylor PyFun.
Import ListNotations.
Open Scope R_scope.
Local Open Scope string_scope.

(** The functions of the module by name: value, where it is differentiable,
    and the orders up to which its gdual version is meant to be used. *)
Record mathfun : Type := MF { mf_val : R -> R; mf_dom : R -> Prop; mf_upto : nat -> Prop }.
Definition anywhere (p : R) : Prop := True.
Definition any_order (n : nat) : Prop := True.
Definition int_order (n : nat) : Prop := (Z.of_nat n < 2147483648)%Z.
Definition math_table : list (string * mathfun) :=
  [("exp", MF exp anywhere any_order);
   ("expm1", MF (fun x => exp x - 1) anywhere any_order);
   ("log", MF ln (fun p => 0 < p) any_order);
   ("log10", MF (fun x => ln x / ln 10) (fun p => 0 < p) any_order);
   ("log2", MF (fun x => ln x / ln 2) (fun p => 0 < p) any_order);
   ("log1p", MF (fun x => ln (1 + x)) (fun p => -1 < p) any_order);
   ("sqrt", MF sqrt (fun p => 0 < p) any_order);
   ("cbrt", MF cbrt_R (fun p => p <> 0) any_order);
   ("sin", MF sin anywhere (fun n => (Z.of_nat n <= 65536)%Z));
   ("cos", MF cos anywhere (fun n => (Z.of_nat n <= 65536)%Z));
   ("tan", MF tan (fun p => cos p <> 0) any_order);
   ("asin", MF asin (fun p => -1 < p < 1) (fun n => (n <= 30)%nat));
   ("acos", MF acos (fun p => -1 < p < 1) (fun n => (n <= 30)%nat));
   ("atan", MF atan anywhere (fun n => (n <= 30)%nat));
   ("sinh", MF sinh anywhere any_order);
   ("cosh", MF cosh anywhere any_order);
   ("tanh", MF tanh anywhere any_order);
   ("asinh", MF asinh_R anywhere any_order);
   ("acosh", MF acosh_R (fun p => 1 < p) any_order);
   ("atanh", MF atanh_R (fun p => -1 < p < 1) any_order);
   ("abs", MF Rabs (fun p => p <> 0) any_order);
   ("erf", MF erf_R anywhere int_order);
   ("erfc", MF (fun x => 1 - erf_R x) anywhere int_order)].
(** numpy's names for the inverse functions. *)
Definition numpy_names : list (string * string) :=
  [("arcsin", "asin"); ("arccos", "acos"); ("arctan", "atan");
   ("arcsinh", "asinh"); ("arccosh", "acosh"); ("arctanh", "atanh")].
Definition plain_name (s : string) : string :=
  match lookup s numpy_names with Some t => t | None => s end.

Definition math_fun (s : string) : R -> R :=
  match lookup s math_table with Some m => mf_val m | None => fun _ => 0 end.
(** [s] is a function of the module, differentiable at [p]; on a gdual
    argument, up to order [n]. *)
Definition math_ok (s : string) (number : bool) (p : R) (n : nat) : Prop :=
  match lookup s math_table with Some m => mf_dom m p /\ (number = false -> mf_upto m n) | None => False end.

(** The value when the names are real numbers. *)
Fixpoint py_real (e : pyexpr R) (x : string -> R) : R :=
  match e with
  | EInt z => IZR z | EFloat v => v | EName s => x s
  | EBin BAdd a b => py_real a x + py_real b x
  | EBin BSub a b => py_real a x - py_real b x
  | EBin BMul a b => py_real a x * py_real b x
  | EBin BDiv a b => py_real a x / py_real b x
  | EBin BPow a b => rpow (py_real a x) (py_real b x)
  | ENeg a => - py_real a x
  | EPos a => py_real a x
  | ECall f a => math_fun f (py_real a x)
  | EMethod f a => math_fun (plain_name f) (py_real a x)
  end.

Section Kinds.
  Variable gd : string -> bool.            (* the names that hold gduals *)
  (** No gdual occurs in it: its value is a Python number. *)
  Fixpoint is_number (e : pyexpr R) : bool :=
    match e with
    | EInt _ | EFloat _ => true
    | EName s => negb (gd s)
    | EBin _ a b => is_number a && is_number b
    | ENeg a | EPos a | ECall _ a | EMethod _ a => is_number a
    end.

  (** Every step is differentiable at the point and known to the module, up to
      order [n]; the methods are called on gduals. *)
  Fixpoint py_smooth (e : pyexpr R) (x : string -> R) (n : nat) : Prop :=
    match e with
    | EInt _ | EFloat _ | EName _ => True
    | EBin op a b =>
        py_smooth a x n /\ py_smooth b x n /\
        match op with
        | BDiv => py_real b x <> 0
        | BPow => if is_number b then dompow (py_real a x) (py_real b x) else 0 < py_real a x
        | _ => True
        end
    | ENeg a | EPos a => py_smooth a x n
    | ECall f a => py_smooth a x n /\ math_ok f (is_number a) (py_real a x) n
    | EMethod f a => py_smooth a x n /\ math_ok (plain_name f) (is_number a) (py_real a x) n /\ is_number a = false
    end.

  (** What the names hold: gduals or floats. *)
  Definition names_hold (env : string -> pyval R) (G : string -> gdual R) (point : string -> R) : Prop :=
    forall s, env s = if gd s then VGdual (G s) else VFloat (point s).
  (** Their values when the symbols of the gduals are displaced by [x]. *)
  Definition inputs (G : string -> gdual R) (point : string -> R) (x : string -> R) : string -> R :=
    fun s => if gd s then value (G s) x else point s.
End Kinds.

(** A gdual made by the library, whose variables have acceptable names (not
    empty, not starting with the letter d), of order between [n] and [m] or a
    constant. *)
Definition input (n m : nat) (g : gdual R) : Prop :=
  reach g /\ (forall s, In s (get_symbol_set g) -> exists c r, s = String c r /\ c <> "d"%char) /\
  ((n <= get_order g <= m)%nat \/ get_order g = 0%nat).

(** A Python number and its value. *)
Definition number_of (v : pyval R) : option R :=
  match v with VInt z => Some (IZR z) | VFloat x => Some x | VGdual _ => None end.

(** The same expression with every integer written as a float (2 as 2.0). *)
Fixpoint floats (e : pyexpr R) : pyexpr R :=
  match e with
  | EInt z => EFloat (IZR z)
  | EFloat v => EFloat v
  | EName s => EName s
  | EBin op a b => EBin op (floats a) (floats b)
  | ENeg a => ENeg (floats a)
  | EPos a => EPos (floats a)
  | ECall f a => ECall f (floats a)
  | EMethod f a => EMethod f (floats a)
  end.
(** Equal gduals, or numbers of equal value. *)
Definition same_value (v w : pyval R) : Prop :=
  match v, w with
  | VGdual d, VGdual e => d = e
  | VGdual _, _ | _, VGdual _ => False
  | _, _ => number_of v = number_of w
  end.
Definition same_result (v w : res (pyval R)) : Prop :=
  match v, w with
  | Ok v, Ok w => same_value v w
  | Throw _, Throw _ => True
  | _, _ => False
  end.
