(** * Vocabulary of the analytic properties

    Real coefficients.  A point [x] gives the displacement of every symbol
    (the symbol of the variable "x" is "dx").  Independent of the model's
    arithmetic and functions except in [calc], which says which model
    function an expression node calls. *)

From Coq Require Import String Ascii Reals List ZArith Bool.
From Verif Require Import Ops Syms Poly Gdual Functions Spec ElemR.
Import ListNotations.
Open Scope R_scope.

Definition small (x : string -> R) (r : R) : Prop := forall s, Rabs (x s) <= r.
Definition center : string -> R := fun _ => 0.

(** f(x) = g(x) + O(|x|^(n+1)) for x -> 0, |x| the largest displacement. *)
Definition taylor_of (n : nat) (g : gdual R) (f : (string -> R) -> R) : Prop :=
  exists C d, 0 < d /\ 0 <= C /\ forall x r, small x r -> r <= d -> Rabs (f x - value g x) <= C * r ^ S n.

(** [expands n g f]: g is a well-formed gdual and holds the Taylor expansion
    of order n of f.  Its truncation order is at least n, or 0 (a constant,
    as built from a number). *)
Definition expands (n : nat) (g : gdual R) (f : (string -> R) -> R) : Prop :=
  valid g /\ ((n <= get_order g)%nat \/ get_order g = 0%nat) /\ taylor_of n g f.

(** Real functions computed by the one-argument functions, where they are
    expanded, and up to which order. *)
Definition real1 (f : fun1) (x : R) : R :=
  match f with
  | Fexp => exp x | Flog => ln x | Fsqrt => sqrt x | Fcbrt => cbrt_R x
  | Fsin => sin x | Fcos => cos x | Ftan | Ftanq => tan x
  | Fsinh => sinh x | Fcosh => cosh x | Ftanh | Ftanhq => tanh x
  | Fatan => atan x | Fatanh => atanh_R x | Fasin => asin x | Facos => acos x
  | Fasinh => asinh_R x | Facosh => acosh_R x | Fabs => Rabs x
  | Flog10 => ln x / ln 10 | Flog2 => ln x / ln 2 | Flog1p => ln (x + 1) | Fexpm1 => exp x - 1
  end.
Definition dom1 (f : fun1) (p : R) : Prop :=
  match f with
  | Flog | Fsqrt | Flog10 | Flog2 => 0 < p
  | Fcbrt | Fabs => p <> 0
  | Ftan | Ftanq => cos p <> 0
  | Fatanh | Fasin | Facos => -1 < p < 1
  | Facosh => 1 < p
  | Flog1p => -1 < p
  | _ => True
  end.
(** The factorials of sin and cos wrap after 65536, the binomials of atan
    after 30 (asin and acos call atan). *)
Definition fits1 (f : fun1) (order : nat) : Prop :=
  match f with
  | Fsin | Fcos | Ftanq => (Z.of_nat order <= 65536)%Z
  | Fatan | Fasin | Facos => (order <= 30)%nat
  | _ => True
  end.

Definition realD (f : funD) (x : R) : R :=
  match f with
  | Datanh => atanh_R x | Datan => atan x | Dasin => asin x | Dasinh => asinh_R x
  | Dacos => acos x | Dacosh => acosh_R x | Derf => erf_R x | Derfc => 1 - erf_R x
  end.
Definition domD (f : funD) (p : R) : Prop :=
  match f with
  | Datanh | Dasin | Dacos => -1 < p < 1
  | Dacosh => 1 < p
  | _ => True
  end.

(** Powers: [rpow x a] is std::pow.  pow(d, a) is expanded at p when p > 0,
    or p < 0 and a is an integer, or a is a positive integer. *)
Definition dompow (p a : R) : Prop :=
  0 < p \/ (p < 0 /\ exists z, a = IZR z) \/ exists k, a = INR (S k).

(** ** Expressions

    Programs built with the overloaded operators and functions: variables,
    numbers, gdual-gdual and mixed operators, functions. *)
Inductive expr : Type :=
| Num (v : R) | Var (s : string)
| Add (a b : expr) | Sub (a b : expr) | Mul (a b : expr) | Div (a b : expr) | Neg (a : expr)
| NumAdd (v : R) (a : expr) | AddNum (a : expr) (v : R)
| NumSub (v : R) (a : expr) | SubNum (a : expr) (v : R)
| NumMul (v : R) (a : expr) | MulNum (a : expr) (v : R)
| NumDiv (v : R) (a : expr) | DivNum (a : expr) (v : R)
| Fun1 (f : fun1) (a : expr) | FunD (f : funD) (a : expr)
| Pow (a b : expr) | NumPow (v : R) (a : expr) | PowReal (a : expr) (v : R) | PowInt (a : expr) (z : Z).

(** Its value when the variables are real numbers. *)
Fixpoint real (e : expr) (x : string -> R) : R :=
  match e with
  | Num v => v | Var s => x s
  | Add a b => real a x + real b x | Sub a b => real a x - real b x
  | Mul a b => real a x * real b x | Div a b => real a x / real b x | Neg a => - real a x
  | NumAdd v a => v + real a x | AddNum a v => real a x + v
  | NumSub v a => v - real a x | SubNum a v => real a x - v
  | NumMul v a => v * real a x | MulNum a v => real a x * v
  | NumDiv v a => v / real a x | DivNum a v => real a x / v
  | Fun1 f a => real1 f (real a x) | FunD f a => realD f (real a x)
  | Pow a b => Rpower (real a x) (real b x) | NumPow v a => Rpower v (real a x)
  | PowReal a v => rpow (real a x) v | PowInt a z => powerRZ (real a x) z
  end.

(** Where every step of it is differentiable. *)
Fixpoint smooth (e : expr) (x : string -> R) : Prop :=
  match e with
  | Num _ | Var _ => True
  | Add a b | Sub a b | Mul a b => smooth a x /\ smooth b x
  | Div a b => smooth a x /\ smooth b x /\ real b x <> 0
  | Neg a | NumAdd _ a | AddNum a _ | NumSub _ a | SubNum a _ | NumMul _ a | MulNum a _ | DivNum a _ => smooth a x
  | NumDiv _ a => smooth a x /\ real a x <> 0
  | Fun1 f a => smooth a x /\ dom1 f (real a x)
  | FunD f a => smooth a x /\ domD f (real a x)
  | Pow a b => smooth a x /\ smooth b x /\ 0 < real a x
  | NumPow v a => smooth a x /\ 0 < v
  | PowReal a v => smooth a x /\ dompow (real a x) v
  | PowInt a z => smooth a x /\ ((z < 0)%Z -> real a x <> 0)
  end.

(** The functions it calls support the order. *)
Fixpoint fits (e : expr) (order : nat) : Prop :=
  match e with
  | Num _ | Var _ => True
  | Add a b | Sub a b | Mul a b | Div a b | Pow a b => fits a order /\ fits b order
  | Neg a | NumAdd _ a | AddNum a _ | NumSub _ a | SubNum a _ | NumMul _ a | MulNum a _ | NumDiv _ a | DivNum a _
  | NumPow _ a | PowReal a _ | PowInt a _ => fits a order
  | Fun1 f a => fits a order /\ fits1 f order
  | FunD f a => fits a order /\ (Z.of_nat order < 2147483648)%Z
  end.

(** The variables have acceptable names (not empty, not starting with the
    letter d) and orders. *)
Definition goodv (order : string -> nat) (s : string) : Prop :=
  (exists c r, s = String c r /\ c <> "d"%char) /\ (Z.of_nat (order s) < 4294967285)%Z.
Fixpoint names_ok (order : string -> nat) (e : expr) : Prop :=
  match e with
  | Num _ => True | Var s => goodv order s
  | Add a b | Sub a b | Mul a b | Div a b | Pow a b => names_ok order a /\ names_ok order b
  | Neg a | NumAdd _ a | AddNum a _ | NumSub _ a | SubNum a _ | NumMul _ a | MulNum a _ | NumDiv _ a | DivNum a _
  | NumPow _ a | PowReal a _ | PowInt a _ | Fun1 _ a | FunD _ a => names_ok order a
  end.
(** What the C++ program computes when each variable s is
    gdual(point s, s, order s). *)
Section Calc.
  Variables (point : string -> R) (order : string -> nat).
  Fixpoint calc (e : expr) : res (gdual R) :=
    match e with
    | Num v => Ok (gconst v)
    | Var s => gvar (point s) s (order s)
    | Add a b => x <- calc a;; y <- calc b;; Ok (gadd x y)
    | Sub a b => x <- calc a;; y <- calc b;; Ok (gsub x y)
    | Mul a b => x <- calc a;; y <- calc b;; Ok (gmul x y)
    | Div a b => x <- calc a;; y <- calc b;; Ok (gdiv x y)
    | Neg a => x <- calc a;; Ok (gneg x)
    | NumAdd v a => x <- calc a;; Ok (gadd_sg v x)
    | AddNum a v => x <- calc a;; Ok (gadd_gs x v)
    | NumSub v a => x <- calc a;; Ok (gsub_sg v x)
    | SubNum a v => x <- calc a;; Ok (gsub_gs x v)
    | NumMul v a => x <- calc a;; Ok (gmul_sg v x)
    | MulNum a v => x <- calc a;; Ok (gmul_gs x v)
    | NumDiv v a => x <- calc a;; Ok (gdiv_sg v x)
    | DivNum a v => x <- calc a;; Ok (gdiv_gs x v)
    | Fun1 f a => x <- calc a;; Ok (run1 f x)
    | FunD f a => x <- calc a;; runD f x
    | Pow a b => x <- calc a;; y <- calc b;; Ok (gpow x y)
    | NumPow v a => x <- calc a;; Ok (gpow_sg v x)
    | PowReal a v => x <- calc a;; Ok (gpow_real x v)
    | PowInt a z => x <- calc a;; Ok (gpow_int x z)
    end.
End Calc.

(** [F k] is the partial derivative of [f] with exponents [k] over the
    variables [W], for all |k| <= n + 1, near the center; those with
    |k| = n + 1 are bounded there. *)
Definition derivatives (W : list string) (n : nat) (f : (string -> R) -> R) (F : list nat -> (string -> R) -> R) : Prop :=
  (forall x, F (map (fun _ => 0%nat) W) x = f x) /\
  exists r, 0 < r /\
    (forall k s x, length k = length W -> (list_sum k <= n)%nat -> In s W -> small x r ->
       derivable_pt_lim (fun t => F k (update x s t)) (x s) (F (incr W k s) x)) /\
    (forall k, length k = length W -> list_sum k = S n -> exists M, forall x, small x r -> Rabs (F k x) <= M).
