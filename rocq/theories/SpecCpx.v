(** * Vocabulary of the properties of gduals with complex coefficients

    Complex coefficients (Cplx.v).  A point [x] gives the complex
    displacement of every symbol.  Independent of the model's arithmetic and
    functions except in [ccalc], which says which model function an
    expression node calls.

    The functions are those whose templates can be instantiated with
    std::complex<double>: sqrt and cbrt (hence asinh, acosh), atan (hence
    asin, acos), abs and erf mix unsigned integers with complex numbers or
    compare complex numbers and do not compile. *)

From Coq Require Import String Ascii Reals List ZArith Bool.
From Coquelicot Require Import Complex.
From Verif Require Import Ops Syms Poly Gdual Functions Spec SpecTaylor Cplx.
Import ListNotations.
Open Scope R_scope.

Definition csmall (x : string -> C) (r : R) : Prop := forall s, Cmod (x s) <= r.
Definition ccenter : string -> C := fun _ => RtoC 0.

(** f(x) = g(x) + O(|x|^(n+1)) for x -> 0, |x| the largest modulus. *)
Definition ctaylor_of (n : nat) (g : gdual C) (f : (string -> C) -> C) : Prop :=
  exists K d, 0 < d /\ 0 <= K /\ forall x r, csmall x r -> r <= d -> Cmod (f x - value g x)%C <= K * r ^ S n.
Definition cexpands (n : nat) (g : gdual C) (f : (string -> C) -> C) : Prop :=
  valid g /\ ((n <= get_order g)%nat \/ get_order g = 0%nat) /\ ctaylor_of n g f.

(** z is neither 0 nor a negative real number: log is differentiable there. *)
Definition slit (z : C) : Prop := ~ (snd z = 0 /\ fst z <= 0).

(** Powers with an integer exponent. *)
Fixpoint cpow (z : C) (n : nat) : C := match n with O => RtoC 1 | S m => (z * cpow z m)%C end.
Definition cpowZ (z : C) (k : Z) : C := if Z.ltb k 0 then (/ cpow z (Z.to_nat (- k)))%C else cpow z (Z.to_nat k).

Inductive cfun : Type := Xexp | Xlog | Xsin | Xcos | Xtan | Xsinh | Xcosh | Xtanh | Xatanh.
Definition cfun1 (f : cfun) : fun1 :=
  match f with
  | Xexp => Fexp | Xlog => Flog | Xsin => Fsin | Xcos => Fcos | Xtan => Ftan
  | Xsinh => Fsinh | Xcosh => Fcosh | Xtanh => Ftanh | Xatanh => Fatanh
  end.
Definition cval (f : cfun) (z : C) : C :=
  match f with
  | Xexp => Cexp z | Xlog => Clog z | Xsin => Csin z | Xcos => Ccos z | Xtan => (Csin z / Ccos z)%C
  | Xsinh => Csinh z | Xcosh => Ccosh z | Xtanh => (Csinh z / Ccosh z)%C
  | Xatanh => ((Clog (RtoC 1 + z) - Clog (RtoC 1 - z)) / RtoC 2)%C
  end.
Definition cdom (f : cfun) (z : C) : Prop :=
  match f with
  | Xlog => slit z | Xtan => Ccos z <> RtoC 0 | Xtanh => Ccosh z <> RtoC 0
  | Xatanh => slit (RtoC 1 + z)%C /\ slit (RtoC 1 - z)%C
  | _ => True
  end.
(** The factorials of sin and cos wrap after 65536. *)
Definition cfits1 (f : cfun) (order : nat) : Prop :=
  match f with Xsin | Xcos => (Z.of_nat order <= 65536)%Z | _ => True end.

(** The quadratures that exist for complex coefficients, with the values and
    domains of the functions they compute. *)
Inductive cquad : Type := Qatanh | Qatan.
Definition quadD (q : cquad) : funD := match q with Qatanh => Datanh | Qatan => Datan end.
Definition cvalq (q : cquad) (z : C) : C :=
  match q with
  | Qatanh => ((Clog (RtoC 1 + z) - Clog (RtoC 1 - z)) / RtoC 2)%C
  | Qatan => (Ci * (Clog (RtoC 1 - Ci * z) - Clog (RtoC 1 + Ci * z)) / RtoC 2)%C
  end.
Definition cdomq (q : cquad) (z : C) : Prop :=
  match q with
  | Qatanh => slit (RtoC 1 + z)%C /\ slit (RtoC 1 - z)%C
  | Qatan => slit (RtoC 1 + Ci * z)%C /\ slit (RtoC 1 - Ci * z)%C
  end.

(** pow(d, a) with a real exponent is expanded at z off the slit, or z <> 0
    and a is an integer, or a is a positive integer. *)
Definition cdompow (z : C) (a : R) : Prop :=
  slit z \/ (z <> RtoC 0 /\ exists m, a = IZR m) \/ exists k, a = INR (S k).

(** ** Expressions *)
Inductive cexpr : Type :=
| XNum (v : C) | XVar (s : string)
| XAdd (a b : cexpr) | XSub (a b : cexpr) | XMul (a b : cexpr) | XDiv (a b : cexpr) | XNeg (a : cexpr)
| XNumAdd (v : C) (a : cexpr) | XAddNum (a : cexpr) (v : C)
| XNumSub (v : C) (a : cexpr) | XSubNum (a : cexpr) (v : C)
| XNumMul (v : C) (a : cexpr) | XMulNum (a : cexpr) (v : C)
| XNumDiv (v : C) (a : cexpr) | XDivNum (a : cexpr) (v : C)
| XFun (f : cfun) (a : cexpr) | XQuad (q : cquad) (a : cexpr)
| XPow (a b : cexpr) | XNumPow (v : R) (a : cexpr) | XPowReal (a : cexpr) (v : R) | XPowInt (a : cexpr) (z : Z).

(** Its value when the variables are complex numbers. *)
Fixpoint cplx (e : cexpr) (x : string -> C) : C :=
  match e with
  | XNum v => v | XVar s => x s
  | XAdd a b => cplx a x + cplx b x | XSub a b => cplx a x - cplx b x
  | XMul a b => cplx a x * cplx b x | XDiv a b => cplx a x / cplx b x | XNeg a => - cplx a x
  | XNumAdd v a => v + cplx a x | XAddNum a v => cplx a x + v
  | XNumSub v a => v - cplx a x | XSubNum a v => cplx a x - v
  | XNumMul v a => v * cplx a x | XMulNum a v => cplx a x * v
  | XNumDiv v a => v / cplx a x | XDivNum a v => cplx a x / v
  | XFun f a => cval f (cplx a x) | XQuad q a => cvalq q (cplx a x)
  | XPow a b => Cpower (cplx a x) (cplx b x) | XNumPow v a => Cpower (RtoC v) (cplx a x)
  | XPowReal a v => Cpower (cplx a x) (RtoC v) | XPowInt a z => cpowZ (cplx a x) z
  end%C.

(** Where every step of it is differentiable. *)
Fixpoint csmooth (e : cexpr) (x : string -> C) : Prop :=
  match e with
  | XNum _ | XVar _ => True
  | XAdd a b | XSub a b | XMul a b => csmooth a x /\ csmooth b x
  | XDiv a b => csmooth a x /\ csmooth b x /\ cplx b x <> RtoC 0
  | XNeg a | XNumAdd _ a | XAddNum a _ | XNumSub _ a | XSubNum a _ | XNumMul _ a | XMulNum a _ | XDivNum a _ => csmooth a x
  | XNumDiv _ a => csmooth a x /\ cplx a x <> RtoC 0
  | XFun f a => csmooth a x /\ cdom f (cplx a x)
  | XQuad q a => csmooth a x /\ cdomq q (cplx a x)
  | XPow a b => csmooth a x /\ csmooth b x /\ slit (cplx a x)
  | XNumPow v a => csmooth a x /\ v <> 0
  | XPowReal a v => csmooth a x /\ cdompow (cplx a x) v
  | XPowInt a z => csmooth a x /\ ((z < 0)%Z -> cplx a x <> RtoC 0)
  end.

(** The functions it calls support the order. *)
Fixpoint cfits (e : cexpr) (order : nat) : Prop :=
  match e with
  | XNum _ | XVar _ => True
  | XAdd a b | XSub a b | XMul a b | XDiv a b | XPow a b => cfits a order /\ cfits b order
  | XNeg a | XNumAdd _ a | XAddNum a _ | XNumSub _ a | XSubNum a _ | XNumMul _ a | XMulNum a _ | XNumDiv _ a | XDivNum a _
  | XNumPow _ a | XPowReal a _ | XPowInt a _ => cfits a order
  | XFun f a => cfits a order /\ cfits1 f order
  | XQuad _ a => cfits a order /\ (Z.of_nat order < 2147483648)%Z
  end.

(** The variables have acceptable names (not empty, not starting with the
    letter d) and orders. *)
Fixpoint cnames_ok (order : string -> nat) (e : cexpr) : Prop :=
  match e with
  | XNum _ => True
  | XVar s => (exists c r, s = String c r /\ c <> "d"%char) /\ (Z.of_nat (order s) < 4294967285)%Z
  | XAdd a b | XSub a b | XMul a b | XDiv a b | XPow a b => cnames_ok order a /\ cnames_ok order b
  | XNeg a | XNumAdd _ a | XAddNum a _ | XNumSub _ a | XSubNum a _ | XNumMul _ a | XMulNum a _ | XNumDiv _ a | XDivNum a _
  | XNumPow _ a | XPowReal a _ | XPowInt a _ | XFun _ a | XQuad _ a => cnames_ok order a
  end.
(** What the C++ program computes when each variable s is
    gdual_c(point s, s, order s). *)
Section Calc.
  Variables (point : string -> C) (order : string -> nat).
  Fixpoint ccalc (e : cexpr) : res (gdual C) :=
    match e with
    | XNum v => Ok (gconst v)
    | XVar s => gvar (point s) s (order s)
    | XAdd a b => x <- ccalc a;; y <- ccalc b;; Ok (gadd x y)
    | XSub a b => x <- ccalc a;; y <- ccalc b;; Ok (gsub x y)
    | XMul a b => x <- ccalc a;; y <- ccalc b;; Ok (gmul x y)
    | XDiv a b => x <- ccalc a;; y <- ccalc b;; Ok (gdiv x y)
    | XNeg a => x <- ccalc a;; Ok (gneg x)
    | XNumAdd v a => x <- ccalc a;; Ok (gadd_sg v x)
    | XAddNum a v => x <- ccalc a;; Ok (gadd_gs x v)
    | XNumSub v a => x <- ccalc a;; Ok (gsub_sg v x)
    | XSubNum a v => x <- ccalc a;; Ok (gsub_gs x v)
    | XNumMul v a => x <- ccalc a;; Ok (gmul_sg v x)
    | XMulNum a v => x <- ccalc a;; Ok (gmul_gs x v)
    | XNumDiv v a => x <- ccalc a;; Ok (gdiv_sg v x)
    | XDivNum a v => x <- ccalc a;; Ok (gdiv_gs x v)
    | XFun f a => x <- ccalc a;; Ok (run1 (cfun1 f) x)
    | XQuad q a => x <- ccalc a;; runD (quadD q) x
    | XPow a b => x <- ccalc a;; y <- ccalc b;; Ok (gpow x y)
    | XNumPow v a => x <- ccalc a;; Ok (gpow_sg (RtoC v) x)
    | XPowReal a v => x <- ccalc a;; Ok (gpow_real x (RtoC v))
    | XPowInt a z => x <- ccalc a;; Ok (gpow_int x z)
    end.
End Calc.

(** The gdual with complex coefficients made from one with real
    coefficients. *)
Definition cembed (g : gdual R) : gdual C :=
  mkG (mkPoly (psyms (gp g)) (map (fun t => (fst t, RtoC (snd t))) (pterms (gp g)))) (gord g).

(** The same program with complex coefficients; None when it calls a function
    that does not exist for them. *)
Definition cfun_of (f : fun1) : option cfun :=
  match f with
  | Fexp => Some Xexp | Flog => Some Xlog | Fsin => Some Xsin | Fcos => Some Xcos | Ftan => Some Xtan
  | Fsinh => Some Xsinh | Fcosh => Some Xcosh | Ftanh => Some Xtanh | Fatanh => Some Xatanh
  | _ => None
  end.
Definition cquad_of (f : funD) : option cquad :=
  match f with Datanh => Some Qatanh | Datan => Some Qatan | _ => None end.
Definition map1 (F : cexpr -> cexpr) (a : option cexpr) : option cexpr := match a with Some x => Some (F x) | None => None end.
Definition map2 (F : cexpr -> cexpr -> cexpr) (a b : option cexpr) : option cexpr :=
  match a, b with Some x, Some y => Some (F x y) | _, _ => None end.
Fixpoint to_complex (e : expr) : option cexpr :=
  match e with
  | Num v => Some (XNum (RtoC v)) | Var s => Some (XVar s)
  | Add a b => map2 XAdd (to_complex a) (to_complex b) | Sub a b => map2 XSub (to_complex a) (to_complex b)
  | Mul a b => map2 XMul (to_complex a) (to_complex b) | Div a b => map2 XDiv (to_complex a) (to_complex b)
  | Neg a => map1 XNeg (to_complex a)
  | NumAdd v a => map1 (XNumAdd (RtoC v)) (to_complex a) | AddNum a v => map1 (fun a => XAddNum a (RtoC v)) (to_complex a)
  | NumSub v a => map1 (XNumSub (RtoC v)) (to_complex a) | SubNum a v => map1 (fun a => XSubNum a (RtoC v)) (to_complex a)
  | NumMul v a => map1 (XNumMul (RtoC v)) (to_complex a) | MulNum a v => map1 (fun a => XMulNum a (RtoC v)) (to_complex a)
  | NumDiv v a => map1 (XNumDiv (RtoC v)) (to_complex a) | DivNum a v => map1 (fun a => XDivNum a (RtoC v)) (to_complex a)
  | Fun1 f a => match cfun_of f with Some f' => map1 (XFun f') (to_complex a) | None => None end
  | FunD f a => match cquad_of f with Some q => map1 (XQuad q) (to_complex a) | None => None end
  | Pow a b => map2 XPow (to_complex a) (to_complex b)
  | NumPow v a => map1 (XNumPow v) (to_complex a) | PowReal a v => map1 (fun a => XPowReal a v) (to_complex a)
  | PowInt a z => map1 (fun a => XPowInt a z) (to_complex a)
  end.
