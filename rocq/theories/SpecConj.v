(** * Complex conjugation

    Vocabulary of the properties of C50 about conjugate data.  The gdual
    whose coefficients are the conjugates, and the program whose numbers are
    the conjugates.  Independent of the model's arithmetic and functions. *)

From Coq Require Import String Ascii Reals List ZArith Bool.
From Coquelicot Require Import Complex.
From Verif Require Import Ops Syms Poly Gdual Functions Spec Cplx SpecTaylor SpecCpx.
Import ListNotations.
Open Scope R_scope.

Definition cconj (z : C) : C := (fst z, - snd z).
Definition gconj (g : gdual C) : gdual C :=
  mkG (mkPoly (psyms (gp g)) (map (fun t => (fst t, cconj (snd t))) (pterms (gp g)))) (gord g).

(** All coefficients are real numbers. *)
Definition real_coefs (g : gdual C) : Prop := Forall (fun t => snd (snd t) = 0) (pterms (gp g)).

Fixpoint econj (e : cexpr) : cexpr :=
  match e with
  | XNum v => XNum (cconj v) | XVar s => XVar s
  | XAdd a b => XAdd (econj a) (econj b) | XSub a b => XSub (econj a) (econj b)
  | XMul a b => XMul (econj a) (econj b) | XDiv a b => XDiv (econj a) (econj b) | XNeg a => XNeg (econj a)
  | XNumAdd v a => XNumAdd (cconj v) (econj a) | XAddNum a v => XAddNum (econj a) (cconj v)
  | XNumSub v a => XNumSub (cconj v) (econj a) | XSubNum a v => XSubNum (econj a) (cconj v)
  | XNumMul v a => XNumMul (cconj v) (econj a) | XMulNum a v => XMulNum (econj a) (cconj v)
  | XNumDiv v a => XNumDiv (cconj v) (econj a) | XDivNum a v => XDivNum (econj a) (cconj v)
  | XFun f a => XFun f (econj a) | XQuad q a => XQuad q (econj a)
  | XPow a b => XPow (econj a) (econj b) | XNumPow v a => XNumPow v (econj a)
  | XPowReal a v => XPowReal (econj a) v | XPowInt a z => XPowInt (econj a) z
  end.

(** The numbers in the program are real. *)
Fixpoint real_numbers (e : cexpr) : Prop :=
  match e with
  | XNum v => snd v = 0 | XVar _ => True
  | XAdd a b | XSub a b | XMul a b | XDiv a b | XPow a b => real_numbers a /\ real_numbers b
  | XNumAdd v a | XAddNum a v | XNumSub v a | XSubNum a v | XNumMul v a | XMulNum a v | XNumDiv v a | XDivNum a v =>
      snd v = 0 /\ real_numbers a
  | XNeg a | XFun _ a | XQuad _ a | XNumPow _ a | XPowReal a _ | XPowInt a _ => real_numbers a
  end.
(** The bases v of pow(v, d) are positive. *)
Fixpoint positive_bases (e : cexpr) : Prop :=
  match e with
  | XNum _ | XVar _ => True
  | XAdd a b | XSub a b | XMul a b | XDiv a b | XPow a b => positive_bases a /\ positive_bases b
  | XNumAdd _ a | XAddNum a _ | XNumSub _ a | XSubNum a _ | XNumMul _ a | XMulNum a _ | XNumDiv _ a | XDivNum a _
  | XNeg a | XFun _ a | XQuad _ a | XPowReal a _ | XPowInt a _ => positive_bases a
  | XNumPow v a => 0 < v /\ positive_bases a
  end.
