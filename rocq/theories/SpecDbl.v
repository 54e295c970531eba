(** * Vocabulary for the properties of gduals with double coefficients

    The definitions look at gduals only through [stored] and [splits]
    (Spec.v). *)
From Coq Require Import String List Arith Bool ZArith Reals.
From Verif Require Import Ops Syms Poly Gdual Functions Spec.
Import ListNotations.

(** ** Any arithmetic *)
Section Any.
  Context {K : Type} {o : Ops K}.
  Local Open Scope K_scope.
  (** A coefficient that is zero is not kept. *)
  Definition kept (c : K) : option K := if c =? 0 then None else Some c.
  (** One addition after the other; a sum that is zero is not kept. *)
  Definition add_to (acc : option K) (c : K) : option K :=
    match acc with
    | None => if c =? 0 then None else Some c
    | Some v => if v + c =? 0 then None else Some (v + c)
    end.
  Definition sum_up (l : list K) : option K := fold_left add_to l None.
  (** The pairs of stored coefficients whose monomials multiply to [k]. *)
  Definition factors (a b : gdual K) (W : list string) (k : key) : list (K * K) :=
    flat_map (fun ij => match stored a W (fst ij), stored b W (snd ij) with
                        | Some x, Some y => [(x, y)]
                        | _, _ => []
                        end) (splits k).
End Any.

(** ** Double precision

    IEEE 754 binary64 with round to nearest, ties to even, as formalised by
    Flocq: the coefficient type of audi::gdual_d ([gdual<double>],
    include/audi/gdual.hpp:98, include/audi/audi.hpp). *)
From Flocq Require Import Core BinarySingleNaN.

#[global] Instance prec53 : Prec_gt_0 53 := eq_refl.
#[global] Instance prec53_lt : Prec_lt_emax 53 1024 := eq_refl.
Notation double := (binary_float 53 1024).

#[global] Instance OpsB64 : Ops double :=
  mkOps double (B754_zero false) Bone (Bplus mode_NE) (Bminus mode_NE) (Bmult mode_NE) Bopp (Bdiv mode_NE)
        Beqb Bltb Babs (fun z => binary_normalize 53 1024 prec53 prec53_lt mode_NE z 0 false).

(** The double nearest to a real number (ties to even). *)
Definition rnd (x : R) : R := round radix2 (FLT_exp (-1074) 53) ZnearestE x.

(** The unit roundoff and half the smallest positive double. *)
Definition u53 : R := bpow radix2 (-53).
Definition tiny : R := bpow radix2 (-1075).

(** The value of a stored coefficient; 0 when there is none. *)
Definition cf (g : gdual double) (W : list string) (k : key) : R :=
  match stored g W k with Some c => B2R c | None => 0%R end.
(** The coefficient, if there is one, is neither infinite nor NaN. *)
Definition cf_finite (g : gdual double) (W : list string) (k : key) : Prop :=
  match stored g W k with Some c => is_finite c = true | None => True end.

(** The coefficient of the exact product, and the same with absolute values. *)
Definition conv (a b : gdual double) (W : list string) (k : key) : R :=
  fold_right Rplus 0%R (map (fun ij => (cf a W (fst ij) * cf b W (snd ij))%R) (splits k)).
Definition conv_abs (a b : gdual double) (W : list string) (k : key) : R :=
  fold_right Rplus 0%R (map (fun ij => Rabs (cf a W (fst ij) * cf b W (snd ij))) (splits k)).
