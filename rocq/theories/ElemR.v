(** * The real elementary functions

    The operations of the class [Elem] over the reals: what <cmath> and boost
    compute on doubles, without rounding.  The theorems on the elementary
    functions of gduals are about this instance. *)

From Coq Require Import Reals List ZArith.
From Coquelicot Require Import Coquelicot.
From Verif Require Import Ops Functions.
Import ListNotations.
Open Scope R_scope.

(** The real cube root. *)
Definition cbrt_R (x : R) : R :=
  if Rlt_dec 0 x then Rpower x (1 / 3) else if Rlt_dec x 0 then - Rpower (- x) (1 / 3) else 0.

(** std::pow on reals: x^y for x > 0, and for integer y otherwise.  Where the
    C function is not defined (a negative base with a non-integer exponent,
    0 with a negative one) the value is irrelevant. *)
Definition rpow (x y : R) : R :=
  if Rlt_dec 0 x then Rpower x y
  else if Req_EM_T (IZR (Int_part y)) y then powerRZ x (Int_part y) else 0.

(** Truncation toward zero, static_cast<int>.  (The C++ conversion is
    undefined when the result does not fit in an int.) *)
Definition rtoint (x : R) : Z := if Rle_dec 0 x then Int_part x else (- Int_part (- x))%Z.

Definition asinh_R (x : R) : R := ln (x + sqrt (1 + x * x)).
Definition acosh_R (x : R) : R := ln (x + sqrt (x * x - 1)).
Definition atanh_R (x : R) : R := / 2 * ln ((1 + x) / (1 - x)).
Definition erf_R (x : R) : R := 2 / sqrt PI * RInt (fun t => exp (- t * t)) 0 x.

(** Bernoulli numbers, by the recurrence
    B_0 = 1,  B_m = - 1/(m+1) * sum_{j<m} C(m+1,j) B_j. *)
Definition bern_next (m : nat) (l : list R) : R :=
  - / INR (S m) * sum_f_R0 (fun j => Binomial.C (S m) j * nth j l 0) (m - 1).
Fixpoint bern_list (n : nat) : list R :=
  match n with
  | O => [1]
  | S m => bern_list m ++ [bern_next (S m) (bern_list m)]
  end.
Definition bernoulli (n : nat) : R := nth n (bern_list n) 0.

#[global] Instance ElemR : Elem R := {|
  e_exp := exp;   e_log := ln;
  e_sqrt := sqrt; e_cbrt := cbrt_R;
  e_sin := sin;   e_cos := cos;   e_tan := tan;
  e_sinh := sinh; e_cosh := cosh; e_tanh := tanh;
  e_asin := asin; e_acos := acos; e_atan := atan;
  e_asinh := asinh_R; e_acosh := acosh_R; e_atanh := atanh_R;
  e_erf := erf_R;
  e_pow := rpow;
  e_toint := rtoint;
  e_pi := PI;
  e_bern := fun k => bernoulli (2 * k)
|}.
