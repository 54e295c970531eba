(** * Interval arithmetic (boost::numeric::interval<double>, the type int_d of
      taylor_model_functions.hpp:48-51)

    An interval is the pair of its bounds.  The four operations, integer
    powers and absolute value are the exact ones: outward rounding is not
    modelled (coefficients are exact as well), nor are infinite bounds and the
    empty interval.  Where boost would return an unbounded or empty interval,
    on division by an interval (or number) containing zero, the model reports
    an exception.  The transcendental functions of boost are the operations of
    the class [IvFun]; the theorems assume of them only that the result
    encloses the image. *)

From Coq Require Import List Bool Arith ZArith.
From Verif Require Import Ops Syms Poly Gdual.
Import ListNotations.

Class IvFun (K : Type) : Type := mkIvFun {
  i_exp : K * K -> K * K;  i_sqrt : K * K -> K * K;
  i_sin : K * K -> K * K;  i_cos : K * K -> K * K;
  i_sinh : K * K -> K * K; i_cosh : K * K -> K * K;
  i_asin : K * K -> K * K; i_atan : K * K -> K * K
}.

Section Interval.
  Context {K : Type} {o : Ops K}.
  Local Open Scope K_scope.
  Notation ival := (K * K)%type.

  Definition kmin (a b : K) : K := if b <? a then b else a.
  Definition kmax (a b : K) : K := if a <? b then b else a.

  (** int_d(c), int_d(c, c) *)
  Definition ipt (c : K) : ival := (c, c).
  Definition iadd (a b : ival) : ival := (fst a + fst b, snd a + snd b).
  Definition isub (a b : ival) : ival := (fst a - snd b, snd a - fst b).
  Definition ineg (a : ival) : ival := (- snd a, - fst a).
  Definition imul (a b : ival) : ival :=
    let p := fst a * fst b in let q := fst a * snd b in
    let r := snd a * fst b in let s := snd a * snd b in
    (kmin (kmin p q) (kmin r s), kmax (kmax p q) (kmax r s)).
  (** boost::numeric::zero_in *)
  Definition zero_in (a : ival) : bool := negb (0 <? fst a) && negb (snd a <? 0).
  Definition idiv (a b : ival) : res ival :=
    if zero_in b then Throw OtherException else Ok (imul a (1 / snd b, 1 / fst b)).
  (** boost::numeric::pow(interval, int) for a positive exponent *)
  Definition ipow (a : ival) (n : nat) : ival :=
    if Nat.even n then
      if negb (fst a <? 0) then (kpow (fst a) n, kpow (snd a) n)
      else if negb (0 <? snd a) then (kpow (snd a) n, kpow (fst a) n)
      else (0, kmax (kpow (fst a) n) (kpow (snd a) n))
    else (kpow (fst a) n, kpow (snd a) n).
  (** boost::numeric::abs *)
  Definition iabs (a : ival) : ival :=
    if negb (fst a <? 0) then a
    else if negb (0 <? snd a) then ineg a
    else (0, kmax (- fst a) (snd a)).
  (** boost::numeric::in *)
  Definition iin (x : K) (a : ival) : bool := negb (x <? fst a) && negb (snd a <? x).
  (** boost::numeric::subset(a, [lo, infinity]) and subset(a, b) *)
  Definition iabove (a : ival) (lo : K) : bool := negb (fst a <? lo).
  Definition isubset (a b : ival) : bool := negb (fst a <? fst b) && negb (snd b <? snd a).
End Interval.
