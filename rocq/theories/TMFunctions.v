(** * Model of include/audi/taylor_model_functions.hpp

    The functions on Taylor models.  [Elem] holds the functions of <cmath>,
    [IvFun] those of boost::numeric on intervals. *)

From Coq Require Import String List Arith Bool ZArith.
From Verif Require Import Ops Syms Poly Gdual Functions Interval TaylorModel.
From Verif Require Bounding.
Import ListNotations.

(** taylor_model_functions.hpp:78-91 [factorial2(int)].  The loop multiplies a
    long long; signed overflow, undefined in C++, is taken as wrap-around. *)
Definition int64 (z : Z) : Z := ((z + 9223372036854775808) mod 18446744073709551616 - 9223372036854775808)%Z.
Definition factorial2_loop (n : Z) : Z :=
  fold_left (fun result i => int64 (result * (n - 2 * Z.of_nat i)))%Z (seq 0 (Z.to_nat ((n + 1) / 2))) 1%Z.
Definition factorial2 (n : Z) : res Z :=
  if (n <? -1)%Z then Throw InvalidArgument
  else if (n =? 0)%Z || (n =? -1)%Z then Ok 1%Z
  else Ok (factorial2_loop n).
(** taylor_model_functions.hpp:94-104 [factorial2(unsigned)]; the argument is a
    32-bit value, the loop variable the int with the same bits *)
Definition factorial2_u (n : Z) : Z :=
  if (n =? 0)%Z then 1%Z
  else factorial2_loop (if (n <? two31)%Z then n else (n - two32)%Z).

Section TMFunctions.
  Context {K : Type} {o : Ops K} {e : Elem K} {iv : IvFun K}.
  Local Open Scope K_scope.
  Notation ival := (K * K)%type.
  Variable iter : list (string * ival) -> list (string * ival).
  Notation get_bounds := (Bounding.get_bounds iter).
  Notation half := (1 / kofZ 2).

  (** taylor_model_functions.hpp:117-139 *)
  Definition tm_pow_int (tm : taylor_model K) (n : Z) : res (taylor_model K) :=
    if (n =? 0)%Z then Ok (tm_identity_with (m_rem tm) (m_exp tm) (m_domain tm))
    else if (n =? 1)%Z then Ok tm
    else if (1 <? n)%Z then
      fold_left (fun acc (_ : nat) => product <- acc;; tm_mul iter product tm)
                (seq 1 (Z.to_nat n - 1)) (tm_mul_sg 1 tm)
    else
      fold_left (fun acc (_ : nat) => product <- acc;; p <- tm_mul_gs product 1;; tm_div iter p tm)
                (seq 0 (Z.to_nat (- n) - 1)) (tm_div_sg iter 1 tm).

  (** [boost::math::factorial<double>(k + 1)] throws [std::overflow_error] when
      k + 1 exceeds 170; otherwise the computation goes on. *)
  Definition factorial_fits {A : Type} (k : nat) (next : res A) : res A :=
    if factorial_overflows (k + 1) then Throw OtherException else next.

  (** taylor_model_functions.hpp:172-195, 205-209 *)
  Definition root_denominator (F : ival) (c : K) (m : nat) : res ival :=
    Fc <- idiv F (ipt c);;
    Ok (i_sqrt (ipow (iadd (ipt 1) (imul Fc unit_interval)) m)).
  Definition trimmed (tpol : gdual K) (rem : ival) (tm : taylor_model K) : res (taylor_model K) :=
    ne <- trim_map (get_symbol_set tpol) (m_exp tm);;
    nd <- trim_map (get_symbol_set tpol) (m_domain tm);;
    tm_make tpol rem ne nd.
  Definition tm_sqrt (tm : taylor_model K) : res (taylor_model K) :=
    let c := constant_cf (m_tpol tm) in
    F <- f_bar_remainder_bounds iter tm;;
    let k := get_order (m_tpol tm) in
    b <- tm_bounds iter tm;;
    if negb (iabove (iadd b (m_rem tm)) 0) then Throw RuntimeError
    else
      kh <- root_denominator F c (2 * k + 1);;
      factorial_fits k (
      let s := kpow (- (1)) k * e_pow c half * kofZ (factorial2_u ((2 * Z.of_nat k - 1) mod two32))
               / (kfact (k + 1) * kpow (kofZ 2) (k + 1)) in
      q <- idiv (imul (ipt s) (ipow F (k + 1))) (ipt (kpow c (k + 1)));;
      total_rem_bound <- idiv (imul q (ipt 1)) kh;;
      trimmed (gpow_real (m_tpol tm) half) total_rem_bound tm).
  Definition tm_inv_sqrt (tm : taylor_model K) : res (taylor_model K) :=
    let c := constant_cf (m_tpol tm) in
    F <- f_bar_remainder_bounds iter tm;;
    let k := get_order (m_tpol tm) in
    b <- tm_bounds iter tm;;
    if negb (iabove (iadd b (m_rem tm)) 0) then Throw RuntimeError
    else
      kh <- root_denominator F c (2 * k + 3);;
      factorial_fits k (
      let s := kpow (- (1)) (k + 1) * e_pow c (- half) * kofZ (factorial2_u ((2 * Z.of_nat k + 1) mod two32))
               / kfact (k + 1) * kpow (kofZ 2) (k + 1) in
      q <- idiv (imul (ipt s) (ipow F (k + 1))) (ipt (kpow c (k + 1)));;
      total_rem_bound <- idiv (imul q (ipt 1)) kh;;
      trimmed (gpow_real (m_tpol tm) (- half)) total_rem_bound tm).

  (** std::round *)
  Definition kround (n : K) : K := kofZ (if n <? 0 then e_toint (n - half) else e_toint (n + half)).
  Definition near_integer (n : K) : bool := kabs (n - kround n) <? tol10.
  (** taylor_model_functions.hpp:168-222.  The bounds of f_bar are computed
      before the exponent is looked at. *)
  Definition tm_pow (tm : taylor_model K) (n : K) : res (taylor_model K) :=
    _ <- f_bar_remainder_bounds iter tm;;
    if n =? half then tm_sqrt tm
    else if n =? - half then tm_inv_sqrt tm
    else if near_integer n then tm_pow_int tm (e_toint n)
    else if near_integer (n * kofZ 2) then p <- tm_pow_int tm (e_toint (n * kofZ 2));; tm_sqrt p
    else Throw RuntimeError.

  (** taylor_model_functions.hpp:239-253 *)
  Definition tm_exp (tm : taylor_model K) : res (taylor_model K) :=
    let c := constant_cf (m_tpol tm) in
    F <- f_bar_remainder_bounds iter tm;;
    let k := get_order (m_tpol tm) in
    factorial_fits k (
    tm_make (gexp (m_tpol tm))
      (imul (imul (ipt (e_exp c * (1 / kfact (k + 1)))) (ipow F (k + 1))) (i_exp (imul F unit_interval)))
      (m_exp tm) (m_domain tm)).

  (** taylor_model_functions.hpp:272-291 *)
  Definition tm_log (tm : taylor_model K) : res (taylor_model K) :=
    b <- tm_bounds iter tm;;
    if negb (iabove (iadd b (m_rem tm)) 0) then Throw RuntimeError
    else
      let c := constant_cf (m_tpol tm) in
      F <- f_bar_remainder_bounds iter tm;;
      let k := get_order (m_tpol tm) in
      lead <- idiv (imul (ipt (kpow (- (1)) (k + 2) * (1 / kofnat (k + 1)))) (ipow F (k + 1))) (ipt (kpow c (k + 1)));;
      Fc <- idiv F (ipt c);;
      inv <- idiv (ipt 1) (iadd (ipt 1) (imul Fc unit_interval));;
      tm_make (glog (m_tpol tm)) (imul lead (ipow inv (k + 1))) (m_exp tm) (m_domain tm).

  (** taylor_model_functions.hpp:339-366, 402-429.  [odd_fn], [even_fn]: the
      interval functions used for odd and even orders; [negative]: the orders
      for which the result is negated. *)
  Definition trig_remainder (even_fn odd_fn : ival -> ival) (negative : nat -> bool) (c : K) (F : ival) (k : nat) : ival :=
    let arg := iadd (ipt c) (imul F unit_interval) in
    let conditional_func := if Nat.eqb (k mod 2) 0 then even_fn arg else odd_fn arg in
    let conditional_func_2 := if negative k then ineg conditional_func else conditional_func in
    imul (imul (ipt (1 / kfact (k + 1))) conditional_func_2) (ipow F (k + 1)).
  Definition sin_negative (k : nat) : bool := Nat.eqb (k mod 4) 1 || Nat.eqb (k mod 4) 2.
  Definition cos_negative (k : nat) : bool := Nat.eqb (k mod 4) 0 || Nat.eqb (k mod 4) 1.
  Definition tm_sin (tm : taylor_model K) : res (taylor_model K) :=
    F <- f_bar_remainder_bounds iter tm;;
    factorial_fits (get_order (m_tpol tm)) (
    tm_make (gsin (m_tpol tm))
      (trig_remainder i_cos i_sin sin_negative (constant_cf (m_tpol tm)) F (get_order (m_tpol tm))) (m_exp tm) (m_domain tm)).
  Definition tm_cos (tm : taylor_model K) : res (taylor_model K) :=
    F <- f_bar_remainder_bounds iter tm;;
    factorial_fits (get_order (m_tpol tm)) (
    tm_make (gcos (m_tpol tm))
      (trig_remainder i_sin i_cos cos_negative (constant_cf (m_tpol tm)) F (get_order (m_tpol tm))) (m_exp tm) (m_domain tm)).
  (** taylor_model_functions.hpp:440-483 *)
  Definition tm_sin_and_cos (tm : taylor_model K) : res (taylor_model K * taylor_model K) :=
    F <- f_bar_remainder_bounds iter tm;;
    let c := constant_cf (m_tpol tm) in
    let k := get_order (m_tpol tm) in
    factorial_fits k (
    s <- tm_make (gsin (m_tpol tm)) (trig_remainder i_cos i_sin sin_negative c F k) (m_exp tm) (m_domain tm);;
    cs <- tm_make (gcos (m_tpol tm)) (trig_remainder i_sin i_cos cos_negative c F k) (m_exp tm) (m_domain tm);;
    Ok (s, cs)).
  (** taylor_model_functions.hpp:494-497 *)
  Definition tm_tan (tm : taylor_model K) : res (taylor_model K) :=
    s <- tm_sin tm;; c <- tm_cos tm;; tm_div iter s c.

  (** taylor_model_functions.hpp:523-543, 569-589 *)
  Definition never (_ : nat) : bool := false.
  Definition tm_sinh (tm : taylor_model K) : res (taylor_model K) :=
    F <- f_bar_remainder_bounds iter tm;;
    factorial_fits (get_order (m_tpol tm)) (
    tm_make (gsinh (m_tpol tm))
      (trig_remainder i_cosh i_sinh never (constant_cf (m_tpol tm)) F (get_order (m_tpol tm))) (m_exp tm) (m_domain tm)).
  Definition tm_cosh (tm : taylor_model K) : res (taylor_model K) :=
    F <- f_bar_remainder_bounds iter tm;;
    factorial_fits (get_order (m_tpol tm)) (
    tm_make (gcosh (m_tpol tm))
      (trig_remainder i_sinh i_cosh never (constant_cf (m_tpol tm)) F (get_order (m_tpol tm))) (m_exp tm) (m_domain tm)).
  (** taylor_model_functions.hpp:601-630 *)
  Definition tm_sinh_and_cosh (tm : taylor_model K) : res (taylor_model K * taylor_model K) :=
    F <- f_bar_remainder_bounds iter tm;;
    let c := constant_cf (m_tpol tm) in
    let k := get_order (m_tpol tm) in
    factorial_fits k (
    s <- tm_make (gsinh (m_tpol tm)) (trig_remainder i_cosh i_sinh never c F k) (m_exp tm) (m_domain tm);;
    cs <- tm_make (gcosh (m_tpol tm)) (trig_remainder i_sinh i_cosh never c F k) (m_exp tm) (m_domain tm);;
    Ok (s, cs)).
  (** taylor_model_functions.hpp:641-644 *)
  Definition tm_tanh (tm : taylor_model K) : res (taylor_model K) :=
    s <- tm_sinh tm;; c <- tm_cosh tm;; tm_div iter s c.

  (** taylor_model_functions.hpp:679-698; state: derivs[k], derivs[k+1] *)
  Definition asin_derivative (a : ival) (order : nat) : res ival :=
    let u := isub (ipt 1) (imul a a) in
    match order with
    | O => Ok (i_asin a)
    | S O => idiv (ipt 1) (i_sqrt u)
    | S (S n) =>
        d1 <- idiv (ipt 1) (i_sqrt u);;
        d2 <- idiv (imul a (ipow u 2)) (ipow u 3);;
        dd <- fold_left (fun acc k =>
                 st <- acc;;
                 r <- idiv (ipt 1) u;;
                 Ok (snd st, imul r (iadd (imul (imul (ipt (kofnat (2 * k + 1))) a) (snd st))
                                          (imul (ipt (kofnat (k * k))) (fst st)))))
               (seq 1 n) (Ok (d1, d2));;
        Ok (snd dd)
    end.
  (** taylor_model_functions.hpp:725-746 *)
  Definition tm_asin (tm : taylor_model K) : res (taylor_model K) :=
    b <- tm_bounds iter tm;;
    if negb (isubset (iadd b (m_rem tm)) (- (1), 1)) then Throw RuntimeError
    else
      let c := constant_cf (m_tpol tm) in
      l <- tm_mul_gs tm (e_sqrt (1 - e_pow c (kofZ 2)));;
      sq <- tm_pow_int tm 2;;
      one_minus <- tm_sub_sg 1 sq;;
      root <- tm_sqrt one_minus;;
      r <- tm_mul_sg c root;;
      adapted <- tm_sub l r;;
      ab <- tm_bounds iter adapted;;
      let G := iadd ab (m_rem adapted) in
      let k := get_order (m_tpol tm) in
      d <- asin_derivative (imul unit_interval G) (k + 1);;
      factorial_fits k (
      tm_make (gasin (m_tpol tm)) (imul (imul (ipt (1 / kfact (k + 1))) (ipow G (k + 1))) d) (m_exp tm) (m_domain tm)).
  (** taylor_model_functions.hpp:761-764 *)
  Definition tm_acos (tm : taylor_model K) : res (taylor_model K) :=
    a <- tm_asin tm;; tm_sub_sg (e_pi / kofZ 2) a.
  (** taylor_model_functions.hpp:787-807 *)
  Definition tm_atan (tm : taylor_model K) : res (taylor_model K) :=
    let c := constant_cf (m_tpol tm) in
    tm_bar <- tm_sub_gs tm c;;
    ct <- tm_mul_sg c tm;;
    den <- tm_add_sg 1 ct;;
    adapted <- tm_div iter tm_bar den;;
    ab <- tm_bounds iter adapted;;
    let G := iadd ab (m_rem adapted) in
    let k := get_order (m_tpol tm) in
    let at' := i_atan (imul unit_interval G) in
    tm_make (gatan (m_tpol tm))
      (imul (imul (imul (ipt (1 / kofnat (k + 1))) (ipow G (k + 1))) (ipow (i_cos at') (k + 1)))
            (i_sin (imul (ipt (kofnat (k + 1))) (iadd at' (ipt (e_pi / kofZ 2))))))
      (m_exp tm) (m_domain tm).
  (** taylor_model_functions.hpp:824-827 *)
  Definition tm_asinh (tm : taylor_model K) : res (taylor_model K) :=
    sq <- tm_pow_int tm 2;; s <- tm_add_gs sq 1;; r <- tm_sqrt s;; a <- tm_add tm r;; tm_log a.
  (** taylor_model_functions.hpp:846-856 *)
  Definition tm_acosh (tm : taylor_model K) : res (taylor_model K) :=
    sq <- tm_pow_int tm 2;;
    b <- tm_bounds iter sq;;
    if negb (iabove (iadd b (m_rem sq)) 1) then Throw RuntimeError
    else s <- tm_sub_gs sq 1;; r <- tm_sqrt s;; a <- tm_add tm r;; tm_log a.
  (** taylor_model_functions.hpp:872-875 *)
  Definition tm_atanh (tm : taylor_model K) : res (taylor_model K) :=
    n <- tm_add_sg 1 tm;; d <- tm_sub_sg 1 tm;; q <- tm_div iter n d;; l <- tm_log q;; tm_mul_sg half l.
  (** taylor_model_functions.hpp:887-890 *)
  Definition tm_abs (tm : taylor_model K) : res (taylor_model K) :=
    tm_make (gabs (m_tpol tm)) (iabs (m_rem tm)) (m_exp tm) (m_domain tm).
End TMFunctions.
