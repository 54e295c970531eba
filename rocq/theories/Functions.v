(** * Model of the elementary functions on gduals
    (include/audi/functions.hpp and include/audi/functions_from_d.hpp)

    The functions of <cmath> and boost applied to single coefficients
    (include/audi/detail/overloads.hpp) are the operations of the class
    [Elem]: the theorems instantiate them by the real functions they are
    named after.  C++ loops are folds over the list of loop indices; the
    state is the tuple of variables the loop body assigns. *)

From Coq Require Import String List Arith Bool ZArith.
From Verif Require Import Ops Syms Poly Gdual.
Import ListNotations.

Class Elem (K : Type) : Type := mkElem {
  e_exp : K -> K;   e_log : K -> K;
  e_sqrt : K -> K;  e_cbrt : K -> K;
  e_sin : K -> K;   e_cos : K -> K;   e_tan : K -> K;
  e_sinh : K -> K;  e_cosh : K -> K;  e_tanh : K -> K;
  e_asin : K -> K;  e_acos : K -> K;  e_atan : K -> K;
  e_asinh : K -> K; e_acosh : K -> K; e_atanh : K -> K;
  e_erf : K -> K;
  e_pow : K -> K -> K;      (* audi::pow on coefficients *)
  e_toint : K -> Z;         (* static_cast<int>, rounding toward zero *)
  e_pi : K;                 (* boost::math::constants::pi<double>() *)
  e_bern : nat -> K         (* e_bern k: the even-index Bernoulli number B_{2k} *)
}.

(** Indices [i = start, start+step, ...] while [i <= last]. *)
Definition evens (order : nat) : list nat := map (fun j => 2 * j + 2)%nat (seq 0 (order / 2)).
Definition odds (order : nat) : list nat := map (fun j => 2 * j + 3)%nat (seq 0 ((order - 1) / 2)).
Definition ks (order : nat) : list nat := seq 2 ((order + 1) / 2 - 1).

(** functions.hpp:140-148 [binomial<unsigned>]: arithmetic modulo 2^32. *)
Definition ubinomial (x y : nat) : Z :=
  fold_left (fun retval i =>
               (((retval * ((Z.of_nat x - Z.of_nat i) mod two32)) mod two32) / (Z.of_nat i + 1))%Z)
            (seq 1 (y - 1)) (Z.of_nat x).

Section Functions.
  Context {K : Type} {o : Ops K} {e : Elem K}.
  Local Open Scope K_scope.

  Notation half := (1 / kofZ 2).

  (** functions.hpp:61-77 *)
  Definition gexp (d : gdual K) : gdual K :=
    let p0 := constant_cf d in
    let phat := gsub_gs d p0 in
    let tmp := phat in
    let retval := gadd (gconst 1) phat in
    let '(retval, _, _) :=
      fold_left (fun '(retval, fact, phat) i =>
                   let phat := gmul phat tmp in
                   let fact := gmul_gs fact (kofnat i) in
                   let retval := gadd retval (gdiv phat fact) in
                   (retval, fact, phat))
                (seq 2 (gord d - 1)) (retval, gconst 1, phat) in
    gmul_gs retval (e_exp p0).

  (** functions.hpp:96-115 *)
  Definition glog (d : gdual K) : gdual K :=
    let p0 := constant_cf d in
    let phat := gdiv_gs (gsub_gs d p0) p0 in
    let tmp := phat in
    let retval := gadd_sg (e_log p0) phat in
    let '(retval, _, _) :=
      fold_left (fun '(retval, fatt, phat) i =>
                   let fatt := gmul_gs fatt (- (1)) in
                   let phat := gmul phat tmp in
                   let retval := gadd retval (gdiv_gs (gmul fatt phat) (kofnat i)) in
                   (retval, fatt, phat))
                (seq 2 (gord d - 1)) (retval, gconst 1, phat) in
    retval.

  (** functions.hpp:128-138 [pow(base, gdual)].  The base is converted to the
      coefficient type beforehand. *)
  Definition gpow_sg (base : K) (d : gdual K) : gdual K :=
    if Nat.eqb (gdegree d) 0 then gconst (e_pow base (constant_cf d))
    else gexp (gmul_sg (e_log base) d).

  (** functions.hpp:140-148 [binomial(T x, unsigned y)] on coefficients *)
  Definition kbinomial (x : K) (y : nat) : K :=
    fold_left (fun retval i => retval * (x - kofnat i) / kofnat (i + 1)) (seq 1 (y - 1)) x.

  (** [d * d * ... * d], the loop common to functions.hpp:174-178 and 211-215 *)
  Definition gpow_loop (d : gdual K) (n : nat) : gdual K :=
    fold_left (fun retval (_ : nat) => gmul retval d) (seq 1 (n - 1)) d.

  (** functions.hpp:168-193 [pow(gdual, alpha)] with alpha converted to the
      coefficient type. *)
  Definition gpow_real (d : gdual K) (alpha : K) : gdual K :=
    let n := e_toint alpha in
    if (kofZ n =? alpha) && (0 <? alpha) then gpow_loop d (Z.to_nat n)
    else
      let p0 := constant_cf d in
      let phat := gsub_gs d p0 in
      let tmp := phat in
      let retval := gconst (e_pow p0 alpha) in
      let retval := gadd retval (gmul_gs (gmul_sg alpha phat) (e_pow p0 (alpha - 1))) in
      let '(retval, _) :=
        fold_left (fun '(retval, phat) i =>
                     let phat := gmul phat tmp in
                     let retval := gadd retval
                       (gmul_gs (gmul_sg (kbinomial alpha i) phat) (e_pow p0 (alpha - kofnat i))) in
                     (retval, phat))
                  (seq 2 (gord d - 1)) (retval, phat) in
      retval.

  (** functions.hpp:203-221 [pow(gdual, int)] *)
  Definition gpow_int (d : gdual K) (n : Z) : gdual K :=
    if Z.ltb n 0 then
      fold_left (fun retval (_ : nat) => gdiv retval d) (seq 1 (Z.to_nat (- n) - 1)) (gdiv_sg 1 d)
    else if Z.ltb 0 n then gpow_loop d (Z.to_nat n)
    else gadd_gs (gsub d d) 1.

  (** functions.hpp:235-239 [pow(gdual, gdual)] *)
  Definition gpow (d1 d2 : gdual K) : gdual K := gexp (gmul d2 (glog d1)).

  (** The loop shared by sqrt and cbrt, functions.hpp:258-277 and 296-315. *)
  Definition groot (alpha : K) (root : K -> K) (d : gdual K) : gdual K :=
    let p0 := constant_cf d in
    let root_p0 := root p0 in
    let phat := gdiv_gs (gsub_gs d p0) p0 in
    let tmp := phat in
    let retval := gadd (gconst 1) (gmul_sg alpha phat) in
    let '(retval, _) :=
      fold_left (fun '(retval, phat) i =>
                   let phat := gmul phat tmp in
                   let retval := gadd retval (gmul_sg (kbinomial alpha i) phat) in
                   (retval, phat))
                (seq 2 (gord d - 1)) (retval, phat) in
    gmul_gs retval root_p0.
  (** functions.hpp:258-277 *)
  Definition gsqrt (d : gdual K) : gdual K := groot half e_sqrt d.
  (** functions.hpp:296-315 *)
  Definition gcbrt (d : gdual K) : gdual K := groot (1 / kofZ 3) e_cbrt d.

  (** The two loops of sin, cos and sin_and_cos, functions.hpp:333-365,
      383-415, 428-462 (same text three times).  [factorial *= i * (i - 1)]
      multiplies unsigned ints, modulo 2^32. *)
  Definition trig_loop (phat2 tmp0 : gdual K) (idx : list nat) : gdual K :=
    let '(t, _, _, _) :=
      fold_left (fun '(t, coeff, tmp, factorial) i =>
                   let coeff := (- coeff)%Z in
                   let tmp := gmul tmp phat2 in
                   let factorial := factorial * kofZ ((Z.of_nat i * (Z.of_nat i - 1)) mod two32)%Z in
                   let t := gadd t (gdiv_gs (gmul_sg (kofZ coeff) tmp) factorial) in
                   (t, coeff, tmp, factorial))
                idx (tmp0, 1%Z, tmp0, 1) in
    t.
  Definition cos_taylor (d : gdual K) : gdual K :=
    let phat := gsub_gs d (constant_cf d) in
    trig_loop (gmul phat phat) (gconst 1) (evens (gord d)).
  Definition sin_taylor (d : gdual K) : gdual K :=
    let phat := gsub_gs d (constant_cf d) in
    trig_loop (gmul phat phat) phat (odds (gord d)).

  (** functions.hpp:333-365 *)
  Definition gsin (d : gdual K) : gdual K :=
    let p0 := constant_cf d in
    gadd (gmul_sg (e_sin p0) (cos_taylor d)) (gmul_sg (e_cos p0) (sin_taylor d)).
  (** functions.hpp:383-415 *)
  Definition gcos (d : gdual K) : gdual K :=
    let p0 := constant_cf d in
    gsub (gmul_sg (e_cos p0) (cos_taylor d)) (gmul_sg (e_sin p0) (sin_taylor d)).
  (** functions.hpp:428-462 *)
  Definition gsin_and_cos (d : gdual K) : gdual K * gdual K :=
    let p0 := constant_cf d in
    let c := cos_taylor d in
    let s := sin_taylor d in
    (gadd (gmul_sg (e_sin p0) c) (gmul_sg (e_cos p0) s),
     gsub (gmul_sg (e_cos p0) c) (gmul_sg (e_sin p0) s)).

  (** boost::math::bernoulli_b2n(0, count, out) appends B_0, B_2, ..., B_{2(count-1)}. *)
  Definition bn (order : nat) : list K := map e_bern (seq 0 ((order + 1) / 2 + 1)).

  (** functions.hpp:481-505; [bn[k]] with k in range (proved: [ks_in_range]) *)
  Definition gtan (d : gdual K) : gdual K :=
    let p0 := constant_cf d in
    let phat := gsub_gs d p0 in
    let phat2 := gmul phat phat in
    let tan_p0 := e_tan p0 in
    let '(tan_taylor, _, _, _) :=
      fold_left (fun '(t, phat, four_k, factorial) k =>
                   let phat := gmul phat phat2 in
                   let t := gadd t (gmul_sg
                     (nth k (bn (gord d)) 0 * four_k * (1 - kabs four_k) / factorial) phat) in
                   let four_k := four_k * kofZ (-4) in
                   let factorial := factorial *
                     ((kofZ 2 * kofnat k + 1) * (kofZ 2 * kofnat k + kofZ 2)) in
                   (t, phat, four_k, factorial))
                (ks (gord d)) (phat, phat, kofZ 16, kofZ 24) in
    gdiv (gadd_sg tan_p0 tan_taylor) (gsub_sg 1 (gmul_sg tan_p0 tan_taylor)).

  (** The two loops of sinh, cosh and sinh_and_cosh, functions.hpp:523-548,
      569-594, 610-642. *)
  Definition hyp_loop (phat2 tmp0 : gdual K) (idx : list nat) : gdual K :=
    let '(t, _, _) :=
      fold_left (fun '(t, tmp, factorial) i =>
                   let tmp := gmul tmp phat2 in
                   let factorial := factorial * (kofnat i * (kofnat i - 1)) in
                   let t := gadd t (gdiv_gs tmp factorial) in
                   (t, tmp, factorial))
                idx (tmp0, tmp0, 1) in
    t.
  Definition cosh_taylor (d : gdual K) : gdual K :=
    let phat := gsub_gs d (constant_cf d) in
    hyp_loop (gmul phat phat) (gconst 1) (evens (gord d)).
  Definition sinh_taylor (d : gdual K) : gdual K :=
    let phat := gsub_gs d (constant_cf d) in
    hyp_loop (gmul phat phat) phat (odds (gord d)).

  (** functions.hpp:523-548 *)
  Definition gsinh (d : gdual K) : gdual K :=
    let p0 := constant_cf d in
    gadd (gmul_sg (e_sinh p0) (cosh_taylor d)) (gmul_sg (e_cosh p0) (sinh_taylor d)).
  (** functions.hpp:569-594 *)
  Definition gcosh (d : gdual K) : gdual K :=
    let p0 := constant_cf d in
    gadd (gmul_sg (e_cosh p0) (cosh_taylor d)) (gmul_sg (e_sinh p0) (sinh_taylor d)).
  (** functions.hpp:610-642 *)
  Definition gsinh_and_cosh (d : gdual K) : gdual K * gdual K :=
    let p0 := constant_cf d in
    let c := cosh_taylor d in
    let s := sinh_taylor d in
    (gadd (gmul_sg (e_sinh p0) c) (gmul_sg (e_cosh p0) s),
     gadd (gmul_sg (e_cosh p0) c) (gmul_sg (e_sinh p0) s)).

  (** functions.hpp:659-683 *)
  Definition gtanh (d : gdual K) : gdual K :=
    let p0 := constant_cf d in
    let phat := gsub_gs d p0 in
    let phat2 := gmul phat phat in
    let tanh_p0 := e_tanh p0 in
    let '(tanh_taylor, _, _, _) :=
      fold_left (fun '(t, phat, four_k, factorial) k =>
                   let phat := gmul phat phat2 in
                   let t := gadd t (gmul_sg
                     (nth k (bn (gord d)) 0 * four_k * (four_k - 1) / factorial) phat) in
                   let four_k := four_k * kofZ 4 in
                   let factorial := factorial *
                     ((kofnat (2 * k) + 1) * (kofnat (2 * k) + kofZ 2)) in
                   (t, phat, four_k, factorial))
                (ks (gord d)) (phat, phat, kofZ 16, kofZ 24) in
    gdiv (gadd_sg tanh_p0 tanh_taylor) (gadd_sg 1 (gmul_sg tanh_p0 tanh_taylor)).

  (** functions.hpp:701-719; [audi::pow(x, k)] with an unsigned exponent is the
      repeated product. *)
  Definition gatanh (d : gdual K) : gdual K :=
    let p0 := constant_cf d in
    let phat := gsub_gs d p0 in
    let '(retval, _, _) :=
      fold_left (fun '(retval, coeff, powphat) k =>
                   let add := (1 / kpow (1 - p0) k + coeff / kpow (1 + p0) k) / kofnat k in
                   let retval := gadd retval (gmul_sg add powphat) in
                   (retval, coeff * - (1), gmul powphat phat))
                (seq 1 (gord d)) (gconst 0, 1, phat) in
    gadd_sg (e_atanh p0) (gmul_sg half retval).

  (** functions.hpp:751-760: the sum [binom] for odd k *)
  Definition atan_odd (p0 : K) (k : nat) : K :=
    let '(binom, _, _) :=
      fold_left (fun '(binom, f0, cf_i) j =>
                   (binom + (kofZ (ubinomial k (2 * j)) * cf_i) * f0, f0 * (p0 * p0), - cf_i))
                (seq 1 (k / 2)) (1, p0 * p0, - (1)) in
    binom.
  (** functions.hpp:764-772: the sum [binom] for even k *)
  Definition atan_even (p0 : K) (k : nat) : K :=
    let '(binom, _, _) :=
      fold_left (fun '(binom, f0, cf_i) j =>
                   (binom + (kofZ (ubinomial k (2 * j - 1)) * cf_i) * f0, f0 * (p0 * p0), - cf_i))
                (seq 1 ((k + 1) / 2)) (0, p0, 1) in
    binom.
  (** functions.hpp:741-779 *)
  Definition gatan (d : gdual K) : gdual K :=
    let p0 := constant_cf d in
    let phat := gdiv_gs (gsub_gs d p0) (1 + p0 * p0) in
    let '(retval, _, _, _) :=
      fold_left (fun '(retval, coeff1, coeff2, powphat) k =>
                   if Nat.odd k then
                     (gadd retval (gdiv_gs (gmul_gs (gmul_sg (atan_odd p0 k) powphat) coeff1) (kofnat k)),
                      - coeff1, coeff2, gmul powphat phat)
                   else
                     (gadd retval (gdiv_gs (gmul_gs (gmul_sg (atan_even p0 k) powphat) coeff2) (kofnat k)),
                      coeff1, - coeff2, gmul powphat phat))
                (seq 1 (gord d)) (gconst (e_atan p0), 1, - (1), phat) in
    retval.

  (** functions.hpp:797-800 *)
  Definition gasinh (d : gdual K) : gdual K := glog (gadd d (gsqrt (gadd_sg 1 (gmul d d)))).
  (** functions.hpp:819-822 *)
  Definition gacosh (d : gdual K) : gdual K := glog (gadd d (gsqrt (gsub_gs (gmul d d) 1))).
  (** functions.hpp:841-844 *)
  Definition gasin (d : gdual K) : gdual K := gatan (gdiv d (gsqrt (gsub_sg 1 (gmul d d)))).
  (** functions.hpp:863-866 (and 930-933, the real128 version) *)
  Definition gacos (d : gdual K) : gdual K := gsub_sg (half * e_pi) (gasin d).

  (** functions.hpp:889-897; [p0 >= 0] is false on a NaN *)
  Definition gabs (d : gdual K) : gdual K :=
    let p0 := constant_cf d in
    if (0 <? p0) || (p0 =? 0) then d else gneg d.

  (** functions.hpp:921-926 and 937-942: the real128 versions *)
  Definition gtan_quad (d : gdual K) : gdual K := let '(s, c) := gsin_and_cos d in gdiv s c.
  Definition gtanh_quad (d : gdual K) : gdual K := let '(s, c) := gsinh_and_cosh d in gdiv s c.

  (** functions_from_d.hpp:62-76 [_compose_from_derivative].  The loop
      variables are f, dg and retval; it walks the symbols with their
      predecessor. *)
  Fixpoint compose_loop (prev : string) (ss : list string) (f dg retval : gdual K)
    : res (gdual K) :=
    match ss with
    | [] => Ok retval
    | s :: ss' =>
        let f := gsubs_val f (dsym prev) 0 in
        let dg := gsubs_val dg (dsym prev) 0 in
        df <- gpartial f s;;
        t <- gintegrate (gmul dg df) s;;
        compose_loop s ss' f dg (gadd retval t)
    end.
  Definition compose_from_derivative (f dg : gdual K) (g0 : K) : res (gdual K) :=
    match get_symbol_set f with
    | [] => Ok (gconst g0)
    | s :: ss =>
        df <- gpartial f s;;
        t <- gintegrate (gmul dg df) s;;
        r <- compose_loop s ss f dg t;;
        Ok (gadd_sg g0 r)
    end.

  (** functions_from_d.hpp:89-96 *)
  Definition gatanh_d (f : gdual K) : res (gdual K) :=
    compose_from_derivative f (gdiv_sg 1 (gsub_sg 1 (gmul f f))) (e_atanh (constant_cf f)).
  (** functions_from_d.hpp:109-116 *)
  Definition gatan_d (f : gdual K) : res (gdual K) :=
    compose_from_derivative f (gdiv_sg 1 (gadd_sg 1 (gmul f f))) (e_atan (constant_cf f)).
  (** functions_from_d.hpp:129-136 *)
  Definition gasin_d (f : gdual K) : res (gdual K) :=
    compose_from_derivative f (gdiv_sg 1 (gsqrt (gsub_sg 1 (gmul f f)))) (e_asin (constant_cf f)).
  (** functions_from_d.hpp:149-156 *)
  Definition gasinh_d (f : gdual K) : res (gdual K) :=
    compose_from_derivative f (gdiv_sg 1 (gsqrt (gadd_sg 1 (gmul f f)))) (e_asinh (constant_cf f)).
  (** functions_from_d.hpp:169-176 *)
  Definition gacos_d (f : gdual K) : res (gdual K) :=
    compose_from_derivative f (gdiv_sg (- (1)) (gsqrt (gsub_sg 1 (gmul f f)))) (e_acos (constant_cf f)).
  (** functions_from_d.hpp:189-196 *)
  Definition gacosh_d (f : gdual K) : res (gdual K) :=
    compose_from_derivative f (gdiv_sg 1 (gsqrt (gmul (gsub_gs f 1) (gadd_gs f 1)))) (e_acosh (constant_cf f)).
  (** functions_from_d.hpp:209-216 (and 218-227, the real128 version) *)
  Definition gerf (d : gdual K) : res (gdual K) :=
    compose_from_derivative d
      (gmul_sg (kofZ 2 / e_sqrt e_pi) (gexp (gmul (gneg d) d))) (e_erf (constant_cf d)).

  (** pyaudi/expose_gdual.hpp:219-229, pyaudi/core.cpp:140-149: the methods
      added by the Python bindings. *)
  Definition glog10 (d : gdual K) : gdual K := gdiv_gs (glog d) (e_log (kofZ 10)).
  Definition glog2 (d : gdual K) : gdual K := gdiv_gs (glog d) (e_log (kofZ 2)).
  Definition glog1p (d : gdual K) : gdual K := glog (gadd_gs d 1).
  Definition gexpm1 (d : gdual K) : gdual K := gsub_gs (gexp d) 1.
  Definition gerfc (d : gdual K) : res (gdual K) := r <- gerf d;; Ok (gsub_sg 1 r).
End Functions.
