(** * Properties of gduals whose coefficients are doubles

    The first three theorems hold for every arithmetic; the others are about
    IEEE 754 double precision ([OpsB64], SpecDbl.v).  [cf g W k] is the real
    value of the coefficient, [rnd] rounding to the nearest double, [u53] is
    2^-53 and [tiny] 2^-1075. *)
From Coq Require Import String List Arith Bool ZArith Reals Permutation Lia Lra.
From Flocq Require Import Core BinarySingleNaN.
From Verif Require Import Ops Syms Poly Gdual Functions Spec TaylorModel SpecDbl StoredMul StoredCalc DblProofs DblSamples.
Import ListNotations.

(** ** C05, C21: no law of arithmetic is used *)

(** Each coefficient of a product is the sum, in some order, of the products of
    the pairs of stored coefficients that contribute to it. *)
Theorem C05_mul_stored :
  forall (K : Type) (o : Ops K) (a b : gdual K) (W : list string) (k : key),
  valid a -> valid b -> NoDup W -> length k = length W ->
  exists l, Permutation l (factors a b W k) /\
    stored (gmul a b) W k =
    if Nat.leb (list_sum k) (Nat.max (get_order a) (get_order b)) then sum_up (map (fun xy => kmul (fst xy) (snd xy)) l) else None.
Proof. exact @stored_mul. Qed.
Print Assumptions C05_mul_stored.

(** [partial] multiplies each coefficient by the exponent, [integrate] divides
    it by the new exponent; nothing else is computed. *)
Theorem C21_partial_stored :
  forall (K : Type) (o : Ops K) (g r : gdual K) (s : string) (W : list string) (k : key),
  valid g -> gpartial g s = Ok r -> NoDup W -> length k = length W -> In (dsym s) W ->
  stored r W k =
  match stored g W (incr W k (dsym s)) with
  | Some c => kept (kmul c (kofnat (S (expo W k (dsym s)))))
  | None => None
  end.
Proof. exact @stored_partial. Qed.
Print Assumptions C21_partial_stored.

Theorem C21_integrate_stored :
  forall (K : Type) (o : Ops K) (g r : gdual K) (s : string) (W : list string) (k : key),
  valid g -> gintegrate g s = Ok r -> (Z.of_nat (gord g) < two31)%Z -> NoDup W -> length k = length W -> In (dsym s) W ->
  stored r W (incr W k (dsym s)) =
  if Nat.ltb (list_sum k) (get_order g)
  then match stored g W k with
       | Some c => kept (kdiv c (kofnat (S (expo W k (dsym s)))))
       | None => None
       end
  else None.
Proof. exact @stored_integrate. Qed.
Print Assumptions C21_integrate_stored.

(** ** C49: rounding *)

(** A finite coefficient of a sum or difference is the correctly rounded exact
    one. *)
Theorem C49_add :
  forall (a b : gdual double) (W : list string) (k : key), valid a -> valid b -> cf_finite (gadd a b) W k ->
  cf_finite a W k /\ cf_finite b W k /\ cf (gadd a b) W k = rnd (cf a W k + cf b W k).
Proof. exact add_rounding. Qed.
Print Assumptions C49_add.

Theorem C49_sub :
  forall (a b : gdual double) (W : list string) (k : key), valid a -> valid b -> cf_finite (gsub a b) W k ->
  cf_finite a W k /\ cf_finite b W k /\ cf (gsub a b) W k = rnd (cf a W k - cf b W k).
Proof. exact sub_rounding. Qed.
Print Assumptions C49_sub.

(** Negation is exact. *)
Theorem C49_neg :
  forall (a : gdual double) (W : list string) (k : key),
  cf (gneg a) W k = (- cf a W k)%R /\ (cf_finite (gneg a) W k <-> cf_finite a W k).
Proof. exact neg_rounding. Qed.
Print Assumptions C49_neg.

(** Multiples: one rounding for each coefficient. *)
Theorem C49_scale :
  forall (c : double) (g : gdual double) (W : list string) (k : key),
  valid g -> NoDup W -> length k = length W -> is_finite c = true ->
  (cf_finite (gmul_sg c g) W k -> cf (gmul_sg c g) W k = rnd (B2R c * cf g W k)) /\
  (cf_finite (gmul_gs g c) W k -> cf (gmul_gs g c) W k = rnd (cf g W k * B2R c)).
Proof. exact (fun c g W k H1 H2 H3 H4 => conj (scale_rounding c g W k H1 H2 H3 H4) (scale_r_rounding c g W k H1 H2 H3 H4)). Qed.
Print Assumptions C49_scale.

(** Division by a number multiplies by the rounded inverse: two roundings. *)
Theorem C49_div_scalar :
  forall (c : double) (g : gdual double) (W : list string) (k : key),
  valid g -> NoDup W -> length k = length W -> B2R c <> 0%R -> is_finite (kdiv k1 c) = true ->
  cf_finite (gdiv_gs g c) W k -> cf (gdiv_gs g c) W k = rnd (cf g W k * rnd (1 / B2R c)).
Proof. exact div_rounding. Qed.
Print Assumptions C49_div_scalar.

(** Products: the error of each coefficient is bounded by the number of pairs
    that contribute to it and the sum of their absolute values ... *)
Theorem C49_mul :
  forall (a b : gdual double) (W : list string) (k : key),
  valid a -> valid b -> NoDup W -> length k = length W ->
  (list_sum k <= Nat.max (get_order a) (get_order b))%nat -> cf_finite (gmul a b) W k ->
  let n := length (factors a b W k) in
  (Rabs (cf (gmul a b) W k - conv a b W k)
   <= ((1 + u53) ^ n - 1) * conv_abs a b W k + INR n * (1 + u53) ^ n * tiny)%R.
Proof. exact mul_rounding. Qed.
Print Assumptions C49_mul.

(** ... the model adds them in one order, and the bound holds for each other
    order as well (obake is free to choose) ... *)
Theorem C49_mul_any_order :
  forall (a b : gdual double) (W : list string) (k : key) (l : list (double * double)) (c : double),
  Permutation l (factors a b W k) -> sum_up (map (fun xy => kmul (fst xy) (snd xy)) l) = Some c -> is_finite c = true ->
  (Rabs (B2R c - conv a b W k)
   <= ((1 + u53) ^ length l - 1) * conv_abs a b W k + INR (length l) * (1 + u53) ^ length l * tiny)%R.
Proof. exact any_order. Qed.
Print Assumptions C49_mul_any_order.

(** ... the coefficient is finite when nothing can overflow ... *)
Theorem C49_mul_finite :
  forall (a b : gdual double) (W : list string) (k : key),
  valid a -> valid b -> NoDup W -> length k = length W ->
  (list_sum k <= Nat.max (get_order a) (get_order b))%nat ->
  (forall x y, In (x, y) (factors a b W k) -> is_finite x = true /\ is_finite y = true) ->
  let n := length (factors a b W k) in
  ((1 + u53) ^ n * (conv_abs a b W k + INR n * tiny) < bpow radix2 1024)%R -> cf_finite (gmul a b) W k.
Proof. exact mul_finite. Qed.
Print Assumptions C49_mul_finite.

(** ... and it is exact for whole numbers if the absolute values of the
    contributions add up to at most 2^53. *)
Theorem C49_mul_exact :
  forall (a b : gdual double) (W : list string) (k : key),
  valid a -> valid b -> NoDup W -> length k = length W ->
  (list_sum k <= Nat.max (get_order a) (get_order b))%nat ->
  (forall x y, In (x, y) (factors a b W k) -> is_finite x = true /\ is_finite y = true /\
     (exists z, B2R x = IZR z) /\ (exists z, B2R y = IZR z)) ->
  (conv_abs a b W k <= bpow radix2 53)%R -> cf_finite (gmul a b) W k /\ cf (gmul a b) W k = conv a b W k.
Proof. exact mul_exact. Qed.
Print Assumptions C49_mul_exact.

(** Derivatives and antiderivatives: one rounding for each coefficient. *)
Theorem C49_partial :
  forall (g r : gdual double) (s : string) (W : list string) (k : key),
  valid g -> gpartial g s = Ok r -> NoDup W -> length k = length W -> In (dsym s) W ->
  (Z.of_nat (S (expo W k (dsym s))) <= 2 ^ 53)%Z -> cf_finite r W k ->
  cf r W k = rnd (INR (S (expo W k (dsym s))) * cf g W (incr W k (dsym s))).
Proof. exact partial_rounding. Qed.
Print Assumptions C49_partial.

Theorem C49_integrate :
  forall (g r : gdual double) (s : string) (W : list string) (k : key),
  valid g -> gintegrate g s = Ok r -> (Z.of_nat (get_order g) < 2 ^ 31)%Z ->
  NoDup W -> length k = length W -> In (dsym s) W -> (list_sum k < get_order g)%nat -> cf_finite r W (incr W k (dsym s)) ->
  cf r W (incr W k (dsym s)) = rnd (cf g W k / INR (S (expo W k (dsym s)))).
Proof. exact integrate_rounding. Qed.
Print Assumptions C49_integrate.

(** Addition is still commutative ... *)
Theorem C49_add_comm :
  forall (a b : gdual double) (W : list string) (k : key), valid a -> valid b ->
  cf_finite (gadd a b) W k -> cf_finite (gadd b a) W k -> cf (gadd a b) W k = cf (gadd b a) W k.
Proof. exact add_comm_dbl. Qed.
Print Assumptions C49_add_comm.

(** ... but the other ring laws of C06 fail, dividing a number by itself may
    not give 1, and the sum of two Taylor models need not enclose the sum of
    the functions (C38): the rounding of the polynomials is not added to the
    remainder. *)
Theorem C49_add_assoc_refuted :
  exists a b c : gdual double, valid a /\ valid b /\ valid c /\
    cf (gadd (gadd a b) c) [] [] <> cf (gadd a (gadd b c)) [] [].
Proof. exact assoc_add_fails. Qed.
Print Assumptions C49_add_assoc_refuted.

Theorem C49_mul_assoc_refuted :
  exists a b c : gdual double, valid a /\ valid b /\ valid c /\
    cf (gmul (gmul a b) c) [] [] <> cf (gmul a (gmul b c)) [] [].
Proof. exact assoc_mul_fails. Qed.
Print Assumptions C49_mul_assoc_refuted.

Theorem C49_distributivity_refuted :
  exists a b c : gdual double, valid a /\ valid b /\ valid c /\
    cf (gmul a (gadd b c)) [] [] <> cf (gadd (gmul a b) (gmul a c)) [] [].
Proof. exact distr_fails. Qed.
Print Assumptions C49_distributivity_refuted.

Theorem C49_self_division_refuted :
  exists c : double, is_finite c = true /\ B2R c <> 0%R /\ cf (gdiv_gs (gconst c) c) [] [] <> cf (gconst k1) [] [].
Proof. exact self_division. Qed.
Print Assumptions C49_self_division_refuted.

Theorem C38_rounding_refuted :
  exists (c d : double) (t : taylor_model double), is_finite c = true /\ is_finite d = true /\
  tm_add (tm_const c) (tm_const d) = Ok t /\ B2R (fst (m_rem t)) = 0%R /\ B2R (snd (m_rem t)) = 0%R /\
  cf (m_tpol t) [] [] <> (B2R c + B2R d)%R.
Proof. exact tm_counterexample. Qed.
Print Assumptions C38_rounding_refuted.

(** Examples: [da] = 1 + 3 x and [db] = 5 + 7 x + 11 x^2. *)
Example C49_operands : valid da /\ valid db /\ NoDup ["dx"%string] /\ cf_finite (gmul da db) ["dx"%string] [1] /\
  cf_finite (gadd da db) ["dx"%string] [1] /\ cf_finite (gdiv_gs da (dint 10)) ["dx"%string] [1].
Proof. exact (conj da_valid (conj db_valid sample_finite)). Qed.
Example C49_pairs : length (factors da db ["dx"%string] [1]) = 2 /\ length (factors da db ["dx"%string] [2]) = 2.
Proof. exact sample_pairs. Qed.
Example C49_exact_applies : cf (gmul da db) ["dx"%string] [1] = 22%R.
Proof. exact sample_value. Qed.
Example C49_rounded : cf (gdiv_gs da (dint 10)) ["dx"%string] [1] <> cf (gconst (kdiv (dint 3) (dint 10))) [] [].
Proof. exact sample_rounded. Qed.
Example C49_calculus : exists r q, gpartial db "x" = Ok r /\ gintegrate da "x" = Ok q /\
  cf r ["dx"%string] [1] = 22%R /\ cf_finite q ["dx"%string] (incr ["dx"%string] [1] "dx") /\ stored q ["dx"%string] [2] <> None.
Proof. exact sample_calculus. Qed.
