(** * Properties of Taylor maps (C30, C31)

    Vocabulary: Spec.v, SpecMaps.v.  Model: InvertMap.v.  The determinant and
    the inverse of a matrix ([la_det], [la_inv], computed by Eigen in the C++
    code) are arbitrary functions; what a theorem needs of them is among its
    hypotheses. *)

From Coq Require Import String List Arith Bool ZArith QArith Qcanon.
From Verif Require Import Ops Syms Poly Gdual Functions Spec InvertMap SpecMaps InvertFinal Samples MapSamples.
Import ListNotations.
Open Scope string_scope.
Open Scope nat_scope.

(** ** C30 *)
(** Component [i] of A & B is the composition of component [i] of A with B,
    truncated at the order of that component. *)
Theorem C30_composition_partial :
  forall (K : Type) (o : Ops K) (fl : FieldLaws o) (A B : list (gdual K)) (i : nat),
  Forall valid A -> Forall valid B -> i < length A -> differentials (variables A) ->
  length B <= length (variables A) ->
  (forall b s, In b B -> In s (variables A) -> ~ In s (psyms (gp b))) ->
  (forall b, In b B -> constant_cf b = k0) ->
  valid (nth i (tcompose A B) gdefault) /\ get_order (nth i (tcompose A B) gdefault) = get_order (nth i A gdefault) /\
  exists c, is_composition c (nth i A gdefault) (variables A) B /\
    truncation_of (nth i (tcompose A B) gdefault) c (get_order (nth i A gdefault)).
Proof. exact @compose_thm. Qed.
Print Assumptions C30_composition_partial.
(** The constant parts of B must be zero: the variables are replaced one after
    the other, with a truncation each time. *)
Theorem C30_any_constant_part_refuted :
  exists (A B : list (gdual Qc)),
  Forall valid A /\ Forall valid B /\ 0 < length A /\ differentials (variables A) /\ length B <= length (variables A) /\
  (forall b s, In b B -> In s (variables A) -> ~ In s (psyms (gp b))) /\
  exists c, is_composition c (nth 0 A gdefault) (variables A) B /\
    ~ truncation_of (nth 0 (tcompose A B) gdefault) c (get_order (nth 0 A gdefault)).
Proof. exact compose_counterexample. Qed.
Print Assumptions C30_any_constant_part_refuted.
(** (2x + y + xy, x + y + y^2 + x^3) composed with its inverse at order 3: the
    identity. *)
Example C30_case :
  Forall valid f2 /\ Forall valid r2 /\ differentials (variables f2) /\ length r2 <= length (variables f2) /\
  (forall b s, In b r2 -> In s (variables f2) -> ~ In s (psyms (gp b))) /\
  (forall b, In b r2 -> constant_cf b = k0) /\ length (pterms (gp (nth 0 r2 gdefault))) = 9 /\
  forallb (fun gh => geqb (fst gh) (snd gh)) (combine (tcompose f2 r2) [var0 "p0" 3; var0 "p1" 3]) = true.
Proof. exact compose_sample. Qed.

(** ** C31 *)
(** Which maps are accepted, and what happens to the others. *)
Theorem C31_accepted_maps :
  forall (K : Type) (o : Ops K) (fl : FieldLaws o) (la : Linalg K) (f : list (gdual K)),
  Forall valid f -> (forall g, In g f -> differentials (psyms (gp g))) ->
  (invertible_map la_det f -> exists r, invert_map f = Ok r) /\
  (~ invertible_map la_det f -> invert_map f = Throw InvalidArgument).
Proof. exact @invert_accepts. Qed.
Print Assumptions C31_accepted_maps.
(** The map composed with the result is the identity (plus the constant part
    of the map), up to the order. *)
Theorem C31_right_inverse_partial :
  forall (K : Type) (o : Ops K) (fl : FieldLaws o) (la : Linalg K) (f r : list (gdual K)),
  Forall valid f -> (forall g, In g f -> differentials (psyms (gp g))) ->
  length f <= 10 ->
  (forall j, j < length f -> ~ In (dp_name j) (variables f)) ->
  product_is_one (length f) (linear_part (variables f) f) (la_inv (linear_part (variables f) f)) ->
  invert_map f = Ok r ->
  length r = length f /\
  forall i, i < length f ->
    let fi := nth i f gdefault in let ri := nth i r gdefault in
    valid ri /\ get_order ri = get_order fi /\ constant_cf ri = k0 /\
    (forall s, In s (psyms (gp ri)) -> exists j, j < length f /\ s = dp_name j) /\
    exists c, is_composition c fi (variables f) r /\ is_affine (get_order fi) c (constant_cf fi) (dp_name i).
Proof. exact @invert_right_thm. Qed.
Print Assumptions C31_right_inverse_partial.
(** The result composed with the map is the identity too. *)
Theorem C31_left_inverse_partial :
  forall (K : Type) (o : Ops K) (fl : FieldLaws o) (la : Linalg K) (f r : list (gdual K)),
  Forall valid f -> (forall g, In g f -> differentials (psyms (gp g))) ->
  length f <= 10 ->
  (forall j, j < length f -> ~ In (dp_name j) (variables f)) ->
  product_is_one (length f) (linear_part (variables f) f) (la_inv (linear_part (variables f) f)) ->
  product_is_one (length f) (la_inv (linear_part (variables f) f)) (linear_part (variables f) f) ->
  (forall g, In g f -> constant_cf g = k0) ->
  invert_map f = Ok r ->
  forall i, i < length f ->
    let ri := nth i r gdefault in
    exists c, is_composition c ri (map dp_name (seq 0 (length f))) f /\
      is_affine (get_order ri) c k0 (nth i (variables f) EmptyString).
Proof. exact @invert_left_thm. Qed.
Print Assumptions C31_left_inverse_partial.
(** What is missing for the full claim is false.  With eleven variables the
    names pdummy0, ..., pdummy10 are not in numerical order: the identity map
    of order 2 is inverted into a permutation. *)
Theorem C31_eleven_variables_refuted :
  exists (f r : list (gdual Qc)),
  Forall valid f /\ (forall g, In g f -> differentials (psyms (gp g))) /\
  (forall j, j < length f -> ~ In (dp_name j) (variables f)) /\
  product_is_one (length f) (linear_part (variables f) f) (la_inv (linear_part (variables f) f)) /\
  (forall g, In g f -> constant_cf g = k0) /\
  invert_map f = Ok r /\ length f = 11 /\
  exists c, is_composition c (nth 2 f gdefault) (variables f) r /\ ~ is_affine (get_order (nth 2 f gdefault)) c k0 (dp_name 2).
Proof. exact eleven_counterexample. Qed.
Print Assumptions C31_eleven_variables_refuted.
(** A map whose own variables are called p0 and p1. *)
Theorem C31_clashing_names_refuted :
  exists (f r : list (gdual Qc)),
  Forall valid f /\ (forall g, In g f -> differentials (psyms (gp g))) /\ length f = 2 /\
  product_is_one (length f) (linear_part (variables f) f) (la_inv (linear_part (variables f) f)) /\
  (forall g, In g f -> constant_cf g = k0) /\
  invert_map f = Ok r /\
  exists c, is_composition c (nth 1 f gdefault) (variables f) r /\ ~ is_affine (get_order (nth 1 f gdefault)) c k0 (dp_name 1).
Proof. exact clash_counterexample. Qed.
Print Assumptions C31_clashing_names_refuted.
(** An invertible map rejected because its determinant is 10^-11. *)
Theorem C31_invertible_accepted_refuted :
  exists (f : list (gdual Qc)),
  Forall valid f /\ (forall g, In g f -> differentials (psyms (gp g))) /\ length f = 1 /\ length (variables f) = 1 /\
  (forall j, j < length f -> ~ In (dp_name j) (variables f)) /\
  product_is_one (length f) (linear_part (variables f) f) (la_inv (linear_part (variables f) f)) /\
  (forall g, In g f -> constant_cf g = k0) /\ invert_map f = Throw InvalidArgument.
Proof. exact tiny_counterexample. Qed.
Print Assumptions C31_invertible_accepted_refuted.

Example C31_case :
  Forall valid f2 /\ (forall g, In g f2 -> differentials (psyms (gp g))) /\ length f2 = 2 /\
  (forall j, j < length f2 -> ~ In (dp_name j) (variables f2)) /\
  product_is_one (length f2) (linear_part (variables f2) f2) (la_inv (linear_part (variables f2) f2)) /\
  product_is_one (length f2) (la_inv (linear_part (variables f2) f2)) (linear_part (variables f2) f2) /\
  (forall g, In g f2 -> constant_cf g = k0) /\
  invertible_map la_det f2 /\ invert_map f2 = Ok r2.
Proof. exact invert_sample. Qed.
