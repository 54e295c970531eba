(** * Specification vocabulary for Taylor maps *)
From Coq Require Import String List Arith Bool ZArith DecimalString.
From Verif Require Import Ops Syms Poly Gdual Functions Spec.
Import ListNotations.

(** The name of the [i]-th variable of the inverse map: "p0", "p1", ...; its
    differential is "dp0", "dp1", ... *)
Definition dp_name (i : nat) : string := String.append "dp" (NilZero.string_of_uint (Nat.to_uint i)).

Section SpecMaps.
  Context {K : Type} {o : Ops K}.
  Local Open Scope K_scope.

  (** The point [rho] with the coordinates [S] replaced, all at once, by the
      values [vals]. *)
  Fixpoint assign (S : list string) (vals : list K) (rho : string -> K) : string -> K :=
    match S, vals with
    | s :: S', v :: vals' => fun t => if String.eqb s t then v else assign S' vals' rho t
    | _, _ => rho
    end.

  (** [c] is the composition of [g], whose variables [V] are replaced by the
      gduals [B]: no truncation. *)
  Definition is_composition (c g : gdual K) (V : list string) (B : list (gdual K)) : Prop :=
    valid c /\ forall rho, value c rho = value g (assign V (map (fun b => value b rho) B) rho).

  (** The variables of a map are those of its first component. *)
  Definition variables (f : list (gdual K)) : list string :=
    match f with [] => [] | g :: _ => psyms (gp g) end.
  (** Differentials: "d" followed by a name. *)
  Definition differentials (V : list string) : Prop := forall s, In s V -> exists t, s = dsym t.

  (** Matrices, as lists of rows. *)
  Definition entry (m : list (list K)) (i j : nat) : K := nth j (nth i m []) 0.
  (** [a] times [b] is the identity of size [n]. *)
  Definition product_is_one (n : nat) (a b : list (list K)) : Prop :=
    forall i k, (i < n)%nat -> (k < n)%nat ->
      sum_list (fun j => entry a i j * entry b j k) (seq 0 n) = if Nat.eqb i k then 1 else 0.
  (** The matrix of the linear coefficients of a map in the variables [V]. *)
  Definition linear_part (V : list string) (f : list (gdual K)) : list (list K) :=
    map (fun g => map (fun s => coef g [s] [1%nat]) V) f.

  (** The coefficient of the monomial [k] over [W] in [c + s], where [s] is a
      variable. *)
  Definition affine_coef (c : K) (s : string) (W : list string) (k : key) : K :=
    (if Nat.eqb (list_sum k) 0 then c else 0) +
    (if Nat.eqb (list_sum k) 1 && Nat.eqb (expo W k s) 1 then 1 else 0).
  (** [c] is [c0 + s] up to degree [n]. *)
  Definition is_affine (n : nat) (c : gdual K) (c0 : K) (s : string) : Prop :=
    forall W k, NoDup W -> length k = length W -> (list_sum k <= n)%nat -> coef c W k = affine_coef c0 s W k.

  (** The maps that can be inverted: square, all components with the same
      order (between 1 and 2^32 - 12) and the same variables, and the
      determinant, computed by [det], of the linear part not smaller than
      1e-10 in absolute value. *)
  Definition invertible_map (det : list (list K) -> K) (f : list (gdual K)) : Prop :=
    f <> [] /\
    (forall g h, In g f -> In h f -> get_order g = get_order h /\ psyms (gp g) = psyms (gp h)) /\
    (forall g, In g f -> length (psyms (gp g)) = length f /\
       (1 <= get_order g)%nat /\ (Z.of_nat (get_order g) < 4294967285)%Z) /\
    (kabs (det (linear_part (variables f) f)) <? 1 / kofZ 10000000000) = false.
  (** The result of a computation with the composition [c] of [g] and [B], up
      to the order of [g]. *)
  Definition truncation_of (r c : gdual K) (n : nat) : Prop :=
    forall W k, NoDup W -> length k = length W ->
      coef r W k = if Nat.leb (list_sum k) n then coef c W k else 0.
End SpecMaps.
