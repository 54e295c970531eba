(** * Model of include/audi/invert_map.hpp

    A Taylor map is a list of gduals.  The determinant and the inverse of a
    matrix are computed by Eigen, which is external: they are the two fields
    of [Linalg].  Matrices are lists of rows.

    Not modelled: the output of the verbose mode; reading a vector out of its
    range (undefined behaviour in C++), where [nth] returns a default value. *)

From Coq Require Import String List Arith Bool ZArith DecimalString.
From Verif Require Import Ops Syms Poly Gdual.
Import ListNotations.

Class Linalg (K : Type) : Type := mkLinalg {
  la_det : list (list K) -> K;              (* mat.determinant() *)
  la_inv : list (list K) -> list (list K)   (* mat.inverse() *)
}.

(** std::to_string(unsigned) *)
Definition to_string (n : nat) : string := NilZero.string_of_uint (Nat.to_uint n).

Fixpoint mapM {A B} (f : A -> res B) (l : list A) : res (list B) :=
  match l with
  | [] => Ok []
  | x :: l' => y <- f x;; r <- mapM f l';; Ok (y :: r)
  end.

Fixpoint strings_eqb (a b : list string) : bool :=
  match a, b with
  | [], [] => true
  | x :: a', y :: b' => String.eqb x y && strings_eqb a' b'
  | _, _ => false
  end.

Section InvertMap.
  Context {K : Type} {o : Ops K} {la : Linalg K}.
  Local Open Scope K_scope.
  Notation tmap := (list (gdual K)).

  Definition at_map (A : tmap) (i : nat) : gdual K := nth i A gdefault.

  (** invert_map.hpp:50-63 [operator&] *)
  Definition tcompose (A B : tmap) : tmap :=
    let ss := get_symbol_set (at_map A 0) in
    map (fun a =>
           fold_left (fun tmp j => gsubs tmp (dsym (nth j ss EmptyString)) (at_map B j))
                     (seq 0 (length B)) a) A.
  (** invert_map.hpp:66-74 [operator+] *)
  Definition tadd (A B : tmap) : tmap :=
    map (fun i => gadd (at_map A i) (at_map B i)) (seq 0 (length B)).
  (** invert_map.hpp:77-85 [operator-] *)
  Definition tsub (A B : tmap) : tmap :=
    map (fun i => gsub (at_map A i) (at_map B i)) (seq 0 (length B)).
  (** invert_map.hpp:88-96 [operator*] *)
  Definition tscale (c : K) (A : tmap) : tmap := map (fun a => gmul_gs a c) A.
  (** invert_map.hpp:98-106 [trim] *)
  Definition ttrim (A : tmap) (eps : K) : res tmap := mapM (fun a => gtrim a eps) A.

  (** invert_map.hpp:258-259: monomial with exponent 1 at position [j] *)
  Definition unit_key (n j : nat) : key := map (fun i => if Nat.eqb i j then 1%nat else 0%nat) (seq 0 n).

  (** invert_map.hpp:233-237 the identity map *)
  Definition inv_identity (n order : nat) : res tmap :=
    mapM (fun i => g <- gvar 0 (String.append "p" (to_string i)) order;;
                   extend_symbol_set (map (fun k => String.append "dp" (to_string k)) (seq 0 n)) g)
         (seq 0 n).
  (** invert_map.hpp:239-243 the linear part *)
  Definition inv_linear (ssd : list string) (map_in : tmap) : res tmap :=
    mapM (fun g => m <- extract_terms g 1;; extend_symbol_set ssd m) map_in.
  (** invert_map.hpp:245-251 the non linear part *)
  Definition inv_nonlinear (ssd : list string) (order : nat) (map_in : tmap) : res tmap :=
    mapM (fun g =>
            r <- fold_left (fun acc j => a <- acc;; t <- extract_terms g j;; Ok (gadd a t))
                           (seq 2 (order - 1)) (Ok (gconst 0));;
            extend_symbol_set ssd r) map_in.
  (** invert_map.hpp:253-262 the matrix of the linear part *)
  Definition inv_matrix (n : nat) (M : tmap) : res (list (list K)) :=
    mapM (fun m => mapM (fun j => find_cf m (unit_key n j)) (seq 0 n)) M.
  (** invert_map.hpp:275-289: row [i] of Minv (prefix "p") or Minv2 (prefix
      "pdummy"). *)
  Definition ent (m : list (list K)) (i j : nat) : K := nth j (nth i m []) 0.
  Definition inv_minv (prefix : string) (n order : nat) (invm : list (list K)) : res tmap :=
    mapM (fun i =>
            fold_left (fun acc j =>
                         a <- acc;;
                         d <- gvar 0 (String.append prefix (to_string j)) order;;
                         Ok (gadd a (gmul_gs d (ent invm i j))))
                      (seq 0 n) (Ok (gconst 0)))
         (seq 0 n).
  (** invert_map.hpp:263-268: 1e-10 *)
  Definition det_tol : K := 1 / kofZ 10000000000.

  (** invert_map.hpp:187-305 *)
  Definition invert_map (map_in : tmap) : res tmap :=
    let n := length map_in in
    if Nat.eqb n 0 then Throw InvalidArgument else
    let order := get_order (at_map map_in 0) in
    if negb (forallb (fun g => Nat.eqb (get_order g) order) map_in) then Throw InvalidArgument else
    let ss := get_symbol_set (at_map map_in 0) in
    if negb (forallb (fun g => strings_eqb (get_symbol_set g) ss) map_in) then Throw InvalidArgument else
    if negb (Nat.eqb (length ss) n) then Throw InvalidArgument else
    let ssd := map dsym ss in
    Id <- inv_identity n order;;
    M <- inv_linear ssd map_in;;
    N <- inv_nonlinear ssd order map_in;;
    mat <- inv_matrix n M;;
    if kabs (la_det mat) <? det_tol then Throw InvalidArgument else
    let invm := la_inv mat in
    Minv <- inv_minv "p" n order invm;;
    Minv2 <- inv_minv "pdummy" n order invm;;
    (** 290-303: the Picard iterations *)
    Ok (fold_left (fun retval (_ : nat) => tcompose Minv2 (tsub Id (tcompose N retval)))
                  (seq 1 (order - 1)) Minv).
End InvertMap.
