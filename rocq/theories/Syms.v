(** * Symbol sets and exponent vectors

    obake keeps the symbols of a polynomial in [obake::symbol_set], a sorted
    vector of distinct strings (boost flat_set), and each monomial as the vector of exponents
    relative to that set.  This file models both.  (External library; used
    by audi through include/audi/gdual.hpp:344-374.) *)

From Coq Require Import String List Arith Bool Lia Sorting.Sorted.
Import ListNotations.

(** Insertion in a sorted duplicate-free list of strings: the flat_set insert.
    Strings are compared bytewise as std::string does. *)
Fixpoint sinsert (s : string) (l : list string) : list string :=
  match l with
  | [] => [s]
  | x :: l' =>
      match String.compare s x with
      | Eq => l
      | Lt => s :: l
      | Gt => x :: sinsert s l'
      end
  end.

(** [obake::symbol_set(first, last)]: build a symbol set from a range. *)
Definition sset (l : list string) : list string := fold_right sinsert [] l.

(** Union of symbol sets, as done by obake when merging the symbols of two
    operands (obake::detail::merge_symbol_sets). *)
Definition sunion (a b : list string) : list string := fold_right sinsert b a.

(** Exponent vectors *)
Definition key := list nat.

Fixpoint key_eqb (a b : key) : bool :=
  match a, b with
  | [], [] => true
  | x :: a', y :: b' => Nat.eqb x y && key_eqb a' b'
  | _, _ => false
  end.

(** obake::key_degree: total degree of a monomial. *)
Definition kdeg (k : key) : nat := fold_right Nat.add 0 k.

(** obake::monomial_mul: pointwise sum of exponents. *)
Fixpoint kplus (a b : key) : key :=
  match a, b with
  | x :: a', y :: b' => (x + y) :: kplus a' b'
  | _, _ => []
  end.

(** Exponent of symbol [s] in the monomial [k] over the symbols [V]. *)
Fixpoint expo (V : list string) (k : key) (s : string) : nat :=
  match V, k with
  | v :: V', e :: k' => if String.eqb v s then e else expo V' k' s
  | _, _ => 0
  end.

(** Replace the exponent of [s]. *)
Fixpoint kset (V : list string) (k : key) (s : string) (e : nat) : key :=
  match V, k with
  | v :: V', x :: k' => if String.eqb v s then e :: k' else x :: kset V' k' s e
  | _, _ => k
  end.

(** obake::monomial_range_... / add_symbols: rewrite an exponent vector
    over [V] as an exponent vector over the larger set [W]. *)
Definition rekey (V W : list string) (k : key) : key := map (expo V k) W.

Definition str_in (s : string) (l : list string) : bool := existsb (String.eqb s) l.
