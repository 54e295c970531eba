(** * Model of the text output (io.hpp and the stream operators)

    [os << x] appends text to [os]; a call is modelled by the text appended.
    The text of a number, a key or a gdual is a parameter ([sh], [shd]): it is
    produced by the standard library or by obake. *)
From Coq Require Import String Ascii List Arith Bool.
From Verif Require Import Ops Syms Poly Gdual Interval TaylorModel.
Import ListNotations.
Local Open Scope string_scope.

Section Stream.
  Context {A B : Type} (sh : A -> string) (shd : B -> string).

  (** io.hpp:42 [AUDI_MAX_OUTPUT_LENGTH] and vectorized.hpp:44
      [MAX_STREAMED_COMPONENTS] *)
  Definition max_output : nat := 5.

  (** The text of the element at index [i]; the index is in range in every
      call below. *)
  Definition at_index (v : list A) (i : nat) : string := match nth_error v i with Some x => sh x | None => "" end.

  (** io.hpp:69-89 [stream_impl(os, std::vector<T>)] *)
  Definition stream_vector (v : list A) : string :=
    if Nat.leb (length v) max_output then
      fold_left (fun os i => os ++ at_index v i ++ (if Nat.eqb i (length v - 1) then "" else ", ")) (seq 0 (length v)) "[" ++ "]"
    else
      fold_left (fun os i => os ++ at_index v i ++ ", ") (seq 0 max_output) "[" ++ "... ]".

  (** io.hpp:91-95 [stream_impl(os, std::pair<T, U>)] *)
  Definition stream_pair (p : A * B) : string := "(" ++ sh (fst p) ++ "," ++ shd (snd p) ++ ")".

  (** io.hpp:97-114 [stream_impl(os, std::map<T, U>)]; the map is the list of
      its entries in iteration order. *)
  Fixpoint stream_map_loop (counter : nat) (m : list (A * B)) : string :=
    match m with
    | [] => ""
    | e :: m' =>
        if Nat.eqb counter max_output then "..."
        else sh (fst e) ++ " : " ++ shd (snd e) ++ (match m' with [] => "" | _ => ",  " end) ++ stream_map_loop (S counter) m'
    end.
  Definition stream_map (m : list (A * B)) : string := "{" ++ stream_map_loop 0 m ++ "}".

  (** vectorized.hpp:186-201 [operator<<].  Of an empty coefficient (which no
      constructor builds) the operator reads out of bounds: [None]. *)
  Definition stream_vectorized (v : list A) : option string :=
    match length v with
    | O => None
    | S m =>
        Some (if Nat.leb (length v) max_output then
                fold_left (fun os i => os ++ at_index v i ++ ", ") (seq 0 m) "[" ++ at_index v m ++ "]"
              else fold_left (fun os i => os ++ at_index v i ++ ", ") (seq 0 max_output) "[" ++ "... ]")
    end.
End Stream.

Section Maps.
  Context {K : Type} (sh : K -> string).
  (** taylor_model_utilities.hpp:105-116: [operator<<] of a var_map_d, given as
      the list of its entries in iteration order; the state is (os, first). *)
  Definition stream_var_map (m : list (string * K)) : string :=
    fst (fold_left (fun '(os, first) '(k, v) => (os ++ (if first : bool then "" else ", ") ++ k ++ ": " ++ sh v, false)) m ("{", true)) ++ "}".
  (** taylor_model_utilities.hpp:131-143: [operator<<] of a var_map_i *)
  Definition stream_var_map_i (m : list (string * (K * K))) : string :=
    fst (fold_left (fun '(os, first) '(k, i) =>
           (os ++ (if first : bool then "" else ", ") ++ k ++ ":" ++ "[" ++ sh (fst i) ++ ", " ++ sh (snd i) ++ "]", false)) m ("{", true)) ++ "}".
End Maps.

(** taylor_model.hpp:1096-1102 [operator<<] of a Taylor model.  [shg] is the
    text of its polynomial, [sh] that of a number.  The two maps are printed in
    the order of the lists of the model; the C++ maps iterate in an order of
    their own. *)
Definition nl : string := String "010" "".
Definition stream_tm {K} (shg : gdual K -> string) (sh : K -> string) (t : taylor_model K) : string :=
  "Taylor Polynomial:" ++ nl ++ shg (m_tpol t) ++ nl ++ "Remainder Bound: [" ++ sh (fst (m_rem t)) ++ ", " ++ sh (snd (m_rem t)) ++ "]"
    ++ nl ++ "Expansion Point: " ++ stream_var_map sh (m_exp t) ++ nl ++ "Domain: " ++ stream_var_map_i sh (m_domain t).

(** io.hpp:133-192 [table] *)
Record table : Type := mkTable {
  t_indent : string;
  t_headers : list string;
  t_sizes : list nat;
  t_rows : list (list string) }.
(** io.hpp:140-145 *)
Definition table_new (headers : list string) (indent : string) : table :=
  mkTable indent headers (map String.length headers) [].
(** std::transform over two ranges *)
Fixpoint transform2 {A B C} (f : A -> B -> C) (l : list A) (m : list B) : list C :=
  match l, m with
  | a :: l', b :: m' => f a b :: transform2 f l' m'
  | _, _ => []
  end.
(** io.hpp:149-162 [add_row]; the arguments are given as the strings they are
    converted to. *)
Definition add_row (t : table) (row : list string) : res table :=
  if negb (Nat.eqb (length row) (length (t_headers t))) then Throw InvalidArgument
  else Ok (mkTable (t_indent t) (t_headers t)
             (transform2 (fun str size => Nat.max (String.length str) size) row (t_sizes t))
             (t_rows t ++ [row])).
Fixpoint fill (c : ascii) (n : nat) : string := match n with O => "" | S m => String c (fill c m) end.
(** io.hpp:167-172 [print_row].  The subtraction is of unsigned numbers; it
    never wraps ([sizes_cover] in IoProofs.v). *)
Definition print_row (t : table) (row : list string) : string :=
  fold_left append (transform2 (fun str size => str ++ fill " " (size - String.length str + 2)) row (t_sizes t)) "".
(** io.hpp:164-185 [operator<<] *)
Definition print_table (t : table) : string :=
  let os := t_indent t ++ print_row t (t_headers t) ++ nl ++ t_indent t in
  let os := os ++ fold_left append (map (fun size => fill "-" (size + 2)) (t_sizes t)) "" ++ nl in
  fold_left (fun os v => os ++ t_indent t ++ print_row t v ++ nl) (t_rows t) os.
