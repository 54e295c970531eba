(** * Vocabulary of property C47 *)
From Coq Require Import String Ascii List Arith.
From Verif Require Import Ops Syms Poly Gdual Io.
Import ListNotations.
Local Open Scope string_scope.

(** [t1 sep t2 sep ... tn] *)
Definition joined : string -> list string -> string := String.concat.
(** The text is not empty and has no comma. *)
Definition plain (s : string) : Prop := s <> "" /\ forall i, get i s <> Some ","%char.
(** The character does not occur in the text. *)
Definition lacks (c : ascii) (s : string) : Prop := forall i, get i s <> Some c.
(** The tables a program can build: rows that were refused leave no trace. *)
Inductive built (headers : list string) (indent : string) : list (list string) -> table -> Prop :=
  | built_new : built headers indent [] (table_new headers indent)
  | built_row rows t row t' : built headers indent rows t -> add_row t row = Ok t' -> built headers indent (rows ++ [row]) t'
  | built_refused rows t row x : built headers indent rows t -> add_row t row = Throw x -> built headers indent rows t.
(** The width of column [j]: of its longest text. *)
Definition width (lines : list (list string)) (j : nat) : nat :=
  fold_right Nat.max 0 (map (fun row => String.length (nth j row "")) lines).
(** The place where column [j] starts. *)
Fixpoint column_start (indent : string) (lines : list (list string)) (j : nat) : nat :=
  match j with
  | O => String.length indent
  | S i => column_start indent lines i + width lines i + 2
  end.
