(** * Specification vocabulary for the Bernstein bounds *)
From Coq Require Import String List Arith Bool ZArith Reals.
From Verif Require Import Ops Syms Poly Gdual Functions Spec.
Import ListNotations.

(** Binomial coefficients by Pascal's rule. *)
Fixpoint choose (n k : nat) : Z :=
  match n, k with
  | _, O => 1
  | O, S _ => 0
  | S n', S k' => choose n' k' + choose n' k
  end.
Definition two64 : Z := 18446744073709551616.

(** The products met when C(n,k) is computed as C(m+1,1), C(m+2,2), ..., C(n,k)
    with m = n - k: each is C(m+i,i) times (m+i+1). *)
Definition products_fit (n k : nat) : Prop :=
  forall i, i < k -> (choose (n - k + i) i * Z.of_nat (n - k + i + 1) < two64)%Z.

(** An index vector below the limits. *)
Definition below (limits idx : list nat) : Prop := Forall2 le idx limits.

(** Number of index vectors below [ds], and the position of one of them in the
    enumeration whose first index varies fastest. *)
Definition size (ds : list nat) : nat := fold_right (fun d p => S d * p) 1 ds.
Fixpoint flat (ds idx : list nat) : nat :=
  match ds, idx with
  | d :: ds', i :: idx' => i + S d * flat ds' idx'
  | _, _ => 0
  end.
Definition rot {A} (n : nat) (l : list A) : list A := skipn n l ++ firstn n l.

Section Matrices.
  Context {K : Type} {o : Ops K}.
  Local Open Scope K_scope.
  Definition is_matrix (r c : nat) (M : list (list K)) : Prop := length M = r /\ Forall (fun row => length row = c) M.
  Definition cell (M : list (list K)) (i j : nat) : K := nth j (nth i M []) 0.
  Definition sum_to (n : nat) (f : nat -> K) : K := sum_list f (seq 0 n).
  (** A tensor with indices below [ds], stored as a matrix: the first index is
      the row, the others give the column. *)
  Definition shape (ds : list nat) (M : list (list K)) : Prop :=
    match ds with [] => False | d :: rest => is_matrix (S d) (size rest) M end.
  Definition entry (ds : list nat) (M : list (list K)) (idx : list nat) : K :=
    cell M (nth 0 idx 0%nat) (flat (tl ds) (tl idx)).
End Matrices.

(** The point [rho] has its coordinates [V] inside the intervals. *)
Definition inside (V : list string) (box : list (R * R)) (rho : string -> R) : Prop :=
  Forall2 (fun s I => (fst I <= rho s <= snd I)%R) V box.

(** The box of the variables [V], relative to the expansion point [e]. *)
Definition relative_box (V : list string) (I : string -> R * R) (e : string -> R) : list (string * (R * R)) :=
  map (fun s => (s, (fst (I s) - e s, snd (I s) - e s)%R)) V.
