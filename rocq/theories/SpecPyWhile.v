(** * Vocabulary of the properties of Python scripts with while loops (C55) *)
From Coq Require Import String Reals List ZArith Bool.
From Verif Require Import Ops Syms Poly Gdual Functions Spec ElemR SpecTaylor PyFun SpecPy PyScript SpecPyScript PyWhile.
Open Scope R_scope.

(** x < y without displacement *)
Definition below (M : meaning) (x y : string) : Prop := fun_of M x center < fun_of M y center.
(** Both names hold gduals or both hold numbers. *)
Definition same_kind (M : meaning) (x y : string) : Prop := holds_gdual M x = holds_gdual M y.
(** [ends_smoothly m c M M']: in real arithmetic, with the names meaning [M],
    the script [c] ends, every step is differentiable, and the names then mean
    [M']. *)
Inductive ends_smoothly (m : nat) : wstmt R -> meaning -> meaning -> Prop :=
| E_do c M : runs_smoothly m c M -> ends_smoothly m (WDo c) M (means c M)
| E_seq a b M M' M'' : ends_smoothly m a M M' -> ends_smoothly m b M' M'' -> ends_smoothly m (WSeq a b) M M''
| E_then x y a b M M' : same_kind M x y -> below M x y -> ends_smoothly m a M M' -> ends_smoothly m (WIf x y a b) M M'
| E_else x y a b M M' : same_kind M x y -> ~ below M x y -> ends_smoothly m b M M' -> ends_smoothly m (WIf x y a b) M M'
| E_stop x y b M : same_kind M x y -> ~ below M x y -> ends_smoothly m (WWhile x y b) M M
| E_again x y b M M' M'' : same_kind M x y -> below M x y -> ends_smoothly m b M M' -> ends_smoothly m (WWhile x y b) M' M'' ->
    ends_smoothly m (WWhile x y b) M M''.

(** [wtyped c gd gd']: as [typed], with while loops. *)
Inductive wtyped {K : Type} : wstmt K -> (string -> bool) -> (string -> bool) -> Prop :=
| WT_do c gd gd' : typed c gd gd' -> wtyped (WDo c) gd gd'
| WT_seq a b gd gd' gd'' : wtyped a gd gd' -> wtyped b gd' gd'' -> wtyped (WSeq a b) gd gd''
| WT_then x y a b gd gd' : gd x = gd y -> wtyped a gd gd' -> wtyped (WIf x y a b) gd gd'
| WT_else x y a b gd gd' : gd x = gd y -> wtyped b gd gd' -> wtyped (WIf x y a b) gd gd'
| WT_stop x y b gd : gd x = gd y -> wtyped (WWhile x y b) gd gd
| WT_again x y b gd gd' gd'' : gd x = gd y -> wtyped b gd gd' -> wtyped (WWhile x y b) gd' gd'' -> wtyped (WWhile x y b) gd gd''.
