(** * shift_indices (proof file for C34) *)
From Coq Require Import List Arith Lia.
From Verif Require Import Bounding.
Import ListNotations.

Lemma shift_nth (A : Type) (d : A) (l : list A) :
  length (shift_indices l) = length l /\
  forall i, i < length l -> nth i (shift_indices l) d = nth ((i + 1) mod length l) l d.
Proof.
  destruct l as [|x l]; [split; [reflexivity|cbn; intros; lia]|].
  unfold shift_indices. split; [rewrite app_length; cbn; lia|].
  intros i Hi. change (length (x :: l)) with (S (length l)) in *.
  destruct (Nat.eq_dec i (length l)) as [->|N].
  - rewrite Nat.add_1_r, Nat.mod_same by lia. rewrite app_nth2, Nat.sub_diag by lia. reflexivity.
  - rewrite Nat.mod_small by lia. rewrite app_nth1 by lia. rewrite Nat.add_1_r. reflexivity.
Qed.
