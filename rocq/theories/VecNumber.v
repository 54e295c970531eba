(** * Numbers and vectorized coefficients (proof file for C27) *)
From Coq Require Import List Arith Lia.
From Verif Require Import Ops Gdual Vectorized.
Import ListNotations.

Lemma vec_numbers (K : Type) (o : Ops K) (a : list K) (d : K) (i : nat) :
  a <> [] -> i < length a ->
  at_ vdefault i = k0 /\ at_ (vnum d) i = d /\
  vdiv a (vnum d) = Ok (vdiv_assign_num a d) /\
  length (vdiv_assign_num a d) = length a /\ at_ (vdiv_assign_num a d) i = kdiv (at_ a i) d /\
  length (vopp a) = length a /\ at_ (vopp a) i = kopp (at_ a i).
Proof.
  intros Ha Hi. unfold vdiv_assign_num, vopp.
  assert (M : forall f : K -> K, at_ (map f a) i = f (at_ a i)).
  { intros f. unfold at_. rewrite map_length. destruct (Nat.eqb_spec (length a) 1);
      rewrite (nth_indep _ k0 (f k0)), map_nth by (rewrite map_length; lia); reflexivity. }
  rewrite !map_length, !M. repeat split.
  destruct a as [|x [|y l]]; [congruence| |]; reflexivity.
Qed.
