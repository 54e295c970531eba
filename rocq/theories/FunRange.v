(** * The range of the Bernoulli numbers (model and proofs) *)
From Coq Require Import String List Arith Bool ZArith Reals Lia Lra.
From Verif Require Import Ops Syms Poly Gdual Functions Spec ElemR CoreProofs SpecTaylor TayProofs.
Import ListNotations.
Local Open Scope R_scope.

Section Calls.
  Context {K : Type} {oK : Ops K} {eK : Elem K}.
  (** functions.hpp:491 and 669: bernoulli_b2n<double>(0, count, out) asks for
      [count] numbers.  Boost has the first 130 (max_bernoulli_b2n<double> is
      129, B_258 being the last one in the range of double) and throws
      std::overflow_error, before anything is returned, when asked for more. *)
  Definition bernoulli_b2n (count : nat) : res (list K) :=
    if Nat.leb count 130 then Ok (map e_bern (seq 0 count)) else Throw OtherException.
  (** functions.hpp:481-505 with that call; the rest is [gtan]. *)
  Definition gtan_call (d : gdual K) : res (gdual K) := _ <- bernoulli_b2n ((get_order d + 1) / 2 + 1);; Ok (gtan d).
  (** functions.hpp:659-683, likewise *)
  Definition gtanh_call (d : gdual K) : res (gdual K) := _ <- bernoulli_b2n ((get_order d + 1) / 2 + 1);; Ok (gtanh d).

  Lemma count_le n : (n <= 258)%nat -> ((n + 1) / 2 + 1 <= 130)%nat.
  Proof. intros H. assert (X := Nat.div_le_mono (n + 1) 259 2 ltac:(lia) ltac:(lia)). change (259 / 2)%nat with 129%nat in X. lia. Qed.
  Lemma count_gt n : (259 <= n)%nat -> (130 < (n + 1) / 2 + 1)%nat.
  Proof. intros H. assert (X := Nat.div_le_mono 260 (n + 1) 2 ltac:(lia) ltac:(lia)). change (260 / 2)%nat with 130%nat in X. lia. Qed.
  Lemma call_le n : (n <= 258)%nat -> bernoulli_b2n ((n + 1) / 2 + 1) = Ok (bn n).
  Proof. intros H. unfold bernoulli_b2n. rewrite (proj2 (Nat.leb_le _ _) (count_le n H)). reflexivity. Qed.
  Lemma call_gt n : (259 <= n)%nat -> bernoulli_b2n ((n + 1) / 2 + 1) = Throw OtherException.
  Proof. intros H. unfold bernoulli_b2n. rewrite (proj2 (Nat.leb_gt _ _) (count_gt n H)). reflexivity. Qed.
  Lemma calls_throw (d : gdual K) : (259 <= get_order d)%nat -> gtan_call d = Throw OtherException /\ gtanh_call d = Throw OtherException.
  Proof. intros H. unfold gtan_call, gtanh_call. rewrite !call_gt by auto. auto. Qed.
End Calls.

Lemma calls_expand n d u : expands n d u -> (get_order d <= 258)%nat ->
  (cos (u center) <> 0 -> exists t, gtan_call d = Ok t /\ expands n t (fun x => tan (u x))) /\
  (exists t, gtanh_call d = Ok t /\ expands n t (fun x => tanh (u x))).
Proof.
  intros H L. unfold gtan_call, gtanh_call. rewrite !call_le by auto. cbn [rbind]. split.
  - intros C. exists (gtan d). split; auto. exact (expands_run1 Ftan n d u H C I).
  - exists (gtanh d). split; auto. exact (expands_run1 Ftanh n d u H I I).
Qed.
Lemma var_throws v N : (259 <= Z.of_nat N < 4294967285)%Z -> exists d : gdual R, gvar v "x" N = Ok d /\
  gtan_call d = Throw OtherException /\ gtanh_call d = Throw OtherException.
Proof.
  intros H. unfold gvar, check_order. rewrite (proj2 (Z.leb_gt (two32 - 1 - 10) (Z.of_nat N))) by (unfold two32; lia). cbn [rbind].
  change (check_var_name "x") with (@Ok unit tt). cbn [rbind]. replace (N =? 0)%nat with false by (symmetry; apply Nat.eqb_neq; lia). cbn [rbind].
  eexists. split; [reflexivity|]. apply calls_throw. unfold get_order. cbn [gord]. lia.
Qed.
