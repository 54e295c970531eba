(** * set_rem and the identity model (proof file for C37) *)
From Coq Require Import String List Arith Bool ZArith Reals Lra Lia.
From Verif Require Import Ops Syms Poly Gdual Functions Spec CoreProofs MiscProofs ValueProofs Interval TaylorModel SpecTaylor SpecTM TMMaps TMArith.
Import ListNotations.
Open Scope R_scope.

Lemma set_rem_iff D (t : taylor_model R) f rem : represents D t f ->
  (represents D (set_rem rem t) f <-> forall x, D x -> within rem (f x - value (m_tpol t) (displacement (m_exp t) x))).
Proof.
  intros [W E]. unfold set_rem. split.
  - intros [_ E'] x Hx. exact (proj2 (E' x Hx)).
  - intros H. split; [destruct W; constructor; auto|]. intros x Hx. split; [exact (proj1 (E x Hx))|exact (H x Hx)].
Qed.
Lemma identity_one D f : represents D (tm_identity (K := R)) f <-> forall x, D x -> f x = 1.
Proof.
  assert (V : forall x, value (gconst (1 : R)) x = 1) by (intros x; apply value_const).
  split.
  - intros [_ E] x Hx. destruct (E x Hx) as [_ [L U]]. cbn [tm_identity m_tpol m_rem m_exp fst snd] in L, U. rewrite V in L, U. cbn in L, U. lra.
  - intros H. split.
    + constructor; [exact (valid_const (1 : R))|..]; cbn; try reflexivity; try (apply NoDup_nil); try tauto.
    + intros x Hx. split; [intros s I []|]. cbn [tm_identity m_tpol m_rem m_exp]. rewrite V, (H x Hx). split; cbn; lra.
Qed.
Lemma identity_case : represents (fun _ => True) (tm_identity (K := R)) (fun _ => 1) /\
  represents (fun _ => True) (set_rem (-1, 1) (tm_identity (K := R))) (fun _ => 1).
Proof.
  assert (I : represents (fun _ => True) (tm_identity (K := R)) (fun _ => 1)) by (apply identity_one; auto). split; auto.
  apply set_rem_iff; auto. intros x _. cbn [tm_identity m_tpol m_exp]. rewrite value_const. split; cbn; lra.
Qed.
