(** * Concrete values used by the examples of the Properties files *)

From Coq Require Import String List Arith Bool ZArith QArith Qcanon Floats.
From Verif Require Import Ops Syms Poly Gdual Functions Spec CoefFacts CoreProofs.
Import ListNotations.
Open Scope string_scope.

(** Rationals *)
Definition q (z : Z) : Qc := Qc_ofZ z.
Definition qf (a : Z) (b : positive) : Qc := Q2Qc (a # b).

(** Placeholder coefficient functions on the rationals: the structural
    theorems hold for any choice. *)
#[global] Instance ElemQ : Elem Qc :=
  mkElem Qc (fun x => x) (fun x => x) (fun x => x) (fun x => x) (fun x => x) (fun x => x) (fun x => x)
            (fun x => x) (fun x => x) (fun x => x) (fun x => x) (fun x => x) (fun x => x) (fun x => x)
            (fun x => x) (fun x => x) (fun x => x) (fun x _ => x) (fun x => Qnum (this x)) (q 3) (fun _ => q 1).

Definition val {K} {o : Ops K} (r : res (gdual K)) : gdual K :=
  match r with Ok g => g | Throw _ => gdefault end.

(** [2 + dx], [3 + dy], [5 + dx] at several orders *)
Definition x2 (n : nat) : gdual Qc := val (gvar (q 2) "x" n).
Definition y3 (n : nat) : gdual Qc := val (gvar (q 3) "y" n).
Definition x0 (n : nat) : gdual Qc := val (gvar (q 0) "x" n).
Definition y0 (n : nat) : gdual Qc := val (gvar (q 0) "y" n).

Lemma x2_reach : reach (x2 3).
Proof. apply (reach_var (q 2) "x" 3). vm_compute. reflexivity. Qed.
Lemma y3_reach : reach (y3 2).
Proof. apply (reach_var (q 3) "y" 2). vm_compute. reflexivity. Qed.

(** [(2 + dx) * (3 + dy) / (3 + dy + (2 + dx)^2)] at order 3 *)
Definition xy : gdual Qc := gdiv (gmul (x2 3) (y3 2)) (gadd (y3 2) (gmul (x2 3) (x2 3))).
Lemma xy_reach : reach xy.
Proof.
  apply reach_div; [apply reach_mul|apply reach_add; [|apply reach_mul]]; auto using x2_reach, y3_reach.
Qed.
Example xy_terms : length (pterms (gp xy)) = 10%nat /\ psyms (gp xy) = ["dx"; "dy"].
Proof. vm_compute. auto. Qed.

(** IEEE doubles: negating a non-zero value gives a non-zero value. *)
Lemma float_neg_nz (c : float) : keqb c k0 = false -> keqb (kopp c) k0 = false.
Proof.
  unfold keqb, kopp, k0, OpsFloat. rewrite !FloatAxioms.eqb_spec, FloatAxioms.opp_spec.
  change (Prim2SF 0%float) with (S754_zero false).
  destruct (Prim2SF c) as [s|s| |s m ex]; simpl; auto; destruct s; auto.
Qed.

(** ** Counterexamples *)
Lemma x2_valid n v s g : gvar (K:=Qc) v s n = Ok g -> valid g.
Proof. intros E. apply (reach_valid neg_nz_field). exact (reach_var v s n g E). Qed.

Lemma assoc_counterexample : exists a b c : gdual Qc, valid a /\ valid b /\ valid c /\
  geqb (gmul (gmul a b) c) (gmul a (gmul b c)) = false.
Proof.
  exists (x0 1), (x0 1), (y3 2). split; [|split; [|split]].
  - apply (x2_valid 1 (q 0) "x"). vm_compute. reflexivity.
  - apply (x2_valid 1 (q 0) "x"). vm_compute. reflexivity.
  - apply (x2_valid 2 (q 3) "y"). vm_compute. reflexivity.
  - vm_compute. reflexivity.
Qed.
Lemma distr_counterexample : exists a b c : gdual Qc, valid a /\ valid b /\ valid c /\
  geqb (gmul a (gadd b c)) (gadd (gmul a b) (gmul a c)) = false.
Proof.
  exists (x0 1), (x0 1), (y3 2). split; [|split; [|split]].
  - apply (x2_valid 1 (q 0) "x"). vm_compute. reflexivity.
  - apply (x2_valid 1 (q 0) "x"). vm_compute. reflexivity.
  - apply (x2_valid 2 (q 3) "y"). vm_compute. reflexivity.
  - vm_compute. reflexivity.
Qed.
Lemma div_counterexample : exists a b : gdual Qc, valid a /\ valid b /\ constant_cf b <> k0 /\
  get_order (gdiv a b) = get_order a /\ ~ agree (get_order a) (gmul (gdiv a b) b) a.
Proof.
  assert (Va : valid (val (gvar (q 1) "y" 2))) by (apply (x2_valid 2 (q 1) "y"); vm_compute; reflexivity).
  assert (Vb : valid (val (gvar (q 1) "x" 1))) by (apply (x2_valid 1 (q 1) "x"); vm_compute; reflexivity).
  exists (val (gvar (q 1) "y" 2)), (val (gvar (q 1) "x" 1)). split; [exact Va|]. split; [exact Vb|]. split; [|split].
  - intros E. assert (T : keqb (constant_cf (val (gvar (q 1) "x" 1))) k0 = false) by (vm_compute; reflexivity).
    rewrite E in T. vm_compute in T. discriminate.
  - reflexivity.
  - intros H. specialize (H ["dx"; "dy"] [2%nat; 0%nat]).
    assert (HN : NoDup ["dx"; "dy"]).
    { constructor; [|constructor; [|constructor]]; simpl; [intros [E|[]]; discriminate|tauto]. }
    specialize (H HN eq_refl (le_n 2)). vm_compute in H. discriminate.
Qed.
