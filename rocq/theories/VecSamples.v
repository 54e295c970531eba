(** * Concrete vectorized gduals used by the examples and counterexamples. *)
From Coq Require Import String List Arith Bool ZArith QArith Qcanon Reals Lra Lia.
From Verif Require Import Ops Syms Poly Gdual Functions Spec Vectorized SpecVec.
Import ListNotations.
Open Scope string_scope. Open Scope list_scope. Open Scope nat_scope.

Definition q (z : Z) : Qc := kofZ z.
Definition v2 (a b : Z) : vec Qc 2 := @mkVec Qc 2 [q a; q b] eq_refl.
(** -1 + [1, 2] dx and its second component -1 + 2 dx; [-1, -3] + [1, 2] dx *)
Definition okd {A} (d : gdual A) (r : res (gdual A)) : gdual A := match r with Ok g => g | Throw _ => d end.
Definition vx : gdual (vec Qc 2) := okd gdefault (gvar k0 "x" 2).
Definition sx : gdual Qc := okd gdefault (gvar k0 "x" 2).
Definition va : gdual (vec Qc 2) := gadd_sg (vec_num (q (-1))) (gmul_sg (v2 1 2) vx).
Definition sa : gdual Qc := gadd_sg (q (-1)) (gmul_sg (q 2) sx).
Definition wa : gdual (vec Qc 2) := gadd_sg (v2 (-1) (-3)) (gmul_sg (v2 1 2) vx).
Definition sb : gdual Qc := gadd_sg (q (-3)) (gmul_sg (q 2) sx).
Definition s1 : gdual Qc := gadd_sg (q (-1)) (gmul_sg (q 1) sx).

Lemma q_neq (a b : Z) : Z.eqb a b = false -> q a <> q b.
Proof.
  intros H E. unfold q in E. simpl in E. unfold Qc_ofZ in E. apply Q2Qc_eq_iff in E.
  unfold Qeq in E. simpl in E. rewrite !Z.mul_1_r in E. apply Z.eqb_neq in H. auto.
Qed.
Lemma sign_Qc : forall z : Qc, z <> k0 -> kltb k0 z = negb (kltb z k0).
Proof.
  intros z H. simpl. unfold Qc_ltb. rewrite <- (CompOpp_involutive (z ?= 0)%Qc). unfold Qccompare.
  rewrite (Qcompare_antisym (this z) (this 0%Qc)). destruct (this 0%Qc ?= this z)%Q eqn:E; auto.
  apply Qeq_alt in E. exfalso. apply H. apply Qc_is_canon. symmetry. exact E.
Qed.
Lemma lt00_Qc : kltb (k0 : Qc) k0 = false.
Proof. reflexivity. Qed.

Lemma sign_R : (forall z : R, z <> k0 -> kltb k0 z = negb (kltb z k0)) /\ kltb (k0 : R) k0 = false.
Proof.
  simpl. unfold Rltb. split.
  - intros z H. destruct (Rlt_dec 0 z), (Rlt_dec z 0); simpl; auto; exfalso; [lra|].
    apply H. lra.
  - destruct (Rlt_dec 0 0); auto. exfalso. lra.
Qed.
Lemma keqb_Qc : (forall x y : Qc, keqb x y = keqb y x) /\ (forall x : Qc, keqb x x = true) /\
  (forall x y z : Qc, keqb x y = true -> keqb y z = true -> keqb x z = true).
Proof.
  simpl. unfold Qc_eqb. repeat split.
  - intros x y. destruct (Qc_eq_dec x y), (Qc_eq_dec y x); congruence.
  - intros x. destruct (Qc_eq_dec x x); congruence.
  - intros x y z. destruct (Qc_eq_dec x y), (Qc_eq_dec y z), (Qc_eq_dec x z); congruence.
Qed.
Lemma fma3_counterexample : exists ret x y : list Qc, ret <> [] /\ x <> [] /\ y <> [] /\
  ~ compatible3 (length ret) (length x) (length y) /\ vfma3 ret x y = (ret, None).
Proof.
  exists [q 1; q 1], [q 1; q 1], [q 1; q 1; q 1]. repeat split; try discriminate.
  intros (n & H1 & H2 & H3). simpl in *. lia.
Qed.
Lemma eq_trans_counterexample : exists a b c : list Qc, a <> [] /\ b <> [] /\ c <> [] /\
  veqb a b = true /\ veqb b c = true /\ veqb a c = false.
Proof.
  exists [q 1; q 1], [q 1], [q 1; q 1; q 1]. repeat split; try discriminate; vm_compute; reflexivity.
Qed.

Section Samples.
  Context {e : Elem Qc}.
  Lemma va_sa : both 2 1 true va sa.
  Proof.
    unfold va, sa. change (q (-1)) with (component 2 1 (vec_num (q (-1)))) at 2.
    apply both_add_sg. change (q 2) with (component 2 1 (v2 1 2)). apply both_mul_sg.
    eapply (both_var 2 1 k0 "x" 2); reflexivity.
  Qed.
  Lemma va_s1 : both 2 0 true va s1.
  Proof.
    unfold va, s1. change (q (-1)) with (component 2 0 (vec_num (q (-1)))) at 2.
    apply both_add_sg. change (q 1) with (component 2 0 (v2 1 2)). apply both_mul_sg.
    eapply (both_var 2 0 k0 "x" 2); reflexivity.
  Qed.
  Lemma wa_sb : both 2 1 true wa sb.
  Proof.
    unfold wa, sb. change (q (-3)) with (component 2 1 (v2 (-1) (-3))).
    apply both_add_sg. change (q 2) with (component 2 1 (v2 1 2)). apply both_mul_sg.
    eapply (both_var 2 1 k0 "x" 2); reflexivity.
  Qed.
  Lemma abs_counterexample : exists (a : gdual (vec Qc 2)) (b : gdual Qc), both 2 1 true a b /\
    component 2 1 (coef (gabs_vec a) ["dx"] [1]) <> coef (gabs b) ["dx"] [1].
  Proof.
    exists va, sa. split; [exact va_sa|].
    replace (component 2 1 (coef (gabs_vec va) ["dx"] [1])) with (q 2) by (apply Qc_is_canon; vm_compute; reflexivity).
    replace (coef (gabs sa) ["dx"] [1]) with (q (-2)) by (apply Qc_is_canon; vm_compute; reflexivity).
    apply q_neq. reflexivity.
  Qed.
  Lemma trim_counterexample : exists (a g : gdual (vec Qc 2)) (b h : gdual Qc), both 2 0 true a b /\
    gtrim a (vec_num (q 2)) = Ok g /\ gtrim b (q 2) = Ok h /\
    component 2 0 (coef g ["dx"] [1]) <> coef h ["dx"] [1].
  Proof.
    exists va, (okd gdefault (gtrim va (vec_num (q 2)))), s1, (okd gdefault (gtrim s1 (q 2))).
    split; [exact va_s1|]. split; [reflexivity|]. split; [reflexivity|].
    replace (component 2 0 (coef (okd gdefault (gtrim va (vec_num (q 2)))) ["dx"] [1])) with (q 1)
      by (apply Qc_is_canon; vm_compute; reflexivity).
    replace (coef (okd gdefault (gtrim s1 (q 2))) ["dx"] [1]) with (q 0) by (apply Qc_is_canon; vm_compute; reflexivity).
    apply q_neq. reflexivity.
  Qed.
  (** [0, 1] dx and its first component 0 *)
  Definition pa : gdual (vec Qc 2) := gmul_sg (v2 0 1) vx.
  Definition pb : gdual Qc := gmul_sg (q 0) sx.
  Lemma pa_pb : both 2 0 true pa pb.
  Proof.
    unfold pa, pb. change (q 0) with (component 2 0 (v2 0 1)). apply both_mul_sg. eapply (both_var 2 0 k0 "x" 2); reflexivity.
  Qed.
  Lemma pow_counterexample : exists (a : gdual (vec Qc 2)) (b : gdual Qc), both 2 0 true a b /\
    get_order (gpow_sg (vec_num (q 2)) a) = 2 /\ get_order (gpow_sg (q 2) b) = 0.
  Proof.
    exists pa, pb. split; [exact pa_pb|]. split; [|reflexivity].
    unfold gpow_sg. replace (gdegree pa =? 0) with false by (vm_compute; reflexivity). reflexivity.
  Qed.
  (** after a substitution the component has no symbols left *)
  Definition qa : gdual (vec Qc 2) := gsubs pa "dz" (gconst (vec_num (q 1))).
  Definition qb : gdual Qc := gsubs pb "dz" (gconst (q 1)).
  Lemma quad_counterexample : exists (a g : gdual (vec Qc 2)) (b h : gdual Qc), both 2 0 false a b /\
    runD Derf a = Ok g /\ runD Derf b = Ok h /\ get_order g = 2 /\ get_order h = 0.
  Proof.
    exists qa, (okd gdefault (gerf qa)), qb, (okd gdefault (gerf qb)). split.
    { unfold qa, qb. change (gconst (q 1)) with (gconst (component 2 0 (vec_num (q 1)))). eapply both_subs; [exact pa_pb|apply both_const]. }
    split; [reflexivity|]. split; [reflexivity|]. split; reflexivity.
  Qed.
End Samples.

(** Construction and the test for zero *)
Lemma make_vec (K : Type) (o : Ops K) (c : list K) :
  (c = [] -> vmake c = Throw InvalidArgument) /\ (c <> [] -> vmake c = Ok c).
Proof. unfold vmake. destruct c; split; intros H; try reflexivity; congruence. Qed.
Lemma zero_vec (K : Type) (o : Ops K) (a : list K) : vis_zero a = true <-> forall x, In x a -> keqb x k0 = true.
Proof. unfold vis_zero. apply forallb_forall. Qed.
