(** * Coefficient operations

    The C++ class template [gdual<Cf, Monomial>] (include/audi/gdual.hpp:98) is
    generic in its coefficient type [Cf] (double, std::complex, real128,
    vectorized<double>).  The model is generic in the same way: every model
    function takes an [Ops K] record holding the operations the C++ code
    performs on coefficients.  No law is assumed here; [FieldLaws] states the
    laws separately so that structural theorems hold for any arithmetic
    (IEEE doubles included). *)

From Coq Require Import ZArith QArith Qcanon Reals Floats Field Lra Lia Bool.

Class Ops (K : Type) : Type := mkOps {
  k0 : K;                      (* Cf(0) *)
  k1 : K;                      (* Cf(1) *)
  kadd : K -> K -> K;          (* a + b *)
  ksub : K -> K -> K;          (* a - b *)
  kmul : K -> K -> K;          (* a * b *)
  kopp : K -> K;               (* -a *)
  kdiv : K -> K -> K;          (* a / b *)
  keqb : K -> K -> bool;       (* a == b, also obake's is_zero *)
  kltb : K -> K -> bool;       (* a < b *)
  kabs : K -> K;               (* audi::abs(a) *)
  kofZ : Z -> K                (* Cf(n) for int / unsigned / integral double n *)
}.

Declare Scope K_scope.
Delimit Scope K_scope with K.
Bind Scope K_scope with Ops.
Infix "+" := kadd : K_scope.
Infix "-" := ksub : K_scope.
Infix "*" := kmul : K_scope.
Infix "/" := kdiv : K_scope.
Notation "- x" := (kopp x) : K_scope.
Notation "0" := k0 : K_scope.
Notation "1" := k1 : K_scope.
Infix "=?" := keqb : K_scope.
Infix "<?" := kltb : K_scope.

(** Exact field arithmetic: the assumption under which algebraic theorems are
    stated.  It is met by [Qc] and [R] below, not by IEEE doubles. *)
Class FieldLaws {K : Type} (o : Ops K) : Prop := mkFieldLaws {
  fl_field : field_theory (k0 (K:=K)) k1 kadd kmul ksub kopp kdiv (fun x => kdiv k1 x) eq;
  fl_eqb : forall x y : K, keqb x y = true <-> x = y;
  fl_ofZ0 : kofZ 0 = (k0 : K);
  fl_ofZ1 : kofZ 1 = (k1 : K);
  fl_ofZadd : forall a b, (kofZ (a + b) : K) = kadd (kofZ a) (kofZ b);
  fl_ofZmul : forall a b, (kofZ (a * b) : K) = kmul (kofZ a) (kofZ b);
  fl_char0 : forall z, (kofZ z : K) = k0 -> z = 0%Z;
  fl_absZ : forall z, kabs (kofZ z : K) = kofZ (Z.abs z)
}.

(** ** Rational numbers: executable exact arithmetic *)
Definition Qc_eqb (x y : Qc) : bool := if Qc_eq_dec x y then true else false.
Definition Qc_ltb (x y : Qc) : bool :=
  match (x ?= y)%Qc with Lt => true | _ => false end.
Definition Qc_abs (x : Qc) : Qc := if Qc_ltb x 0%Qc then (- x)%Qc else x.
Definition Qc_ofZ (z : Z) : Qc := Q2Qc (inject_Z z).

#[global] Instance OpsQc : Ops Qc :=
  mkOps Qc 0%Qc 1%Qc Qcplus Qcminus Qcmult Qcopp Qcdiv Qc_eqb Qc_ltb Qc_abs Qc_ofZ.

Lemma Qc_ofZ_add a b : Qc_ofZ (a + b) = (Qc_ofZ a + Qc_ofZ b)%Qc.
Proof.
  unfold Qc_ofZ, Qcplus. apply Q2Qc_eq_iff. cbn [this Q2Qc].
  rewrite !Qred_correct. unfold Qeq, inject_Z; simpl. ring.
Qed.

Lemma Qc_ofZ_mul a b : Qc_ofZ (a * b) = (Qc_ofZ a * Qc_ofZ b)%Qc.
Proof.
  unfold Qc_ofZ, Qcmult. apply Q2Qc_eq_iff. cbn [this Q2Qc].
  rewrite !Qred_correct. unfold Qeq, inject_Z; simpl. ring.
Qed.

Lemma Qc_abs_ofZ z : Qc_abs (Qc_ofZ z) = Qc_ofZ (Z.abs z).
Proof.
  unfold Qc_abs, Qc_ltb, Qccompare, Qc_ofZ. cbn [this Q2Qc].
  change (Qred 0) with 0%Q. rewrite (Qcompare_comp _ _ (Qred_correct (inject_Z z)) 0%Q 0%Q (Qeq_refl _)).
  unfold Qcompare, inject_Z. cbn [Qnum Qden]. rewrite Z.mul_1_r, Z.mul_0_l.
  destruct (Z.compare_spec z 0) as [->|L|G].
  - reflexivity.
  - rewrite Z.abs_neq by Lia.lia. unfold Qcopp. apply Q2Qc_eq_iff. cbn [this Q2Qc].
    rewrite Qred_correct. reflexivity.
  - rewrite Z.abs_eq by Lia.lia. reflexivity.
Qed.

#[global] Instance FieldLawsQc : FieldLaws OpsQc.
Proof.
  constructor; simpl.
  - destruct Qcft as [Hr H10 Hd Hi]. constructor; [exact Hr|exact H10| |].
    + intros p q. unfold Qcdiv. ring.
    + intros p Hp. rewrite Hd. rewrite <- (Hi p Hp) at 2. ring.
  - intros x y. unfold Qc_eqb. destruct (Qc_eq_dec x y); split; congruence.
  - apply Qc_is_canon; reflexivity.
  - apply Qc_is_canon; reflexivity.
  - exact Qc_ofZ_add.
  - exact Qc_ofZ_mul.
  - intros z H. unfold Qc_ofZ in H.
    assert (Hq : (inject_Z z == 0)%Q) by (apply Q2Qc_eq_iff; exact H).
    unfold Qeq in Hq; simpl in Hq. rewrite Z.mul_1_r in Hq. exact Hq.
  - exact Qc_abs_ofZ.
Qed.

(** ** Real numbers: the arithmetic of the analytic theorems *)
Definition Reqb (x y : R) : bool := if Req_EM_T x y then true else false.
Definition Rltb (x y : R) : bool := if Rlt_dec x y then true else false.

#[global] Instance OpsR : Ops R :=
  mkOps R 0%R 1%R Rplus Rminus Rmult Ropp Rdiv Reqb Rltb Rabs IZR.

#[global] Instance FieldLawsR : FieldLaws OpsR.
Proof.
  constructor; simpl.
  - constructor.
    + constructor; intros; ring.
    + exact R1_neq_R0.
    + intros p q. unfold Rdiv. ring.
    + intros p Hp. field. exact Hp.
  - intros x y. unfold Reqb. destruct (Req_EM_T x y); split; congruence.
  - reflexivity.
  - reflexivity.
  - exact plus_IZR.
  - exact mult_IZR.
  - exact eq_IZR_R0.
  - intros z. symmetry. apply abs_IZR.
Qed.

(** ** IEEE 754 doubles: the arithmetic the library really runs on.
    Only structural theorems apply to it; it is used to execute the model. *)
Definition float_ofZ (z : Z) : float :=
  match z with
  | Z0 => 0%float
  | Zpos p => PrimFloat.of_uint63 (Uint63.of_Z z)
  | Zneg p => PrimFloat.opp (PrimFloat.of_uint63 (Uint63.of_Z (Zpos p)))
  end.

#[global] Instance OpsFloat : Ops float :=
  mkOps float 0%float 1%float PrimFloat.add PrimFloat.sub PrimFloat.mul
        PrimFloat.opp PrimFloat.div PrimFloat.eqb PrimFloat.ltb PrimFloat.abs float_ofZ.

(** ** Consequences of the field laws *)
Section Laws.
  Context {K : Type} {o : Ops K} {fl : FieldLaws o}.

  Add Field Kfield : (fl_field (K:=K)).

  Local Open Scope K_scope.

  Lemma K10 : (1 : K) <> 0.
  Proof. exact (F_1_neq_0 fl_field). Qed.

  Lemma keqb_spec (x y : K) : reflect (x = y) (x =? y).
  Proof. apply iff_reflect. symmetry. apply fl_eqb. Qed.

  Lemma keqb_refl (x : K) : (x =? x) = true.
  Proof. apply fl_eqb. reflexivity. Qed.

  Lemma keqb_false (x y : K) : (x =? y) = false <-> x <> y.
  Proof.
    destruct (keqb_spec x y); split; congruence.
  Qed.

  Lemma kofZ_opp a : (kofZ (- a) : K) = - kofZ a.
  Proof.
    assert (H : (kofZ (a + - a) : K) = 0) by (rewrite Z.add_opp_diag_r; apply fl_ofZ0).
    rewrite fl_ofZadd in H.
    transitivity (kofZ a + kofZ (- a) + - kofZ a); [ring|]. rewrite H. ring.
  Qed.

  Lemma kofZ_sub a b : (kofZ (a - b) : K) = kofZ a - kofZ b.
  Proof. unfold Z.sub. rewrite fl_ofZadd, kofZ_opp. ring. Qed.

  Lemma kmul_integral (x y : K) : x * y = 0 -> x = 0 \/ y = 0.
  Proof.
    intros H. destruct (keqb_spec x 0) as [E|N]; [left; exact E|right].
    transitivity (1 / x * (x * y)); [field; exact N|]. rewrite H. ring.
  Qed.

  Lemma kmul_neq0 (x y : K) : x <> 0 -> y <> 0 -> x * y <> 0.
  Proof. intros Hx Hy H. destruct (kmul_integral _ _ H); contradiction. Qed.

  Lemma kofZ_neq0 z : z <> 0%Z -> (kofZ z : K) <> 0.
  Proof. intros Hz H. apply Hz. apply (fl_char0 z H). Qed.
End Laws.

(** Powers and naturals *)
Section Pow.
  Context {K : Type} {o : Ops K}.
  Local Open Scope K_scope.
  Fixpoint kpow (x : K) (n : nat) : K :=
    match n with O => 1 | S n' => x * kpow x n' end.
  Definition kofnat (n : nat) : K := kofZ (Z.of_nat n).
End Pow.

Section PowLaws.
  Context {K : Type} {o : Ops K} {fl : FieldLaws o}.
  Local Open Scope K_scope.
  Add Field Kfield2 : (fl_field (K:=K)).

  Lemma kpow_add (x : K) n m : kpow x (n + m) = kpow x n * kpow x m.
  Proof. induction n as [|n IH]; simpl; [ring|]. rewrite IH. ring. Qed.

  Lemma kpow_mul (x y : K) n : kpow (x * y) n = kpow x n * kpow y n.
  Proof. induction n as [|n IH]; simpl; [ring|]. rewrite IH. ring. Qed.

  Lemma kpow_1 n : kpow (1 : K) n = 1.
  Proof. induction n as [|n IH]; simpl; [reflexivity|]. rewrite IH. ring. Qed.

  Lemma kpow_0 n : n <> O -> kpow (0 : K) n = 0.
  Proof. destruct n; [congruence|]. intros _. simpl. ring. Qed.

  Lemma kpow_neq0 (x : K) n : x <> 0 -> kpow x n <> 0.
  Proof.
    intros Hx. induction n as [|n IH]; simpl; [exact K10|].
    apply kmul_neq0; assumption.
  Qed.

  Lemma kofnat_S n : (kofnat (S n) : K) = kofnat n + 1.
  Proof.
    unfold kofnat. rewrite Nat2Z.inj_succ. unfold Z.succ.
    rewrite fl_ofZadd, fl_ofZ1. reflexivity.
  Qed.

  Lemma kofnat_0 : (kofnat 0 : K) = 0.
  Proof. apply fl_ofZ0. Qed.

  Lemma kofnat_add n m : (kofnat (n + m) : K) = kofnat n + kofnat m.
  Proof. unfold kofnat. rewrite Nat2Z.inj_add. apply fl_ofZadd. Qed.

  Lemma kofnat_mul n m : (kofnat (n * m) : K) = kofnat n * kofnat m.
  Proof. unfold kofnat. rewrite Nat2Z.inj_mul. apply fl_ofZmul. Qed.

  Lemma kofnat_neq0 n : n <> O -> (kofnat n : K) <> 0.
  Proof. intros H. apply kofZ_neq0. lia. Qed.
End PowLaws.
