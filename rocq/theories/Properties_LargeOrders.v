(** * Properties C13, C14, C15, C16, C17 beyond the orders of the positive theorems

    The bounds of [C13_sin_cos_partial] (65536), [C15_atan_partial] and
    [C16_asin_acos] (30) and [C17_quadrature_partial] (2^31 - 1) cannot be
    raised: at every admissible larger order the function of a variable is
    wrong.  tan and tanh, right wherever they return (C14_tan, C14_tanh),
    throw from order 259 on.  An order is admissible
    when the constructor accepts it (below 2^32 - 11, theorem
    C26_constructor). *)
From Coq Require Import String Reals Lra Lia ZArith.
From Verif Require Import Ops Syms Poly Gdual Functions Spec ElemR SpecTaylor QuadLarge TayIdent FunRange.
Open Scope R_scope.
Open Scope string_scope.

(** sin and cos of a variable at v do not hold the expansions of sin and cos
    unless the coefficient concerned happens to vanish; the first wrong
    coefficient is that of degree 65537. *)
Theorem C13_large_orders_refuted : forall v N, (65537 <= Z.of_nat N < 4294967285)%Z -> exists d, gvar v "x" N = Ok d /\
  (cos v <> 0 -> ~ taylor_of (Z.to_nat 65537) (gsin d) (fun x => sin (v + x (dsym "x")))) /\
  (sin v <> 0 -> ~ taylor_of (Z.to_nat 65537) (gcos d) (fun x => cos (v + x (dsym "x")))).
Proof. exact trig_large. Qed.
Print Assumptions C13_large_orders_refuted.
Example C13_large_orders_case : (65537 <= Z.of_nat (Z.to_nat 70000) < 4294967285)%Z /\ cos 1 <> 0 /\ sin 1 <> 0.
Proof.
  split; [lia|]. assert (P := PI2_1). split; apply Rgt_not_eq; [apply cos_gt_0; lra|apply sin_gt_0; lra].
Qed.

(** tan and tanh ask for (order + 1) / 2 + 1 Bernoulli numbers; boost has 130. *)
Theorem C14_range_partial : forall n d u, expands n d u -> (get_order d <= 258)%nat ->
  (cos (u center) <> 0 -> exists t, gtan_call d = Ok t /\ expands n t (fun x => tan (u x))) /\
  (exists t, gtanh_call d = Ok t /\ expands n t (fun x => tanh (u x))).
Proof. exact calls_expand. Qed.
Print Assumptions C14_range_partial.
Theorem C14_large_orders_refuted : forall v N, (259 <= Z.of_nat N < 4294967285)%Z -> exists d : gdual R, gvar v "x" N = Ok d /\
  gtan_call d = Throw OtherException /\ gtanh_call d = Throw OtherException.
Proof. exact var_throws. Qed.
Print Assumptions C14_large_orders_refuted.
Example C14_large_orders_case : (259 <= Z.of_nat 300 < 4294967285)%Z /\
  exists d, expands 3 d (fun x => (0 + x "dx") * (1 + x "dy")) /\ (get_order d <= 258)%nat /\ cos ((0 + 0) * (1 + 0)) <> 0.
Proof.
  split; [lia|]. destruct (sample 0) as (d & H & _ & O & _). exists d. split; auto. rewrite O. split; [lia|].
  replace ((0 + 0) * (1 + 0)) with 0 by ring. rewrite cos_0. lra.
Qed.

(** The first wrong coefficient is that of degree 31. *)
Theorem C15_large_orders_refuted : forall N, (31 <= Z.of_nat N < 4294967285)%Z -> exists d, gvar 1 "x" N = Ok d /\
  ~ taylor_of 31 (gatan d) (fun x => atan (1 + x (dsym "x"))).
Proof. exact atan_large. Qed.
Print Assumptions C15_large_orders_refuted.
Theorem C16_large_orders_refuted : forall N, (31 <= Z.of_nat N < 4294967285)%Z -> exists d, gvar (sin (PI / 4)) "x" N = Ok d /\
  ~ taylor_of 31 (gasin d) (fun x => asin (sin (PI / 4) + x (dsym "x"))) /\
  ~ taylor_of 31 (gacos d) (fun x => acos (sin (PI / 4) + x (dsym "x"))).
Proof. exact asin_large. Qed.
Print Assumptions C16_large_orders_refuted.
Example C15_large_orders_case : (31 <= Z.of_nat 40 < 4294967285)%Z /\ -1 < sin (PI / 4) < 1.
Proof.
  split; [lia|]. assert (P := PI_RGT_0). assert (S := sin_gt_0 (PI/4) ltac:(lra) ltac:(lra)).
  assert (C := cos_gt_0 (PI/4) ltac:(lra) ltac:(lra)). assert (Q := sin2_cos2 (PI/4)). unfold Rsqr in Q. nra.
Qed.

(** The quadratures of a variable return constants there: not even the first
    derivative is right. *)
Theorem C17_large_orders_refuted : forall f v N, (2147483648 <= Z.of_nat N < 4294967285)%Z -> domD f v ->
  exists d r, gvar v "x" N = Ok d /\ runD f d = Ok r /\
    (forall x, value r x = realD f v) /\ ~ taylor_of 1 r (fun x => realD f (v + x (dsym "x"))).
Proof. exact quad_large. Qed.
Print Assumptions C17_large_orders_refuted.
Example C17_large_orders_case : (2147483648 <= Z.of_nat (Z.to_nat 3000000000) < 4294967285)%Z /\ domD Dasin (1/2).
Proof. split; [lia|]. simpl. lra. Qed.
