(** * The polynomials of the results of Taylor model operations (C38 - C42)

    Vocabulary: SpecTaylor.v (expands, real1, dom1), SpecTM.v (tm_apply,
    tm_fits).  Model: TaylorModel.v, TMFunctions.v.  [expands n g f]: the gdual
    [g] holds the Taylor expansion of order [n] of [f].

    Whatever the remainder bounds and the order of iteration, the polynomial of
    a result that is returned is the Taylor expansion of the function computed.
    Properties_TM.v says which remainders are right and which are wrong. *)

From Coq Require Import String List Arith Bool ZArith Reals.
From Verif Require Import Ops Gdual Functions Spec ElemR SpecTaylor Interval TaylorModel TMFunctions SpecTM TMPoly.
Open Scope R_scope.
Notation iterator := (list (string * (R * R)) -> list (string * (R * R))).

(** ** C38 *)
Theorem C38_polynomial :
  forall n A B T f g, expands n (m_tpol A) f -> expands n (m_tpol B) g ->
  (tm_add A B = Ok T -> expands n (m_tpol T) (fun x => f x + g x) /\ get_order (m_tpol T) = Nat.max (get_order (m_tpol A)) (get_order (m_tpol B))) /\
  (tm_sub A B = Ok T -> expands n (m_tpol T) (fun x => f x - g x) /\ get_order (m_tpol T) = Nat.max (get_order (m_tpol A)) (get_order (m_tpol B))).
Proof. exact add_sub_poly. Qed.
Print Assumptions C38_polynomial.
Theorem C38_scalar_polynomial :
  forall n A f c, expands n (m_tpol A) f ->
  (forall T, tm_add_sg c A = Ok T -> expands n (m_tpol T) (fun x => c + f x) /\ get_order (m_tpol T) = get_order (m_tpol A)) /\
  (forall T, tm_add_gs A c = Ok T -> expands n (m_tpol T) (fun x => f x + c) /\ get_order (m_tpol T) = get_order (m_tpol A)) /\
  (forall T, tm_sub_sg c A = Ok T -> expands n (m_tpol T) (fun x => c - f x) /\ get_order (m_tpol T) = get_order (m_tpol A)) /\
  (forall T, tm_sub_gs A c = Ok T -> expands n (m_tpol T) (fun x => f x - c) /\ get_order (m_tpol T) = get_order (m_tpol A)) /\
  (forall T, tm_mul_sg c A = Ok T -> expands n (m_tpol T) (fun x => c * f x) /\ get_order (m_tpol T) = get_order (m_tpol A)) /\
  (forall T, tm_mul_gs A c = Ok T -> expands n (m_tpol T) (fun x => f x * c) /\ get_order (m_tpol T) = get_order (m_tpol A)) /\
  (forall T, tm_neg A = Ok T -> expands n (m_tpol T) (fun x => - f x) /\ get_order (m_tpol T) = get_order (m_tpol A)).
Proof. exact scalar_poly. Qed.
Print Assumptions C38_scalar_polynomial.

(** ** C39 *)
Theorem C39_polynomial :
  forall (iter : iterator) n A B T f g, tm_mul iter A B = Ok T -> (1 <= get_order (m_tpol A) + get_order (m_tpol B))%nat ->
  (Z.of_nat (get_order (m_tpol A)) + Z.of_nat (get_order (m_tpol B)) < 4294967285)%Z ->
  expands n (m_tpol A) f -> expands n (m_tpol B) g ->
  expands n (m_tpol T) (fun x => f x * g x) /\ (get_order (m_tpol T) <= Nat.max (get_order (m_tpol A)) (get_order (m_tpol B)))%nat.
Proof. exact mul_poly. Qed.
Print Assumptions C39_polynomial.

(** ** C40 *)
Theorem C40_polynomial :
  forall (iter : iterator) n A B T f g, tm_div iter A B = Ok T -> (1 <= get_order (m_tpol A) + get_order (m_tpol B))%nat ->
  (Z.of_nat (get_order (m_tpol A)) + Z.of_nat (get_order (m_tpol B)) < 4294967285)%Z ->
  expands n (m_tpol A) f -> expands n (m_tpol B) g -> g center <> 0 ->
  expands n (m_tpol T) (fun x => f x / g x) /\ (get_order (m_tpol T) <= Nat.max (get_order (m_tpol A)) (get_order (m_tpol B)))%nat.
Proof. exact div_poly. Qed.
Print Assumptions C40_polynomial.
Theorem C40_scalar_polynomial :
  forall (iter : iterator) n A T f c, expands n (m_tpol A) f ->
  (tm_div_gs A c = Ok T -> expands n (m_tpol T) (fun x => f x / c)) /\
  (tm_div_sg iter c A = Ok T -> f center <> 0 -> expands n (m_tpol T) (fun x => c / f x) /\ get_order (m_tpol T) = get_order (m_tpol A)).
Proof. exact div_scalar_poly. Qed.
Print Assumptions C40_scalar_polynomial.

(** ** C41 *)
Theorem C41_polynomial :
  forall (iter : iterator) n A T f (z : Z), tm_pow_int iter A z = Ok T -> (1 <= get_order (m_tpol A))%nat -> (2 * Z.of_nat (get_order (m_tpol A)) < 4294967285)%Z ->
  expands n (m_tpol A) f -> ((z < 0)%Z -> f center <> 0) ->
  expands n (m_tpol T) (fun x => powerRZ (f x) z) /\ (get_order (m_tpol T) <= get_order (m_tpol A))%nat.
Proof. exact pow_poly. Qed.
Print Assumptions C41_polynomial.

(** ** C42 *)
Theorem C42_polynomial :
  forall (iv : IvFun R) (iter : iterator) F n A T f, tm_apply iter F A = Ok T ->
  (1 <= get_order (m_tpol A))%nat -> (2 * Z.of_nat (get_order (m_tpol A)) < 4294967285)%Z -> tm_fits F (get_order (m_tpol A)) ->
  expands n (m_tpol A) f -> dom1 F (f center) -> expands n (m_tpol T) (fun x => real1 F (f x)).
Proof. exact @functions_poly. Qed.
Print Assumptions C42_polynomial.
Theorem C42_inv_sqrt_polynomial :
  forall (iv : IvFun R) (iter : iterator) n A T f, tm_inv_sqrt iter A = Ok T -> expands n (m_tpol A) f -> 0 < f center ->
  expands n (m_tpol T) (fun x => / sqrt (f x)).
Proof. exact @inv_sqrt_poly. Qed.
Print Assumptions C42_inv_sqrt_polynomial.

Example C39_polynomial_case : exists (iter : iterator) A T f, tm_mul iter A A = Ok T /\ (1 <= get_order (m_tpol A) + get_order (m_tpol A))%nat /\
  (Z.of_nat (get_order (m_tpol A)) + Z.of_nat (get_order (m_tpol A)) < 4294967285)%Z /\ expands 3 (m_tpol A) f /\ f center <> 0.
Proof. exact mul_case. Qed.
Example C42_polynomial_case : exists (iv : IvFun R) (iter : iterator) A T f, tm_apply iter Fexp A = Ok T /\ (1 <= get_order (m_tpol A))%nat /\
  (2 * Z.of_nat (get_order (m_tpol A)) < 4294967285)%Z /\ tm_fits Fexp (get_order (m_tpol A)) /\ expands 3 (m_tpol A) f /\ dom1 Fexp (f center) /\
  f center <> 0 /\ f (fun _ => 1) <> f center.
Proof. exact poly_case. Qed.
