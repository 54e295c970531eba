(** * Properties C09-C18: operators and functions compute Taylor expansions

    Coefficients are real numbers.  [expands n g f] (SpecTaylor.v): g is
    well formed and f(x) = g(x) + O(|x|^(n+1)). *)

From Coq Require Import String Ascii Reals Lra Lia List ZArith Bool.
From Verif Require Import Ops Syms Poly Gdual Functions Spec ElemR CoreProofs SpecTaylor TayProofs TayIdent EqualProg.
Import ListNotations.
Open Scope R_scope.
Open Scope string_scope.

(** The concrete case used below: (a + dx) (1 + dy) at order 3. *)
Example case : forall a, exists d, expands 3 d (fun x => (a + x "dx") * (1 + x "dy")) /\ reach d /\
  get_order d = 3%nat /\ get_symbol_set d = ["x"; "y"] /\ constant_cf d = a.
Proof. exact sample. Qed.

(** An expansion determines the coefficients: [expands] is not vacuous. *)
Theorem C09_expansion_unique :
  forall n (a b : gdual R) f, valid a -> valid b -> taylor_of n a f -> taylor_of n b f -> agree n a b.
Proof. exact expands_unique. Qed.
Print Assumptions C09_expansion_unique.

(** ** C09 *)
Theorem C09_variable :
  forall n m v s g, (n <= m)%nat -> gvar v s m = Ok g -> expands n g (fun x => v + x (dsym s)).
Proof. exact expands_var. Qed.
Print Assumptions C09_variable.
Theorem C09_number : forall n v, expands n (gconst v) (fun _ => v).
Proof. exact expands_const. Qed.
Print Assumptions C09_number.
Theorem C09_arithmetic :
  forall n (a b : gdual R) f g, expands n a f -> expands n b g ->
  expands n (gadd a b) (fun x => f x + g x) /\
  expands n (gsub a b) (fun x => f x - g x) /\
  expands n (gmul a b) (fun x => f x * g x) /\
  expands n (gneg a) (fun x => - f x) /\
  (g center <> 0 -> expands n (gdiv a b) (fun x => f x / g x)).
Proof. exact expands_arith. Qed.
Print Assumptions C09_arithmetic.
Theorem C09_mixed :
  forall n (a : gdual R) f c, expands n a f ->
  expands n (gadd_sg c a) (fun x => c + f x) /\ expands n (gadd_gs a c) (fun x => f x + c) /\
  expands n (gsub_sg c a) (fun x => c - f x) /\ expands n (gsub_gs a c) (fun x => f x - c) /\
  expands n (gmul_sg c a) (fun x => c * f x) /\ expands n (gmul_gs a c) (fun x => f x * c) /\
  expands n (gdiv_gs a c) (fun x => f x / c) /\
  (f center <> 0 -> expands n (gdiv_sg c a) (fun x => c / f x)).
Proof. exact expands_scalar. Qed.
Print Assumptions C09_mixed.
(** Every program built from variables, numbers, operators and functions,
    at a point where all its steps are differentiable: it does not throw and
    its result is the Taylor expansion of the function it computes on real
    numbers.  [fits] is the restriction on sin, cos (order <= 65536), atan,
    asin, acos (order <= 30) and the quadratures (order < 2^31). *)
Theorem C09_programs_partial :
  forall point order M n e, (forall s, (n <= order s <= M)%nat) -> names_ok order e -> fits e M -> smooth e point ->
  exists g, calc point order e = Ok g /\ valid g /\ (get_order g <= M)%nat /\
    taylor_of n g (fun x => real e (fun s => point s + x (dsym s))).
Proof. exact program_taylor. Qed.
Print Assumptions C09_programs_partial.
Definition prog : expr :=
  Div (Fun1 Fsin (Mul (Var "x") (Fun1 Flog (Var "y"))))
      (NumAdd 1 (Pow (Var "y") (FunD Derf (Fun1 Fatan (Var "x"))))).
Example C09_case : exists point, names_ok (fun _ => 7%nat) prog /\ fits prog 7 /\ smooth prog point.
Proof.
  exists (fun _ => 1). split; [|split].
  - unfold prog. cbn [names_ok]. unfold goodv.
    assert (A : forall c, c <> "d"%char -> exists c0 r, String c "" = String c0 r /\ c0 <> "d"%char) by (intros c H; exists c, ""; auto).
    repeat split; try (apply A; discriminate).
  - simpl. repeat split; auto; lia.
  - cbn [smooth prog real dom1 domD]. repeat split; auto; try lra.
    assert (0 < Rpower 1 (realD Derf (real1 Fatan 1))) by apply exp_pos. lra.
Qed.

(** Two programs run with variables of order N give equal gduals exactly when
    the functions they compute on real numbers differ by O(|x|^(N+1)). *)
Theorem C09_equal_programs_partial : forall N point order e f, (forall s, order s = N) ->
  names_ok order e -> names_ok order f -> fits e N -> fits f N -> smooth e point -> smooth f point ->
  exists g h, calc point order e = Ok g /\ calc point order f = Ok h /\
    (geqb g h = true <->
     exists K d, 0 < d /\ 0 <= K /\ forall x r, small x r -> r <= d ->
       Rabs (real e (fun s => point s + x (dsym s)) - real f (fun s => point s + x (dsym s))) <= K * r ^ S N).
Proof. exact equal_programs. Qed.
Print Assumptions C09_equal_programs_partial.
Example C09_equal_case : forall p, exists g h,
  calc (fun _ => p) (fun _ => 7%nat) (Fun1 Fsin (NumMul 2 (Var "x"))) = Ok g /\
  calc (fun _ => p) (fun _ => 7%nat) (NumMul 2 (Mul (Fun1 Fsin (Var "x")) (Fun1 Fcos (Var "x")))) = Ok h /\ geqb g h = true.
Proof. exact equal_sample. Qed.

(** ** C10 *)
Theorem C10_exp : forall n d u, expands n d u -> expands n (gexp d) (fun x => exp (u x)).
Proof. exact (fun n d u H => expands_run1 Fexp n d u H I I). Qed.
Print Assumptions C10_exp.
Theorem C10_log : forall n d u, expands n d u -> 0 < u center -> expands n (glog d) (fun x => ln (u x)).
Proof. exact (fun n d u H D => expands_run1 Flog n d u H D I). Qed.
Print Assumptions C10_log.
Theorem C10_exp_log : forall d, valid d -> 0 < constant_cf d -> geqb (gexp (glog d)) d = true.
Proof. exact exp_log. Qed.
Print Assumptions C10_exp_log.
Theorem C10_log_exp : forall d, valid d -> geqb (glog (gexp d)) d = true.
Proof. exact log_exp. Qed.
Print Assumptions C10_log_exp.
Theorem C10_exp_add : forall d, valid d -> forall e, valid e -> get_order e = get_order d ->
  geqb (gexp (gadd d e)) (gmul (gexp d) (gexp e)) = true.
Proof. exact exp_add. Qed.
Print Assumptions C10_exp_add.
(** The methods log10, log2, log1p, expm1 of the Python class. *)
Theorem C10_python_methods : forall n d u, expands n d u ->
  (0 < u center -> expands n (glog10 d) (fun x => ln (u x) / ln 10)) /\
  (0 < u center -> expands n (glog2 d) (fun x => ln (u x) / ln 2)) /\
  (-1 < u center -> expands n (glog1p d) (fun x => ln (u x + 1))) /\
  expands n (gexpm1 d) (fun x => exp (u x) - 1).
Proof.
  exact (fun n d u H => conj (fun D => expands_run1 Flog10 n d u H D I) (conj (fun D => expands_run1 Flog2 n d u H D I)
    (conj (fun D => expands_run1 Flog1p n d u H D I) (expands_run1 Fexpm1 n d u H I I)))).
Qed.
Print Assumptions C10_python_methods.
Example C10_case : exists d, expands 3 d (fun x => (2 + x "dx") * (1 + x "dy")) /\ 0 < constant_cf d.
Proof. destruct (sample 2) as (d & H & _ & _ & _ & C). exists d. split; auto. rewrite C. lra. Qed.

(** ** C11 *)
(** [rpow] is std::pow; [dompow p a]: p > 0, or p < 0 and a an integer, or a
    a positive integer. *)
Theorem C11_pow_real : forall n d u a, expands n d u -> dompow (u center) a ->
  expands n (gpow_real d a) (fun x => rpow (u x) a).
Proof. exact expands_pow_real. Qed.
Print Assumptions C11_pow_real.
Theorem C11_pow_int : forall n d u z, expands n d u -> ((z < 0)%Z -> u center <> 0) ->
  expands n (gpow_int d z) (fun x => powerRZ (u x) z).
Proof. exact expands_pow_int. Qed.
Print Assumptions C11_pow_int.
Theorem C11_pow_base : forall n d u b, expands n d u -> 0 < b -> expands n (gpow_sg b d) (fun x => Rpower b (u x)).
Proof. exact expands_pow_sg. Qed.
Print Assumptions C11_pow_base.
Theorem C11_pow_gdual : forall n a b f g, expands n a f -> expands n b g -> 0 < f center ->
  expands n (gpow a b) (fun x => Rpower (f x) (g x)).
Proof. exact expands_pow. Qed.
Print Assumptions C11_pow_gdual.
(** Repeated product or quotient against the overload for real exponents
    (the binomial series when z <= 0). *)
Theorem C11_overloads_agree : forall d, valid d -> forall z, ((z <= 0)%Z -> constant_cf d <> 0) ->
  geqb (gpow_real d (IZR z)) (gpow_int d z) = true.
Proof. exact pow_overloads. Qed.
Print Assumptions C11_overloads_agree.
Example C11_case : exists d, expands 3 d (fun x => (-2 + x "dx") * (1 + x "dy")) /\ constant_cf d <> 0 /\
  dompow (constant_cf d) (-3).
Proof.
  destruct (sample (-2)) as (d & H & _ & _ & _ & C). exists d. split; auto. rewrite C. split; [lra|].
  right. left. split; [lra|exists (-3)%Z; reflexivity].
Qed.

(** ** C12 *)
Theorem C12_sqrt : forall n d u, expands n d u -> 0 < u center -> expands n (gsqrt d) (fun x => sqrt (u x)).
Proof. exact (fun n d u H D => expands_run1 Fsqrt n d u H D I). Qed.
Print Assumptions C12_sqrt.
Theorem C12_cbrt : forall n d u, expands n d u -> u center <> 0 -> expands n (gcbrt d) (fun x => cbrt_R (u x)).
Proof. exact (fun n d u H D => expands_run1 Fcbrt n d u H D I). Qed.
Print Assumptions C12_cbrt.
Theorem C12_sqrt_squared : forall d, valid d -> 0 < constant_cf d -> geqb (gmul (gsqrt d) (gsqrt d)) d = true.
Proof. exact sqrt_sqr. Qed.
Print Assumptions C12_sqrt_squared.
Theorem C12_cbrt_cubed : forall d, valid d -> constant_cf d <> 0 ->
  geqb (gmul (gmul (gcbrt d) (gcbrt d)) (gcbrt d)) d = true.
Proof. exact cbrt_cube. Qed.
Print Assumptions C12_cbrt_cubed.
Example C12_case : exists d, valid d /\ get_order d = 3%nat /\ get_symbol_set d = ["x"; "y"] /\ 0 < constant_cf d.
Proof. destruct (sample 2) as (d & H & _ & O & S & C). exists d. split; [apply H|]. repeat split; auto. rewrite C. lra. Qed.

(** ** C13 *)
(** sin and cos: up to order 65536; afterwards the 32-bit product i*(i-1)
    wraps around. *)
Theorem C13_sin_cos_partial : forall n d u, expands n d u -> (Z.of_nat (get_order d) <= 65536)%Z ->
  expands n (gsin d) (fun x => sin (u x)) /\ expands n (gcos d) (fun x => cos (u x)).
Proof. exact (fun n d u H L => conj (expands_run1 Fsin n d u H I L) (expands_run1 Fcos n d u H I L)). Qed.
Print Assumptions C13_sin_cos_partial.
Theorem C13_sinh_cosh : forall n d u, expands n d u ->
  expands n (gsinh d) (fun x => sinh (u x)) /\ expands n (gcosh d) (fun x => cosh (u x)).
Proof. exact (fun n d u H => conj (expands_run1 Fsinh n d u H I I) (expands_run1 Fcosh n d u H I I)). Qed.
Print Assumptions C13_sinh_cosh.
Theorem C13_pairs : forall d : gdual R,
  gsin_and_cos d = (gsin d, gcos d) /\ gsinh_and_cosh d = (gsinh d, gcosh d).
Proof. exact pairs_same. Qed.
Print Assumptions C13_pairs.
Theorem C13_sin2_cos2_partial : forall d, valid d -> (Z.of_nat (get_order d) <= 65536)%Z ->
  geqb (gadd (gmul (gsin d) (gsin d)) (gmul (gcos d) (gcos d))) (gconst 1) = true.
Proof. exact sin_cos_one. Qed.
Print Assumptions C13_sin2_cos2_partial.
Theorem C13_cosh2_sinh2 : forall d, valid d ->
  geqb (gsub (gmul (gcosh d) (gcosh d)) (gmul (gsinh d) (gsinh d))) (gconst 1) = true.
Proof. exact cosh_sinh_one. Qed.
Print Assumptions C13_cosh2_sinh2.

Example C13_case : exists d, expands 3 d (fun x => (-2 + x "dx") * (1 + x "dy")) /\ (Z.of_nat (get_order d) <= 65536)%Z.
Proof. destruct (sample (-2)) as (d & H & _ & O & _). exists d. split; auto. rewrite O. lia. Qed.

(** ** C14 *)
Theorem C14_tan : forall n d u, expands n d u -> cos (u center) <> 0 -> expands n (gtan d) (fun x => tan (u x)).
Proof. exact (fun n d u H D => expands_run1 Ftan n d u H D I). Qed.
Print Assumptions C14_tan.
Theorem C14_tanh : forall n d u, expands n d u -> expands n (gtanh d) (fun x => tanh (u x)).
Proof. exact (fun n d u H => expands_run1 Ftanh n d u H I I). Qed.
Print Assumptions C14_tanh.
Theorem C14_tan_is_quotient_partial : forall d, valid d -> (Z.of_nat (get_order d) <= 65536)%Z ->
  cos (constant_cf d) <> 0 -> geqb (gtan d) (gdiv (gsin d) (gcos d)) = true.
Proof. exact tan_quot. Qed.
Print Assumptions C14_tan_is_quotient_partial.
Theorem C14_tanh_is_quotient : forall d, valid d -> geqb (gtanh d) (gdiv (gsinh d) (gcosh d)) = true.
Proof. exact tanh_quot. Qed.
Print Assumptions C14_tanh_is_quotient.
Theorem C14_bernoulli_table : forall order k, In k (ks order) -> (k < length (bn (K := R) order))%nat.
Proof. exact ks_in_range. Qed.
Print Assumptions C14_bernoulli_table.
Example C14_case : exists d, expands 3 d (fun x => (0 + x "dx") * (1 + x "dy")) /\ cos (constant_cf d) <> 0 /\ In 4%nat (ks 7).
Proof.
  destruct (sample 0) as (d & H & _ & _ & _ & C). exists d. split; auto. rewrite C, cos_0.
  split; [lra|]. unfold ks. simpl. auto.
Qed.

(** ** C15 *)
Theorem C15_atan_partial : forall n d u, expands n d u -> (get_order d <= 30)%nat \/ u center = 0 ->
  expands n (gatan d) (fun x => atan (u x)).
Proof. exact expands_atan0. Qed.
Print Assumptions C15_atan_partial.
Theorem C15_atanh : forall n d u, expands n d u -> -1 < u center < 1 -> expands n (gatanh d) (fun x => atanh_R (u x)).
Proof. exact (fun n d u H D => expands_run1 Fatanh n d u H D I). Qed.
Print Assumptions C15_atanh.
(** At order 31 the binomials of atan overflow 32 bits. *)
Theorem C15_atan_order_31_refuted : exists d : gdual R, gvar 1 "x" 31 = Ok d /\
  ~ taylor_of 31 (gatan d) (fun x => atan (1 + x (dsym "x"))).
Proof. exact atan_refuted. Qed.
Print Assumptions C15_atan_order_31_refuted.
Example C15_case : exists d, expands 3 d (fun x => (1/2 + x "dx") * (1 + x "dy")) /\ (get_order d <= 30)%nat /\
  -1 < constant_cf d < 1.
Proof. destruct (sample (1/2)) as (d & H & _ & O & _ & C). exists d. split; auto. rewrite C, O. split; [lia|lra]. Qed.

(** ** C16 *)
Theorem C16_asin_acos : forall n d u, expands n d u -> -1 < u center < 1 -> (get_order d <= 30)%nat ->
  expands n (gasin d) (fun x => asin (u x)) /\ expands n (gacos d) (fun x => acos (u x)).
Proof. exact (fun n d u H D L => conj (expands_run1 Fasin n d u H D L) (expands_run1 Facos n d u H D L)). Qed.
Print Assumptions C16_asin_acos.
Theorem C16_asinh : forall n d u, expands n d u -> expands n (gasinh d) (fun x => asinh_R (u x)).
Proof. exact (fun n d u H => expands_run1 Fasinh n d u H I I). Qed.
Print Assumptions C16_asinh.
Theorem C16_acosh : forall n d u, expands n d u -> 1 < u center -> expands n (gacosh d) (fun x => acosh_R (u x)).
Proof. exact (fun n d u H D => expands_run1 Facosh n d u H D I). Qed.
Print Assumptions C16_acosh.
Example C16_case : exists d d', expands 3 d (fun x => (1/2 + x "dx") * (1 + x "dy")) /\ (get_order d <= 30)%nat /\
  -1 < constant_cf d < 1 /\ expands 3 d' (fun x => (2 + x "dx") * (1 + x "dy")) /\ 1 < constant_cf d'.
Proof.
  destruct (sample (1/2)) as (d & H & _ & O & _ & C). destruct (sample 2) as (d' & H' & _ & _ & _ & C').
  exists d, d'. rewrite C, C', O. repeat split; try apply H; try apply H'; try lia; lra.
Qed.

(** ** C17 *)
(** The symbols of every gdual a program can build start with d (theorem
    C03_names). *)
Theorem C17_quadrature_partial : forall f n d u r, expands n d u -> domD f (u center) ->
  (Z.of_nat (get_order d) < 2147483648)%Z -> (forall s, In s (psyms (gp d)) -> exists t, s = dsym t) ->
  runD f d = Ok r -> expands n r (fun x => realD f (u x)).
Proof. exact expands_runD. Qed.
Print Assumptions C17_quadrature_partial.
(** The quadrature itself, for any function F with derivative F', any number
    of variables. *)
Theorem C17_compose_partial : forall n d dg u c r (F F' : R -> R), expands n d u ->
  expands (get_order d) dg (fun x => F' (value d x)) -> get_order dg = get_order d -> psyms (gp dg) = psyms (gp d) ->
  (Z.of_nat (get_order d) < 2147483648)%Z -> (forall s, In s (psyms (gp d)) -> exists t, s = dsym t) ->
  (exists e, 0 < e /\ forall y, Rabs (y - u center) <= e -> derivable_pt_lim F y (F' y)) ->
  continuity_pt F' (u center) -> c = F (u center) ->
  compose_from_derivative d dg c = Ok r -> expands n r (fun x => F (u x)).
Proof. exact expands_compose. Qed.
Print Assumptions C17_compose_partial.
Theorem C17_same_as_series : forall d, valid d -> forall fd f g,
  In (fd, f) [(Datanh, Fatanh); (Datan, Fatan); (Dasin, Fasin); (Dasinh, Fasinh); (Dacos, Facos); (Dacosh, Facosh)] ->
  (forall s, In s (psyms (gp d)) -> exists t, s = dsym t) ->
  (Z.of_nat (get_order d) < 2147483648)%Z -> fits1 f (get_order d) -> domD fd (constant_cf d) ->
  runD fd d = Ok g -> geqb g (run1 f d) = true.
Proof. exact quad_same. Qed.
Print Assumptions C17_same_as_series.
Example C17_case : exists d g, expands 3 d (fun x => (1/2 + x "dx") * (1 + x "dy")) /\
  (Z.of_nat (get_order d) < 2147483648)%Z /\ (forall s, In s (psyms (gp d)) -> exists t, s = dsym t) /\
  runD Dasin d = Ok g /\ domD Dasin (constant_cf d).
Proof.
  destruct (sample (1/2)) as (d & H & Rd & O & S & C). destruct (reach_names neg_nz_R d Rd) as [_ M].
  destruct (runD_ok Dasin d (proj1 H)) as [g Eg].
  - intros s Hs. unfold GdualFacts.gsyms in Hs. rewrite <- M, S in Hs. destruct Hs as [<-|[<-|[]]];
      (eexists; eexists; split; [reflexivity|discriminate]).
  - exists d, g. split; auto. rewrite O, C. split; [lia|]. split; [exact (reach_dnames neg_nz_R d Rd)|]. split; auto.
    simpl. lra.
Qed.

(** ** C18 (coefficients of type double) *)
Theorem C18_abs : forall d : gdual R,
  (0 <= constant_cf d -> gabs d = d) /\ (constant_cf d < 0 -> gabs d = gneg d).
Proof. exact abs_spec. Qed.
Print Assumptions C18_abs.
Theorem C18_abs_expands : forall n d f, expands n d f -> f center <> 0 -> expands n (gabs d) (fun x => Rabs (f x)).
Proof. exact expands_abs. Qed.
Print Assumptions C18_abs_expands.
Example C18_case : exists d, expands 3 d (fun x => (-2 + x "dx") * (1 + x "dy")) /\ constant_cf d < 0.
Proof. destruct (sample (-2)) as (d & H & _ & _ & _ & C). exists d. split; auto. rewrite C. lra. Qed.
