(** * Property C50: gduals with complex coefficients

    Complex coefficients without rounding (Cplx.v).  [cexpands n g f]
    (SpecCpx.v): g is well formed and f(x) = g(x) + O(|x|^(n+1)) for complex
    displacements x. *)

From Coq Require Import String Ascii Reals Lra Lia List ZArith Bool.
From Coquelicot Require Import Complex.
From Verif Require Import Ops Syms Poly Gdual Functions Spec ElemR Cplx SpecTaylor SpecCpx CoreProofs CTayProofs CTayIdent CEmbed CQuad CProg CQuadId CEqual CSamples CPrincipal.
Import ListNotations.
Open Scope R_scope.
Open Scope string_scope.

(** The concrete case used below: (a + dx) (i + dy) at order 3. *)
Example C50_case : forall a, exists d, cexpands 3 d (fun x => (a + x "dx") * (Ci + x "dy"))%C /\ valid d /\
  get_order d = 3%nat /\ constant_cf d = (a * Ci)%C.
Proof. exact csample. Qed.

(** An expansion determines the coefficients: [cexpands] is not vacuous. *)
Theorem C50_expansion_unique :
  forall n (a b : gdual C) f, valid a -> valid b -> ctaylor_of n a f -> ctaylor_of n b f -> agree n a b.
Proof. exact cexpands_unique. Qed.
Print Assumptions C50_expansion_unique.

Theorem C50_variable :
  forall n m v s g, (n <= m)%nat -> gvar v s m = Ok g -> cexpands n g (fun x => v + x (dsym s))%C.
Proof. exact cexpands_var. Qed.
Print Assumptions C50_variable.
Theorem C50_number : forall n v, cexpands n (gconst v) (fun _ => v).
Proof. exact cexpands_const. Qed.
Print Assumptions C50_number.
Theorem C50_arithmetic :
  forall n (a b : gdual C) f g, cexpands n a f -> cexpands n b g ->
  cexpands n (gadd a b) (fun x => f x + g x)%C /\
  cexpands n (gsub a b) (fun x => f x - g x)%C /\
  cexpands n (gmul a b) (fun x => f x * g x)%C /\
  cexpands n (gneg a) (fun x => - f x)%C /\
  (g ccenter <> RtoC 0 -> cexpands n (gdiv a b) (fun x => f x / g x)%C).
Proof. exact cexpands_arith. Qed.
Print Assumptions C50_arithmetic.
Theorem C50_mixed :
  forall n (a : gdual C) f c, cexpands n a f ->
  cexpands n (gadd_sg c a) (fun x => c + f x)%C /\ cexpands n (gadd_gs a c) (fun x => f x + c)%C /\
  cexpands n (gsub_sg c a) (fun x => c - f x)%C /\ cexpands n (gsub_gs a c) (fun x => f x - c)%C /\
  cexpands n (gmul_sg c a) (fun x => c * f x)%C /\ cexpands n (gmul_gs a c) (fun x => f x * c)%C /\
  cexpands n (gdiv_gs a c) (fun x => f x / c)%C /\
  (f ccenter <> RtoC 0 -> cexpands n (gdiv_sg c a) (fun x => c / f x)%C).
Proof. exact cexpands_scalar. Qed.
Print Assumptions C50_mixed.

(** The laws of C06 and C07 hold of complex coefficients. *)
Theorem C50_ring_laws :
  forall a b c : gdual C, valid a -> valid b -> valid c ->
  get_order a = get_order b -> get_order b = get_order c ->
  geqb (gmul (gmul a b) c) (gmul a (gmul b c)) = true /\
  geqb (gmul a (gadd b c)) (gadd (gmul a b) (gmul a c)) = true.
Proof. exact (@mul_laws C OpsC FieldLawsC). Qed.
Print Assumptions C50_ring_laws.
Theorem C50_division :
  forall a b : gdual C, valid a -> valid b ->
  constant_cf b <> RtoC 0 -> (get_order a <= get_order b)%nat -> geqb (gmul (gdiv a b) b) a = true.
Proof. exact (@div_mul_eq C OpsC FieldLawsC). Qed.
Print Assumptions C50_division.

(** ** Functions *)
(** exp, log (off the slit), sin, cos (order <= 65536), tan, sinh, cosh,
    tanh, atanh. *)
Theorem C50_functions_partial :
  forall f n d u, cexpands n d u -> cdom f (u ccenter) -> cfits1 f (get_order d) ->
  cexpands n (run1 (cfun1 f) d) (fun x => cval f (u x)).
Proof. exact cexpands_fun1. Qed.
Print Assumptions C50_functions_partial.
Example C50_functions_case : cdom Xlog (Ci * Ci + Ci)%C /\ cdom Xatanh Ci /\ cdom Xtan Ci /\ cdom Xtanh (RtoC 1).
Proof. exact cdom_case. Qed.
(** The functions of complex numbers used for the constant coefficient (Cplx.v)
    are inverse functions; sqrt has a nonnegative real part. *)
Theorem C50_inverse_values : forall z : C,
  (Csqrt z * Csqrt z)%C = z /\ 0 <= fst (Csqrt z) /\ (Ccbrt z * Ccbrt z * Ccbrt z)%C = z /\
  Csin (Casin z) = z /\ Ccos (Cacos z) = z /\ Csinh (Casinh z) = z /\ Ccosh (Cacosh z) = z.
Proof.
  exact (fun z => conj (sqrt_square z) (conj (sqrt_right z) (conj (cbrt_cube z) (conj (sin_asin z) (conj (cos_acos z) (conj (sinh_asinh z) (cosh_acosh z))))))).
Qed.
Print Assumptions C50_inverse_values.
Theorem C50_pow_real : forall n d f a, cexpands n d f -> cdompow (f ccenter) a ->
  cexpands n (gpow_real d (RtoC a)) (fun x => Cpower (f x) (RtoC a)).
Proof. exact cexpands_pow_real. Qed.
Print Assumptions C50_pow_real.
Theorem C50_pow_int : forall n d f z, cexpands n d f -> ((z < 0)%Z -> f ccenter <> RtoC 0) ->
  cexpands n (gpow_int d z) (fun x => cpowZ (f x) z).
Proof. exact cexpands_pow_int. Qed.
Print Assumptions C50_pow_int.
Theorem C50_pow_base : forall n d f b, cexpands n d f -> b <> RtoC 0 ->
  cexpands n (gpow_sg b d) (fun x => Cpower b (f x)).
Proof. exact cexpands_pow_sg. Qed.
Print Assumptions C50_pow_base.
Theorem C50_pow : forall n a b f g, cexpands n a f -> cexpands n b g -> slit (f ccenter) ->
  cexpands n (gpow a b) (fun x => Cpower (f x) (g x)).
Proof. exact cexpands_pow. Qed.
Print Assumptions C50_pow.

(** The quadratures atanh_d and atan_d compute the principal branches. *)
Theorem C50_quadratures_partial :
  forall n d u r, cexpands n d u -> (Z.of_nat (get_order d) < 2147483648)%Z ->
  (forall s, In s (psyms (gp d)) -> exists t, s = dsym t) ->
  (slit (RtoC 1 + u ccenter)%C -> slit (RtoC 1 - u ccenter)%C -> gatanh_d d = Ok r ->
   cexpands n r (fun x => (Clog (RtoC 1 + u x) - Clog (RtoC 1 - u x)) / RtoC 2)%C) /\
  (slit (RtoC 1 + Ci * u ccenter)%C -> slit (RtoC 1 - Ci * u ccenter)%C -> gatan_d d = Ok r ->
   cexpands n r (fun x => Ci * (Clog (RtoC 1 - Ci * u x) - Clog (RtoC 1 + Ci * u x)) / RtoC 2)%C).
Proof. exact cexpands_quad. Qed.
Print Assumptions C50_quadratures_partial.
(** [quadD q] is atanh_d or atan_d. *)
Theorem C50_inverse_partial :
  forall q d r, valid d -> (Z.of_nat (get_order d) < 2147483648)%Z ->
  (forall s, In s (psyms (gp d)) -> exists t, s = dsym t) -> cdomq q (constant_cf d) -> runD (quadD q) d = Ok r ->
  match q with
  | Qatanh => geqb r (gatanh d) = true /\ geqb (gtanh r) d = true
  | Qatan => geqb (gtan r) d = true
  end.
Proof. exact c_quad. Qed.
Print Assumptions C50_inverse_partial.
Example C50_quadratures_case : exists d, cexpands 3 d (fun x => (RtoC 1 + Ci + x "dx") * (Ci + x "dy"))%C /\ get_order d = 3%nat /\
  (forall s, In s (psyms (gp d)) -> exists c t, s = dsym (String c t) /\ c <> "d"%char) /\
  (forall q, cdomq q (constant_cf d) /\ exists r, runD (quadD q) d = Ok r).
Proof. exact quad_case. Qed.

(** Every program: it does not throw and its result is the Taylor expansion
    of the function it computes on complex numbers.  [cfits] restricts sin
    and cos to orders up to 65536, atanh_d and atan_d to orders below 2^31. *)
Theorem C50_programs_partial :
  forall point order M n e, (forall s, (n <= order s <= M)%nat) -> cnames_ok order e -> cfits e M -> csmooth e point ->
  exists g, ccalc point order e = Ok g /\ valid g /\ (get_order g <= M)%nat /\
    ctaylor_of n g (fun x => cplx e (fun s => point s + x (dsym s)))%C.
Proof. exact cprogram_taylor. Qed.
Print Assumptions C50_programs_partial.
Definition cprog : cexpr :=
  XDiv (XFun Xsin (XMul (XVar "x") (XFun Xlog (XVar "y")))) (XPow (XVar "y") (XFun Xexp (XNumMul Ci (XVar "x")))).
Example C50_programs_case : exists point, cnames_ok (fun _ => 7%nat) cprog /\ cfits cprog 7 /\ csmooth cprog point.
Proof. exact cprog_case. Qed.
Definition qprog : cexpr := XMul (XQuad Qatan (XVar "x")) (XQuad Qatanh (XNumMul Ci (XVar "y"))).
Example C50_programs_quad_case : exists point, cnames_ok (fun _ => 7%nat) qprog /\ cfits qprog 7 /\ csmooth qprog point.
Proof. exact qprog_case. Qed.

(** Two programs run with variables of order N give equal gduals exactly when
    their functions differ by O(|x|^(N+1)). *)
Theorem C50_equal_programs_partial : forall N point order e f, (forall s, order s = N) ->
  cnames_ok order e -> cnames_ok order f -> cfits e N -> cfits f N -> csmooth e point -> csmooth f point ->
  exists g h, ccalc point order e = Ok g /\ ccalc point order f = Ok h /\
    (geqb g h = true <->
     exists K d, 0 < d /\ 0 <= K /\ forall x r, csmall x r -> r <= d ->
       Cmod (cplx e (fun s => point s + x (dsym s)) - cplx f (fun s => point s + x (dsym s)))%C <= K * r ^ S N).
Proof. exact cequal_programs. Qed.
Print Assumptions C50_equal_programs_partial.
Example C50_equal_case : forall p, exists g h,
  ccalc (fun _ => p) (fun _ => 7%nat) (XMul (XFun Xexp (XVar "x")) (XFun Xexp (XNeg (XVar "x")))) = Ok g /\
  ccalc (fun _ => p) (fun _ => 7%nat) (XNum (RtoC 1)) = Ok h /\ geqb g h = true.
Proof. exact cequal_sample. Qed.

(** ** Identities *)
Theorem C50_euler : forall d, valid d -> (Z.of_nat (get_order d) <= 65536)%Z ->
  geqb (gexp (gmul_sg Ci d)) (gadd (gcos d) (gmul_sg Ci (gsin d))) = true.
Proof. exact c_euler. Qed.
Print Assumptions C50_euler.
Theorem C50_hyperbolic : forall d, valid d -> (Z.of_nat (get_order d) <= 65536)%Z ->
  geqb (gcosh (gmul_sg Ci d)) (gcos d) = true /\ geqb (gsinh (gmul_sg Ci d)) (gmul_sg Ci (gsin d)) = true.
Proof. exact c_hyp_trig. Qed.
Print Assumptions C50_hyperbolic.
Theorem C50_sin_cos : forall d, valid d -> (Z.of_nat (get_order d) <= 65536)%Z ->
  geqb (gadd (gmul (gsin d) (gsin d)) (gmul (gcos d) (gcos d))) (gconst (RtoC 1)) = true.
Proof. exact c_sin_cos_one. Qed.
Print Assumptions C50_sin_cos.
Theorem C50_sinh_cosh : forall d, valid d ->
  geqb (gsub (gmul (gcosh d) (gcosh d)) (gmul (gsinh d) (gsinh d))) (gconst (RtoC 1)) = true.
Proof. exact c_cosh_sinh_one. Qed.
Print Assumptions C50_sinh_cosh.
Theorem C50_exp_add : forall d, valid d -> forall e, valid e -> get_order e = get_order d ->
  geqb (gexp (gadd d e)) (gmul (gexp d) (gexp e)) = true.
Proof. exact c_exp_add. Qed.
Print Assumptions C50_exp_add.
Theorem C50_exp_log : forall d, valid d -> slit (constant_cf d) -> geqb (gexp (glog d)) d = true.
Proof. exact c_exp_log. Qed.
Print Assumptions C50_exp_log.
(** log is the principal branch. *)
Theorem C50_log_exp : forall d, valid d -> - PI < snd (constant_cf d) < PI -> geqb (glog (gexp d)) d = true.
Proof. exact c_log_exp. Qed.
Print Assumptions C50_log_exp.
Theorem C50_log_exp_refuted : exists d : gdual C, valid d /\ constant_cf (glog (gexp d)) <> constant_cf d.
Proof. exact log_exp_other. Qed.
Print Assumptions C50_log_exp_refuted.
Theorem C50_tan : forall d, valid d -> (Z.of_nat (get_order d) <= 65536)%Z -> Ccos (constant_cf d) <> RtoC 0 ->
  geqb (gtan d) (gdiv (gsin d) (gcos d)) = true.
Proof. exact c_tan_quot. Qed.
Print Assumptions C50_tan.
Theorem C50_tanh : forall d, valid d -> Ccosh (constant_cf d) <> RtoC 0 ->
  geqb (gtanh d) (gdiv (gsinh d) (gcosh d)) = true.
Proof. exact c_tanh_quot. Qed.
Print Assumptions C50_tanh.
Theorem C50_tanh_atanh : forall d, valid d -> cdom Xatanh (constant_cf d) -> geqb (gtanh (gatanh d)) d = true.
Proof. exact c_tanh_atanh. Qed.
Print Assumptions C50_tanh_atanh.
Theorem C50_pow_overloads : forall d, valid d -> forall z, ((z <= 0)%Z -> constant_cf d <> RtoC 0) ->
  geqb (gpow_real d (RtoC (IZR z))) (gpow_int d z) = true.
Proof. exact c_pow_overloads. Qed.
Print Assumptions C50_pow_overloads.
Example C50_identities_case : exists d : gdual C, valid d /\ get_order d = 3%nat /\ slit (constant_cf d) /\
  - PI < snd (constant_cf d) < PI /\ Ccos (constant_cf d) <> RtoC 0 /\ snd (constant_cf d) <> 0.
Proof. exact ident_case. Qed.

(** ** Real data *)
(** [cembed] reads a gdual with real coefficients as one with complex
    coefficients.  The results are equal as stored objects. *)
Theorem C50_real_arithmetic : forall a b,
  gadd (cembed a) (cembed b) = cembed (gadd a b) /\ gsub (cembed a) (cembed b) = cembed (gsub a b) /\
  gmul (cembed a) (cembed b) = cembed (gmul a b) /\ gdiv (cembed a) (cembed b) = cembed (gdiv a b) /\
  gneg (cembed a) = cembed (gneg a).
Proof. exact embed_arith. Qed.
Print Assumptions C50_real_arithmetic.
Theorem C50_real_functions : forall f d, dom1 (cfun1 f) (constant_cf d) ->
  run1 (cfun1 f) (cembed d) = cembed (run1 (cfun1 f) d).
Proof. exact embed_fun. Qed.
Print Assumptions C50_real_functions.
Theorem C50_real_pow : forall d a,
  0 < constant_cf d \/ (constant_cf d <> 0 /\ exists m, a = IZR m) \/ (exists k, a = INR (S k)) ->
  gpow_real (cembed d) (RtoC a) = cembed (gpow_real d a).
Proof. exact embed_pow_real. Qed.
Print Assumptions C50_real_pow.
Theorem C50_real_quadratures : forall q d g, domD (quadD q) (constant_cf d) -> runD (quadD q) d = Ok g ->
  runD (quadD q) (cembed d) = Ok (cembed g).
Proof. exact embed_quad. Qed.
Print Assumptions C50_real_quadratures.
Theorem C50_real_calculus : forall d s v,
  gpartial (cembed d) s = match gpartial d s with Ok g => Ok (cembed g) | Throw x => Throw x end /\
  gintegrate (cembed d) s = match gintegrate d s with Ok g => Ok (cembed g) | Throw x => Throw x end /\
  gsubs_val (cembed d) s (RtoC v) = cembed (gsubs_val d s v).
Proof. exact embed_calculus. Qed.
Print Assumptions C50_real_calculus.
(** A program with real coefficients, run with complex ones, gives the same
    result. *)
Theorem C50_real_programs_partial : forall point order M e, (forall s, (order s <= M)%nat) ->
  forall e' g, to_complex e = Some e' -> calc point order e = Ok g -> SpecTaylor.fits e M -> smooth e point ->
  ccalc (fun s => RtoC (point s)) order e' = Ok (cembed g).
Proof. exact embed_program. Qed.
Print Assumptions C50_real_programs_partial.
Definition rprog : expr := Div (Fun1 Fsin (Mul (Var "x") (Fun1 Flog (Var "y")))) (PowReal (Var "y") (1 / 2)).
Example C50_real_programs_case : exists e', to_complex rprog = Some e' /\ SpecTaylor.fits rprog 7 /\ smooth rprog (fun _ => 1).
Proof. exact rprog_case. Qed.
