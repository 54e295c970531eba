(** * Property C50, continued: conjugate data

    [gconj] conjugates the coefficients of a gdual, [econj] the numbers of a
    program (SpecConj.v).  The results are equal as stored objects. *)

From Coq Require Import String Ascii Reals Lra Lia List ZArith Bool.
From Coquelicot Require Import Complex.
From Verif Require Import Ops Syms Poly Gdual Functions Spec Cplx SpecTaylor SpecCpx SpecConj CProg CConj.
Import ListNotations.
Open Scope R_scope.

Theorem C50_conjugate_arithmetic : forall a b,
  gadd (gconj a) (gconj b) = gconj (gadd a b) /\ gsub (gconj a) (gconj b) = gconj (gsub a b) /\
  gmul (gconj a) (gconj b) = gconj (gmul a b) /\ gdiv (gconj a) (gconj b) = gconj (gdiv a b) /\
  gneg (gconj a) = gconj (gneg a).
Proof. exact conj_garith. Qed.
Print Assumptions C50_conjugate_arithmetic.
Theorem C50_conjugate_functions : forall f d,
  match f with Xlog | Xatanh => cdom f (constant_cf d) | _ => True end ->
  run1 (cfun1 f) (gconj d) = gconj (run1 (cfun1 f) d).
Proof. exact conj_gfun. Qed.
Print Assumptions C50_conjugate_functions.
Theorem C50_conjugate_quadratures : forall q d, cdomq q (constant_cf d) ->
  runD (quadD q) (gconj d) = match runD (quadD q) d with Ok g => Ok (gconj g) | Throw x => Throw x end.
Proof. exact conj_gquad. Qed.
Print Assumptions C50_conjugate_quadratures.
Theorem C50_conjugate_pow : forall d a, cdompow (constant_cf d) a ->
  gpow_real (gconj d) (RtoC a) = gconj (gpow_real d (RtoC a)).
Proof. exact conj_gpow_real. Qed.
Print Assumptions C50_conjugate_pow.
Theorem C50_conjugate_pow_int : forall d z, gpow_int (gconj d) z = gconj (gpow_int d z).
Proof. exact conj_gpow_int. Qed.
Print Assumptions C50_conjugate_pow_int.
Theorem C50_conjugate_calculus : forall d s v,
  gpartial (gconj d) s = match gpartial d s with Ok g => Ok (gconj g) | Throw x => Throw x end /\
  gintegrate (gconj d) s = match gintegrate d s with Ok g => Ok (gconj g) | Throw x => Throw x end /\
  gsubs_val (gconj d) s (cconj v) = gconj (gsubs_val d s v).
Proof. exact conj_gcalculus. Qed.
Print Assumptions C50_conjugate_calculus.
(** The conjugate gdual is the expansion of the reflected function. *)
Theorem C50_conjugate_value : forall g x, value (gconj g) (fun s => cconj (x s)) = cconj (value g x).
Proof. exact conj_value. Qed.
Print Assumptions C50_conjugate_value.
Theorem C50_conjugate_expansion : forall n g f, cexpands n g f ->
  cexpands n (gconj g) (fun x => cconj (f (fun s => cconj (x s)))).
Proof. exact conj_expands. Qed.
Print Assumptions C50_conjugate_expansion.
(** The condition on log is needed: at a negative number log takes the value
    with argument pi, whose conjugate has argument -pi. *)
Theorem C50_conjugate_log_refuted : exists d : gdual C,
  valid d /\ constant_cf d <> RtoC 0 /\ glog (gconj d) <> gconj (glog d).
Proof. exact log_conj_other. Qed.
Print Assumptions C50_conjugate_log_refuted.

(** ** Programs *)
(** A program with conjugate numbers, run at the conjugate point, gives the
    conjugate gdual.  Partial: [cfits] limits the orders with sin, cos,
    atanh_d and atan_d, as in [C50_programs_partial]. *)
Theorem C50_conjugate_programs_partial : forall point order M e, (forall s, (order s <= M)%nat) ->
  cnames_ok order e -> cfits e M -> csmooth e point -> positive_bases e ->
  exists g, ccalc point order e = Ok g /\ ccalc (fun s => cconj (point s)) order (econj e) = Ok (gconj g).
Proof. exact conj_program. Qed.
Print Assumptions C50_conjugate_programs_partial.
Example C50_conjugate_case : cnames_ok (fun _ => 3%nat) conj_prog /\ cfits conj_prog 3 /\
  csmooth conj_prog (fun _ => (2, 1)) /\ positive_bases conj_prog /\ econj conj_prog <> conj_prog.
Proof. exact conj_prog_case. Qed.
(** A program with real numbers, run with complex coefficients at a real
    point, gives real coefficients.  Partial in the same sense. *)
Theorem C50_real_results_partial : forall point order M e, (forall s, (order s <= M)%nat) ->
  cnames_ok order e -> cfits e M -> csmooth e point -> positive_bases e ->
  real_numbers e -> (forall s, snd (point s) = 0) ->
  exists g, ccalc point order e = Ok g /\ real_coefs g.
Proof. exact real_program. Qed.
Print Assumptions C50_real_results_partial.
Example C50_real_results_case : exists e point, cnames_ok (fun _ => 3%nat) e /\ cfits e 3 /\
  csmooth e point /\ positive_bases e /\ real_numbers e /\ (forall s, snd (point s) = 0) /\
  e = XFun Xlog (XNumAdd (RtoC 1) (XPowInt (XVar "x") 2)).
Proof. exact real_prog_case. Qed.
