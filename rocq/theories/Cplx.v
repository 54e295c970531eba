(** * Complex coefficients

    [gdual_c = gdual<std::complex<double>>] (include/audi/audi.hpp:51): the
    gdual template and the function templates applied to complex
    coefficients.  The template code is the generic model of Gdual.v and
    Functions.v; this file gives the coefficient operations.  Complex
    numbers are pairs of reals, without rounding (Coquelicot's [C]).

    [kltb] and [e_toint] are used by pow(gdual, double) only
    (include/audi/functions.hpp:168-193), on the real exponent: they read the
    real part.  std::erf does not exist for complex numbers; [e_erf] is never
    used here. *)

From Coq Require Import Reals List ZArith Lra Field.
From Coquelicot Require Import Coquelicot.
From Verif Require Import Ops Functions ElemR.
Import ListNotations.
Open Scope R_scope.

Definition Ceqb (x y : C) : bool := (Reqb (fst x) (fst y) && Reqb (snd x) (snd y))%bool.
Definition CofZ (z : Z) : C := RtoC (IZR z).

(** The operators of std::complex<double>; std::abs of a complex number. *)
#[global] Instance OpsC : Ops C :=
  mkOps C (RtoC 0) (RtoC 1) Cplus Cminus Cmult Copp Cdiv Ceqb (fun x y => Rltb (fst x) (fst y))
        (fun x => RtoC (Cmod x)) CofZ.

Lemma Ceqb_eq x y : Ceqb x y = true <-> x = y.
Proof.
  destruct x as [a b], y as [a' b']. unfold Ceqb, Reqb. cbn [fst snd].
  destruct (Req_EM_T a a'), (Req_EM_T b b'); simpl; split; congruence.
Qed.

#[global] Instance FieldLawsC : FieldLaws OpsC.
Proof.
  constructor.
  - cbn. destruct C_field_theory as [Hr H10 Hd Hi]. constructor; [exact Hr|exact H10| |].
    + intros p q. unfold Cdiv. rewrite Cmult_1_l. reflexivity.
    + intros p Hp. unfold Cdiv. rewrite Cmult_1_l. apply Hi. exact Hp.
  - exact Ceqb_eq.
  - reflexivity.
  - reflexivity.
  - intros a b. cbn. unfold CofZ. rewrite plus_IZR. apply RtoC_plus.
  - intros a b. cbn. unfold CofZ. rewrite mult_IZR. apply RtoC_mult.
  - intros z H. cbn in H. unfold CofZ in H. apply RtoC_inj in H. apply eq_IZR_R0, H.
  - intros z. cbn. unfold CofZ. rewrite Cmod_R, abs_IZR. reflexivity.
Qed.

(** ** The functions of <complex> on single coefficients
    (include/audi/detail/overloads.hpp:95-145), principal values. *)
Definition Cexp (z : C) : C := (exp (fst z) * cos (snd z), exp (fst z) * sin (snd z)).

(** The argument in (-pi, pi] (std::arg). *)
Definition Carg (z : C) : R :=
  if Rlt_dec 0 (fst z) then atan (snd z / fst z)
  else if Rlt_dec 0 (snd z) then PI / 2 - atan (fst z / snd z)
  else if Rlt_dec (snd z) 0 then - (PI / 2) - atan (fst z / snd z)
  else if Rlt_dec (fst z) 0 then PI else 0.
Definition Clog (z : C) : C := (ln (Cmod z), Carg z).
Definition Csqrt (z : C) : C := (sqrt (Cmod z) * cos (Carg z / 2), sqrt (Cmod z) * sin (Carg z / 2)).
(** std::pow: z^w = exp(w log z), and 0^w = 0 but for w = 0. *)
Definition Cpower (z w : C) : C :=
  if Ceqb z (RtoC 0) then (if Ceqb w (RtoC 0) then RtoC 1 else RtoC 0) else Cexp (w * Clog z)%C.
(** overloads.hpp:120-124: std::pow(in, 1. / 3.) *)
Definition Ccbrt (z : C) : C := Cpower z (RtoC (1 / 3)).
Definition Csin (z : C) : C := (sin (fst z) * cosh (snd z), cos (fst z) * sinh (snd z)).
Definition Ccos (z : C) : C := (cos (fst z) * cosh (snd z), - (sin (fst z) * sinh (snd z))).
Definition Csinh (z : C) : C := (sinh (fst z) * cos (snd z), cosh (fst z) * sin (snd z)).
Definition Ccosh (z : C) : C := (cosh (fst z) * cos (snd z), sinh (fst z) * sin (snd z)).
Definition Ctan (z : C) : C := (Csin z / Ccos z)%C.
Definition Ctanh (z : C) : C := (Csinh z / Ccosh z)%C.
Definition Casin (z : C) : C := (- Ci * Clog (Ci * z + Csqrt (RtoC 1 - z * z)))%C.
Definition Cacos (z : C) : C := (RtoC (PI / 2) - Casin z)%C.
Definition Catan (z : C) : C := (Ci / RtoC 2 * (Clog (RtoC 1 - Ci * z) - Clog (RtoC 1 + Ci * z)))%C.
Definition Casinh (z : C) : C := Clog (z + Csqrt (z * z + RtoC 1))%C.
Definition Cacosh (z : C) : C := Clog (z + Csqrt (z + RtoC 1) * Csqrt (z - RtoC 1))%C.
Definition Catanh (z : C) : C := (RtoC (1 / 2) * (Clog (RtoC 1 + z) - Clog (RtoC 1 - z)))%C.

#[global] Instance ElemC : Elem C := {|
  e_exp := Cexp;   e_log := Clog;
  e_sqrt := Csqrt; e_cbrt := Ccbrt;
  e_sin := Csin;   e_cos := Ccos;   e_tan := Ctan;
  e_sinh := Csinh; e_cosh := Ccosh; e_tanh := Ctanh;
  e_asin := Casin; e_acos := Cacos; e_atan := Catan;
  e_asinh := Casinh; e_acosh := Cacosh; e_atanh := Catanh;
  e_erf := fun _ => RtoC 0;
  e_pow := Cpower;
  e_toint := fun z => rtoint (fst z);
  e_pi := RtoC PI;
  e_bern := fun k => RtoC (bernoulli (2 * k))
|}.
