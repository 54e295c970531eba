(** * Specification vocabulary

    Definitions used to state the properties.  They look at a gdual only
    through its symbol set, its list of terms and its order, and do not use
    the algorithms of the model. *)

From Coq Require Import String Ascii List Arith Bool ZArith Sorting.Sorted.
From Verif Require Import Ops Syms Poly Gdual Functions.
Import ListNotations.

Section Spec.
  Context {K : Type} {o : Ops K}.
  Local Open Scope K_scope.

  (** A well-formed gdual: sorted symbol set without repetitions, one exponent
      per symbol in each term, no two terms with the same exponents, no stored
      zero, no term above the truncation order. *)
  Record valid (g : gdual K) : Prop := mkValid {
    valid_sorted : StronglySorted (fun a b => String.compare a b = Lt) (psyms (gp g));
    valid_length : forall t, In t (pterms (gp g)) -> length (fst t) = length (psyms (gp g));
    valid_distinct : NoDup (map fst (pterms (gp g)));
    valid_nonzero : forall t, In t (pterms (gp g)) -> (snd t =? 0) = false;
    valid_order : forall t, In t (pterms (gp g)) -> (list_sum (fst t) <= gord g)%nat
  }.

  (** Two exponent vectors, over possibly different variables, denote the same
      monomial. *)
  Definition same_mono (V : list string) (k : key) (W : list string) (k' : key) : bool :=
    forallb (fun s => Nat.eqb (expo V k s) (expo W k' s)) (V ++ W).

  (** The coefficient in [g] of the monomial with exponents [k] over the
      variables [W]. *)
  Definition coef (g : gdual K) (W : list string) (k : key) : K :=
    fold_right (fun t a => (if same_mono (psyms (gp g)) (fst t) W k then snd t else 0) + a)
               0 (pterms (gp g)).

  (** The stored coefficient of that monomial, if any. *)
  Definition stored (g : gdual K) (W : list string) (k : key) : option K :=
    match find (fun t => same_mono (psyms (gp g)) (fst t) W k) (pterms (gp g)) with
    | Some t => Some (snd t)
    | None => None
    end.

  (** Finite sums. *)
  Definition sum_list {A} (f : A -> K) (l : list A) : K := fold_right (fun x a => f x + a) 0 l.

  (** All ways to write [k] as a sum of two exponent vectors. *)
  Fixpoint splits (k : key) : list (key * key) :=
    match k with
    | [] => [([], [])]
    | e :: k' => flat_map (fun a => map (fun ij => (a :: fst ij, (e - a)%nat :: snd ij)) (splits k'))
                          (seq 0 (S e))
    end.

  (** Exponent vector [k] over [W] with the exponent of [s] increased by one. *)
  Definition incr (W : list string) (k : key) (s : string) : key :=
    map (fun w => (expo W k w + if String.eqb w s then 1 else 0)%nat) W.

  (** The value of the polynomial of [g] at the point [rho]. *)
  Definition mono_at (V : list string) (k : key) (rho : string -> K) : K :=
    fold_right (fun s a => kpow (rho s) (expo V k s) * a) 1 V.
  Definition value (g : gdual K) (rho : string -> K) : K :=
    sum_list (fun t => snd t * mono_at (psyms (gp g)) (fst t) rho) (pterms (gp g)).

  (** The point [rho] with coordinate [s] replaced by [v]. *)
  Definition update (rho : string -> K) (s : string) (v : K) : string -> K :=
    fun t => if String.eqb t s then v else rho t.

  (** Repeated differentiation: [n] times in [s]; in each variable of a list. *)
  Fixpoint partials (g : gdual K) (s : string) (n : nat) : res (gdual K) :=
    match n with
    | O => Ok g
    | S n' => match gpartial g s with Ok r => partials r s n' | Throw x => Throw x end
    end.
  Fixpoint mixed_partial (g : gdual K) (l : list (string * nat)) : res (gdual K) :=
    match l with
    | [] => Ok g
    | (s, n) :: l' => match partials g s n with Ok r => mixed_partial r l' | Throw x => Throw x end
    end.

  (** Two gduals have the same coefficients up to total degree [n]. *)
  Definition agree (n : nat) (a b : gdual K) : Prop :=
    forall W k, NoDup W -> length k = length W -> (list_sum k <= n)%nat -> coef a W k = coef b W k.
  (** ... at every degree *)
  Definition same_coefs (a b : gdual K) : Prop :=
    forall W k, NoDup W -> length k = length W -> coef a W k = coef b W k.
End Spec.

(** ** Everything the public interface can build

    [reach g]: [g] is the result of a finite sequence of calls of the public
    interface of gdual.hpp, functions.hpp and functions_from_d.hpp none of
    which threw. *)
Section Reach.
  Context {K : Type} {o : Ops K} {e : Elem K}.

  Inductive fun1 : Type :=
  | Fexp | Flog | Fsqrt | Fcbrt | Fsin | Fcos | Ftan | Fsinh | Fcosh | Ftanh
  | Fatan | Fatanh | Fasin | Facos | Fasinh | Facosh | Fabs | Ftanq | Ftanhq
  | Flog10 | Flog2 | Flog1p | Fexpm1.
  Definition run1 (f : fun1) (d : gdual K) : gdual K :=
    match f with
    | Fexp => gexp d | Flog => glog d | Fsqrt => gsqrt d | Fcbrt => gcbrt d
    | Fsin => gsin d | Fcos => gcos d | Ftan => gtan d
    | Fsinh => gsinh d | Fcosh => gcosh d | Ftanh => gtanh d
    | Fatan => gatan d | Fatanh => gatanh d | Fasin => gasin d | Facos => gacos d
    | Fasinh => gasinh d | Facosh => gacosh d | Fabs => gabs d
    | Ftanq => gtan_quad d | Ftanhq => gtanh_quad d
    | Flog10 => glog10 d | Flog2 => glog2 d | Flog1p => glog1p d | Fexpm1 => gexpm1 d
    end.
  Inductive funD : Type :=
  | Datanh | Datan | Dasin | Dasinh | Dacos | Dacosh | Derf | Derfc.
  Definition runD (f : funD) (d : gdual K) : res (gdual K) :=
    match f with
    | Datanh => gatanh_d d | Datan => gatan_d d | Dasin => gasin_d d
    | Dasinh => gasinh_d d | Dacos => gacos_d d | Dacosh => gacosh_d d
    | Derf => gerf d | Derfc => gerfc d
    end.

  Inductive reach : gdual K -> Prop :=
  | reach_default : reach gdefault
  | reach_const v : reach (gconst v)
  | reach_var v s n g : gvar v s n = Ok g -> reach g
  | reach_add a b : reach a -> reach b -> reach (gadd a b)
  | reach_add_sg v a : reach a -> reach (gadd_sg v a)
  | reach_add_gs a v : reach a -> reach (gadd_gs a v)
  | reach_sub a b : reach a -> reach b -> reach (gsub a b)
  | reach_sub_sg v a : reach a -> reach (gsub_sg v a)
  | reach_sub_gs a v : reach a -> reach (gsub_gs a v)
  | reach_neg a : reach a -> reach (gneg a)
  | reach_mul a b : reach a -> reach b -> reach (gmul a b)
  | reach_mul_sg v a : reach a -> reach (gmul_sg v a)
  | reach_mul_gs a v : reach a -> reach (gmul_gs a v)
  | reach_div a b : reach a -> reach b -> reach (gdiv a b)
  | reach_div_sg v a : reach a -> reach (gdiv_sg v a)
  | reach_div_gs a v : reach a -> reach (gdiv_gs a v)
  | reach_extend l a g : reach a -> extend_symbol_set l a = Ok g -> reach g
  | reach_integrate a s g : reach a -> gintegrate a s = Ok g -> reach g
  | reach_partial a s g : reach a -> gpartial a s = Ok g -> reach g
  | reach_subs_val a s v : reach a -> reach (gsubs_val a s v)
  | reach_subs a s b : reach a -> reach b -> reach (gsubs a s b)
  | reach_trim a eps g : reach a -> gtrim a eps = Ok g -> reach g
  | reach_extract a n g : reach a -> extract_terms a n = Ok g -> reach g
  | reach_fun1 f a : reach a -> reach (run1 f a)
  | reach_funD f a g : reach a -> runD f a = Ok g -> reach g
  | reach_pow_sg b a : reach a -> reach (gpow_sg b a)
  | reach_pow_real a alpha : reach a -> reach (gpow_real a alpha)
  | reach_pow_int a n : reach a -> reach (gpow_int a n)
  | reach_pow a b : reach a -> reach b -> reach (gpow a b)
  | reach_sin_and_cos_1 a : reach a -> reach (fst (gsin_and_cos a))
  | reach_sin_and_cos_2 a : reach a -> reach (snd (gsin_and_cos a))
  | reach_sinh_and_cosh_1 a : reach a -> reach (fst (gsinh_and_cosh a))
  | reach_sinh_and_cosh_2 a : reach a -> reach (snd (gsinh_and_cosh a)).
End Reach.
