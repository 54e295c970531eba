(** * Vocabulary of the properties of vectorized coefficients

    [nth_of l i] is the i-th component of a vector, the same for all i when
    the vector has size 1. *)

From Coq Require Import String List Arith Bool ZArith.
From Verif Require Import Ops Syms Poly Gdual Functions Spec Vectorized.
Import ListNotations.

Section SpecVec.
  Context {K : Type} {o : Ops K}.
  Local Open Scope K_scope.

  Definition nth_of (l : list K) (i : nat) : K :=
    match l with [x] => x | _ => nth i l 0 end.
  (** Sizes that can be combined: equal, or one of them 1. *)
  Definition compatible (n m : nat) : Prop := n = m \/ n = 1%nat \/ m = 1%nat.
  (** [r] is the elementwise result of [f] with broadcasting. *)
  Definition elementwise (f : K -> K -> K) (a b r : list K) : Prop :=
    length r = Nat.max (length a) (length b) /\
    forall i, (i < length r)%nat -> nth_of r i = f (nth_of a i) (nth_of b i).
  (** ret + x * y, elementwise with broadcasting; the sizes are 1 or n. *)
  Definition compatible3 (r x y : nat) : Prop :=
    exists n, (r = 1%nat \/ r = n) /\ (x = 1%nat \/ x = n) /\ (y = 1%nat \/ y = n).
  Definition elementwise3 (ret x y r : list K) : Prop :=
    length r = Nat.max (length ret) (Nat.max (length x) (length y)) /\
    forall i, (i < length r)%nat -> nth_of r i = nth_of ret i + nth_of x i * nth_of y i.
  (** lexicographic order of two vectors of the same size *)
  Definition lexicographic (a b : list K) : Prop :=
    exists p x y a' b', a = p ++ x :: a' /\ (exists q, b = q ++ y :: b' /\ length q = length p /\
      forall i, (i < length p)%nat -> (nth i p 0 <? nth i q 0) = false /\ (nth i q 0 <? nth i p 0) = false) /\
      (x <? y) = true.
End SpecVec.

(** ** The same program on vectors and on components

    [both i fl a b]: [a] is computed by a sequence of calls on
    gdual<vectorized> with N components, and [b] by the same sequence on plain
    gduals whose numbers are the i-th components.  [fl] is false once the
    substitution of a gdual has been used: it drops the symbols that occur in
    no term, and a symbol may occur in the vectorized gdual but not in its
    i-th component. *)
Section Both.
  Context {K : Type} {o : Ops K} {e : Elem K}.
  Variables (N i : nat).
  Definition component (v : vec K N) : K := nth_of (vl v) i.
  Notation comp := component.
  Local Open Scope K_scope.

  (** The same outcome: the component of the value, or the same exception. *)
  Definition same_result (r : res (vec K N)) (s : res K) : Prop :=
    match r, s with Ok x, Ok y => comp x = y | Throw u, Throw v => u = v | _, _ => False end.

  Inductive both : bool -> gdual (vec K N) -> gdual K -> Prop :=
  | both_default : both true gdefault gdefault
  | both_const v : both true (gconst v) (gconst (comp v))
  | both_var v s n g g' : gvar v s n = Ok g -> gvar (comp v) s n = Ok g' -> both true g g'
  | both_add p q a a' b b' : both p a a' -> both q b b' -> both (p && q) (gadd a b) (gadd a' b')
  | both_add_sg p v a a' : both p a a' -> both p (gadd_sg v a) (gadd_sg (comp v) a')
  | both_add_gs p v a a' : both p a a' -> both p (gadd_gs a v) (gadd_gs a' (comp v))
  | both_sub p q a a' b b' : both p a a' -> both q b b' -> both (p && q) (gsub a b) (gsub a' b')
  | both_sub_sg p v a a' : both p a a' -> both p (gsub_sg v a) (gsub_sg (comp v) a')
  | both_sub_gs p v a a' : both p a a' -> both p (gsub_gs a v) (gsub_gs a' (comp v))
  | both_neg p a a' : both p a a' -> both p (gneg a) (gneg a')
  | both_mul p q a a' b b' : both p a a' -> both q b b' -> both (p && q) (gmul a b) (gmul a' b')
  | both_mul_sg p v a a' : both p a a' -> both p (gmul_sg v a) (gmul_sg (comp v) a')
  | both_mul_gs p v a a' : both p a a' -> both p (gmul_gs a v) (gmul_gs a' (comp v))
  | both_div p q a a' b b' : both p a a' -> both q b b' -> both (p && q) (gdiv a b) (gdiv a' b')
  | both_div_sg p v a a' : both p a a' -> both p (gdiv_sg v a) (gdiv_sg (comp v) a')
  | both_div_gs p v a a' : both p a a' -> both p (gdiv_gs a v) (gdiv_gs a' (comp v))
  | both_extend p l a a' g g' : both p a a' ->
      extend_symbol_set l a = Ok g -> extend_symbol_set l a' = Ok g' -> both p g g'
  | both_integrate p s a a' g g' : both p a a' -> gintegrate a s = Ok g -> gintegrate a' s = Ok g' -> both p g g'
  | both_partial p s a a' g g' : both p a a' -> gpartial a s = Ok g -> gpartial a' s = Ok g' -> both p g g'
  | both_subs_val p s v a a' : both p a a' -> both p (gsubs_val a s v) (gsubs_val a' s (comp v))
  | both_subs p q s a a' b b' : both p a a' -> both q b b' -> both false (gsubs a s b) (gsubs a' s b')
  | both_extract p n a a' g g' : both p a a' -> extract_terms a n = Ok g -> extract_terms a' n = Ok g' -> both p g g'
  | both_fun1 p f a a' : f <> Fabs -> both p a a' -> both p (run1 f a) (run1 f a')
  | both_funD p f a a' g g' : p = true \/ get_symbol_set a = get_symbol_set a' -> both p a a' ->
      runD f a = Ok g -> runD f a' = Ok g' -> both p g g'
  | both_pow p q a a' b b' : both p a a' -> both q b b' -> both (p && q) (gpow a b) (gpow a' b')
  | both_pow_int p z a a' : both p a a' -> both p (gpow_int a z) (gpow_int a' z)
      (** numeric exponents and bases are numbers, not vectors *)
  | both_pow_real p x a a' : both p a a' -> both p (gpow_real a (vec_num x)) (gpow_real a' x)
  | both_pow_sg p x a a' : (gdegree a = 0%nat <-> gdegree a' = 0%nat) -> both p a a' -> both p (gpow_sg (vec_num x) a) (gpow_sg x a')
  | both_sin_and_cos_1 p a a' : both p a a' -> both p (fst (gsin_and_cos a)) (fst (gsin_and_cos a'))
  | both_sin_and_cos_2 p a a' : both p a a' -> both p (snd (gsin_and_cos a)) (snd (gsin_and_cos a'))
  | both_sinh_and_cosh_1 p a a' : both p a a' -> both p (fst (gsinh_and_cosh a)) (fst (gsinh_and_cosh a'))
  | both_sinh_and_cosh_2 p a a' : both p a a' -> both p (snd (gsinh_and_cosh a)) (snd (gsinh_and_cosh a'))
      (** abs, when the constant coefficient has all its components, or when
          none of the signs has to change *)
  | both_abs p a a' : length (vl (constant_cf a)) = N \/ (comp (constant_cf a) <? 0) = false ->
      both p a a' -> both p (gabs_vec a) (gabs a').
End Both.
