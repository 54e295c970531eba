(** * Properties of vectorized coefficients (C27 - C29, and C18 for vectors)

    Vocabulary: Spec.v, SpecVec.v.  Model: Vectorized.v.  [operators] lists the
    four arithmetic operators as (operation on numbers, [a op= b], [a op b]). *)

From Coq Require Import String List Arith Bool ZArith QArith Qcanon Reals.
From Verif Require Import Ops Syms Poly Gdual Functions Spec Vectorized SpecVec VecProofs VecNumber VecSamples CompRel.
Import ListNotations.
Open Scope string_scope.
Open Scope nat_scope.

(** ** C27 *)
Theorem C27_operators :
  forall (K : Type) (o : Ops K) (f : K -> K -> K) assign bin (a b : list K),
  (forall x y : K, kadd x y = kadd y x) ->
  In (f, assign, bin) [(kadd, vadd_assign, vadd); (ksub, vsub_assign, vsub); (kmul, vmul_assign, vmul); (kdiv, vdiv_assign, vdiv)] ->
  a <> [] -> b <> [] ->
  (compatible (length a) (length b) -> exists r, assign a b = (r, None) /\ bin a b = Ok r /\ elementwise f a b r) /\
  (~ compatible (length a) (length b) -> assign a b = (a, Some InvalidArgument) /\ bin a b = Throw InvalidArgument).
Proof. exact @operators_spec. Qed.
Print Assumptions C27_operators.
(** Incompatible sizes leave [ret] unchanged, but an exception is thrown only
    when one of the sizes is 1. *)
Theorem C27_fma3_partial :
  forall (K : Type) (o : Ops K) (ret x y : list K), ret <> [] -> x <> [] -> y <> [] ->
  (compatible3 (length ret) (length x) (length y) -> exists r, vfma3 ret x y = (r, None) /\ elementwise3 ret x y r) /\
  (~ compatible3 (length ret) (length x) (length y) -> fst (vfma3 ret x y) = ret /\
     (length ret = 1 \/ length x = 1 \/ length y = 1 -> snd (vfma3 ret x y) = Some InvalidArgument) /\
     (length ret <> 1 -> length x <> 1 -> length y <> 1 -> snd (vfma3 ret x y) = None)).
Proof. exact @fma3_spec. Qed.
Print Assumptions C27_fma3_partial.
(** Sizes 2, 2, 3: nothing is computed and nothing is thrown. *)
Theorem C27_fma3_throws_refuted :
  exists ret x y : list Qc, ret <> [] /\ x <> [] /\ y <> [] /\
  ~ compatible3 (length ret) (length x) (length y) /\ vfma3 ret x y = (ret, None).
Proof. exact fma3_counterexample. Qed.
Print Assumptions C27_fma3_throws_refuted.

Example C27_case : compatible 3 1 /\ compatible 1 3 /\ compatible 3 3 /\ ~ compatible 2 3 /\ compatible3 1 3 1 /\
  exists r, vdiv [q 6] [q 1; q 2; q 3] = Ok r /\ list_eqb r [q 6; q 3; q 2] = true.
Proof.
  unfold compatible, compatible3. repeat split; auto.
  - intros [H|[H|H]]; discriminate.
  - exists 3. auto.
  - eexists. split; [reflexivity|]. vm_compute. reflexivity.
Qed.

(** The constructors refuse the empty vector, which the hypotheses [a <> []]
    above exclude. *)
Theorem C27_constructor :
  forall (K : Type) (o : Ops K) (c : list K),
  (c = [] -> vmake c = Throw InvalidArgument) /\ (c <> [] -> vmake c = Ok c).
Proof. exact make_vec. Qed.
Print Assumptions C27_constructor.
(** Numbers, division by a number and the unary minus. *)
Theorem C27_numbers :
  forall (K : Type) (o : Ops K) (a : list K) (d : K) (i : nat),
  a <> [] -> i < length a ->
  at_ vdefault i = k0 /\ at_ (vnum d) i = d /\
  vdiv a (vnum d) = Ok (vdiv_assign_num a d) /\
  length (vdiv_assign_num a d) = length a /\ at_ (vdiv_assign_num a d) i = kdiv (at_ a i) d /\
  length (vopp a) = length a /\ at_ (vopp a) i = kopp (at_ a i).
Proof. exact vec_numbers. Qed.
Print Assumptions C27_numbers.
Example C27_numbers_case : [q 6; q 4] <> [] /\ 1 < length [q 6; q 4] /\
  list_eqb (vdiv_assign_num [q 6; q 4] (q 2)) [q 3; q 2] = true.
Proof. split; [discriminate|split; [repeat constructor|vm_compute; reflexivity]]. Qed.

Example C27_constructor_case : vmake [q 1; q 2] = Ok [q 1; q 2] /\ vmake ([] : list Qc) = Throw InvalidArgument.
Proof. split; reflexivity. Qed.

(** ** C28 *)
Theorem C28_is_zero :
  forall (K : Type) (o : Ops K) (a : list K), vis_zero a = true <-> forall x, In x a -> keqb x k0 = true.
Proof. exact zero_vec. Qed.
Print Assumptions C28_is_zero.

Example C28_is_zero_case : vis_zero [q 0; q 0] = true /\ vis_zero [q 0; q 1] = false.
Proof. split; reflexivity. Qed.
Theorem C28_eq_spec :
  forall (K : Type) (o : Ops K) (a b : list K), a <> [] -> b <> [] -> (forall x y : K, keqb x y = keqb y x) ->
  (veqb a b = true <-> compatible (length a) (length b) /\
     forall i, i < Nat.max (length a) (length b) -> keqb (nth_of a i) (nth_of b i) = true).
Proof. exact @eq_spec. Qed.
Print Assumptions C28_eq_spec.
Theorem C28_eq_reflexive :
  forall (K : Type) (o : Ops K) (a : list K), (forall x : K, keqb x x = true) -> veqb a a = true.
Proof. exact @veqb_refl. Qed.
Print Assumptions C28_eq_reflexive.
Theorem C28_eq_symmetric :
  forall (K : Type) (o : Ops K) (a b : list K), (forall x y : K, keqb x y = keqb y x) -> veqb a b = veqb b a.
Proof. exact @veqb_sym. Qed.
Print Assumptions C28_eq_symmetric.
(** Missing: transitivity when the outer operands have sizes that cannot be
    compared. *)
Theorem C28_eq_transitive_partial :
  forall (K : Type) (o : Ops K) (a b c : list K), a <> [] -> b <> [] -> c <> [] ->
  (forall x y : K, keqb x y = keqb y x) ->
  (forall x y z : K, keqb x y = true -> keqb y z = true -> keqb x z = true) ->
  compatible (length a) (length c) -> veqb a b = true -> veqb b c = true -> veqb a c = true.
Proof. exact @eq_trans_compat. Qed.
Print Assumptions C28_eq_transitive_partial.
(** (1,1) == 1 and 1 == (1,1,1), but (1,1) != (1,1,1). *)
Theorem C28_eq_transitive_refuted :
  exists a b c : list Qc, a <> [] /\ b <> [] /\ c <> [] /\
  veqb a b = true /\ veqb b c = true /\ veqb a c = false.
Proof. exact eq_trans_counterexample. Qed.
Print Assumptions C28_eq_transitive_refuted.
Theorem C28_neq : forall (K : Type) (o : Ops K) (a b : list K), a <> [] -> b <> [] ->
  (forall x y : K, keqb x y = keqb y x) ->
  (vneqb a b = true <-> ~ (compatible (length a) (length b) /\
     forall i, i < Nat.max (length a) (length b) -> keqb (nth_of a i) (nth_of b i) = true)).
Proof. exact @neq_spec. Qed.
Print Assumptions C28_neq.
Theorem C28_mirror : forall (K : Type) (o : Ops K) (a b : list K), vgtb a b = vltb b a.
Proof. exact @vgtb_vltb. Qed.
Print Assumptions C28_mirror.
(** [<] is lexicographic on equal sizes and componentwise with broadcasting on
    different sizes. *)
Theorem C28_lt_spec : forall (K : Type) (o : Ops K) (a b : list K), a <> [] -> b <> [] ->
  (length a = length b -> (vltb a b = true <-> lexicographic a b)) /\
  (length a <> length b -> (vltb a b = true <-> compatible (length a) (length b) /\
     forall i, i < Nat.max (length a) (length b) -> kltb (nth_of a i) (nth_of b i) = true)).
Proof. exact @lt_spec. Qed.
Print Assumptions C28_lt_spec.
Example C28_case : veqb [q 2] [q 2; q 2; q 2] = true /\ veqb [q 2; q 2; q 1] [q 2] = false /\
  vltb [q 1] [q 2; q 3] = true /\ vltb [q 1; q 5] [q 2; q 3] = true /\ vgtb [q 3; q 4] [q 2] = true.
Proof. vm_compute. auto. Qed.
Example C28_hyp_Qc : (forall x y : Qc, keqb x y = keqb y x) /\ (forall x : Qc, keqb x x = true) /\
  (forall x y z : Qc, keqb x y = true -> keqb y z = true -> keqb x z = true).
Proof. exact keqb_Qc. Qed.

(** ** C29 *)
(** [both N i true a b]: [a] is computed on vectors of N components and [b] by
    the same program on the i-th components.  Missing: abs when the constant
    coefficient has a single component and is negative, trim, pow(number, gdual)
    when only one of the degrees is 0 (all refuted), and the functions that
    compose through a derivative after a substitution has changed the symbols
    (refuted when it left no symbols). *)
Theorem C29_components_partial :
  forall (K : Type) (o : Ops K) (fl : FieldLaws o) (e : Elem K) (N i : nat), i < N ->
  (forall z : K, z <> k0 -> kltb k0 z = negb (kltb z k0)) -> kltb (k0 : K) k0 = false ->
  forall p (a : gdual (vec K N)) (b : gdual K), both N i p a b ->
  (forall W k, NoDup W -> length k = length W -> component N i (coef a W k) = coef b W k) /\
  get_order a = get_order b /\ (p = true -> get_symbol_set a = get_symbol_set b).
Proof. exact @both_coef. Qed.
Print Assumptions C29_components_partial.
(** The same for the functions that return a number. *)
Theorem C29_values_partial :
  forall (K : Type) (o : Ops K) (fl : FieldLaws o) (e : Elem K) (N i : nat), i < N ->
  (forall z : K, z <> k0 -> kltb k0 z = negb (kltb z k0)) -> kltb (k0 : K) k0 = false ->
  forall (a : gdual (vec K N)) (b : gdual K), both N i true a b ->
  component N i (constant_cf a) = constant_cf b /\
  (forall k, same_result N i (find_cf a k) (find_cf b k)) /\
  (forall k, same_result N i (get_derivative a k) (get_derivative b k)) /\
  (forall d, same_result N i (gevaluate a d) (gevaluate b (map (fun q => (fst q, component N i (snd q))) d))).
Proof. exact @both_read. Qed.
Print Assumptions C29_values_partial.
Theorem C29_trim_refuted :
  forall e : Elem Qc, exists (a g : gdual (vec Qc 2)) (b h : gdual Qc), both 2 0 true a b /\
  gtrim a (vec_num (q 2)) = Ok g /\ gtrim b (q 2) = Ok h /\
  component 2 0 (coef g ["dx"] [1]) <> coef h ["dx"] [1].
Proof. exact @trim_counterexample. Qed.
Print Assumptions C29_trim_refuted.
(** 2 ^ ([0, 1] dx): the power of the component 0 has order 0. *)
Theorem C29_pow_refuted :
  forall e : Elem Qc, exists (a : gdual (vec Qc 2)) (b : gdual Qc), both 2 0 true a b /\
  get_order (gpow_sg (vec_num (q 2)) a) = 2 /\ get_order (gpow_sg (q 2) b) = 0.
Proof. exact @pow_counterexample. Qed.
Print Assumptions C29_pow_refuted.
Theorem C29_quadrature_refuted :
  forall e : Elem Qc, exists (a g : gdual (vec Qc 2)) (b h : gdual Qc), both 2 0 false a b /\
  runD Derf a = Ok g /\ runD Derf b = Ok h /\ get_order g = 2 /\ get_order h = 0.
Proof. exact @quad_counterexample. Qed.
Print Assumptions C29_quadrature_refuted.
(** The arithmetic of [vec K N] used by the model is that of vectorized.hpp:
    no operator throws on sizes 1 and N. *)
Theorem C29_no_throw :
  forall (K : Type) (o : Ops K) (N : nat) (a b : vec K N),
  vadd (vl a) (vl b) = Ok (vl (kadd a b)) /\ vsub (vl a) (vl b) = Ok (vl (ksub a b)) /\
  vmul (vl a) (vl b) = Ok (vl (kmul a b)) /\ vdiv (vl a) (vl b) = Ok (vl (kdiv a b)).
Proof. exact @vec_never_throws. Qed.
Print Assumptions C29_no_throw.
Example C29_case : forall e : Elem Qc,
  both 2 1 true (gexp (gdiv va wa)) (gexp (gdiv sa sb)) /\ both 2 1 true (gabs_vec wa) (gabs sb).
Proof.
  intros e. split.
  - apply (both_fun1 2 1 true Fexp); [discriminate|]. apply (both_div 2 1 true true); [exact va_sa|exact wa_sb].
  - apply both_abs; [left; reflexivity|exact wa_sb].
Qed.
Example C29_hyp_Qc : (forall z : Qc, z <> k0 -> kltb k0 z = negb (kltb z k0)) /\ kltb (k0 : Qc) k0 = false.
Proof. exact (conj sign_Qc lt00_Qc). Qed.
Example C29_hyp_R : (forall z : R, z <> k0 -> kltb k0 z = negb (kltb z k0)) /\ kltb (k0 : R) k0 = false.
Proof. exact sign_R. Qed.

(** ** C18 for vectorized coefficients *)
(** Missing: constant coefficients of a single component (refuted below). *)
Theorem C18_vectorized_abs_partial :
  forall (K : Type) (o : Ops K) (fl : FieldLaws o) (N i : nat), i < N ->
  forall d : gdual (vec K N), length (vl (constant_cf d)) = N ->
  get_order (gabs_vec d) = get_order d /\ get_symbol_set (gabs_vec d) = get_symbol_set d /\
  forall W k, component N i (coef (gabs_vec d) W k) =
    if kltb (component N i (constant_cf d)) k0 then kopp (component N i (coef d W k)) else component N i (coef d W k).
Proof. exact @abs_vec_coef. Qed.
Print Assumptions C18_vectorized_abs_partial.
(** abs(-1 + [1,2] dx) is [1,-1] + [-1,2] dx: only component 0 changes sign. *)
Theorem C18_vectorized_abs_refuted :
  forall e : Elem Qc, exists (a : gdual (vec Qc 2)) (b : gdual Qc), both 2 1 true a b /\
  component 2 1 (coef (gabs_vec a) ["dx"] [1]) <> coef (gabs b) ["dx"] [1].
Proof. exact @abs_counterexample. Qed.
Print Assumptions C18_vectorized_abs_refuted.
Example C18_vectorized_case : length (vl (constant_cf wa)) = 2 /\
  component 2 1 (coef (gabs_vec wa) ["dx"] [1]) = q (-2).
Proof. split; [reflexivity|]. apply Qc_is_canon. vm_compute. reflexivity. Qed.
