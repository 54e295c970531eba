(** * Properties C01-C08: structure and arithmetic of gduals

    The statements use the vocabulary of Spec.v.  Theorems without
    [FieldLaws] hold for every coefficient arithmetic, IEEE doubles
    included; those with [FieldLaws] hold for exact field arithmetic. *)

From Coq Require Import String List Arith Bool ZArith QArith Qcanon Floats Sorting.Sorted.
From Verif Require Import Ops Syms Poly Gdual Functions Spec CoefFacts CoreProofs Samples.
Import ListNotations.
Open Scope nat_scope.
Open Scope string_scope.

(** ** C01 *)
Theorem C01_order_never_exceeded :
  forall (K : Type) (o : Ops K) (e : Elem K),
  (forall c : K, keqb c k0 = false -> keqb (kopp c) k0 = false) ->
  forall g : gdual K, reach g -> valid g /\ gdegree g <= get_order g.
Proof. exact @reach_degree. Qed.
Print Assumptions C01_order_never_exceeded.

(** The hypothesis on negation holds for rationals and for IEEE doubles; a
    reachable value with terms in two variables. *)
Example C01_hyp_Qc : forall c : Qc, keqb c k0 = false -> keqb (kopp c) k0 = false.
Proof. exact neg_nz_field. Qed.
Example C01_hyp_float : forall c : float, keqb c k0 = false -> keqb (kopp c) k0 = false.
Proof. exact float_neg_nz. Qed.
Example C01_case : reach xy /\ gdegree xy = 3%nat /\ length (pterms (gp xy)) = 10%nat.
Proof. split; [exact xy_reach|vm_compute; auto]. Qed.

(** ** C02 *)
Theorem C02_order_binary :
  forall (K : Type) (o : Ops K) (e : Elem K) (a b : gdual K), valid a -> valid b ->
  get_order (gadd a b) = Nat.max (get_order a) (get_order b) /\
  get_order (gsub a b) = Nat.max (get_order a) (get_order b) /\
  get_order (gmul a b) = Nat.max (get_order a) (get_order b) /\
  get_order (gdiv a b) = Nat.max (get_order a) (get_order b) /\
  get_order (gpow a b) = Nat.max (get_order a) (get_order b).
Proof. exact @ord_binary. Qed.
Print Assumptions C02_order_binary.

Theorem C02_order_unary :
  forall (K : Type) (o : Ops K) (a : gdual K) (v : K), valid a ->
  get_order (gadd_sg v a) = get_order a /\ get_order (gadd_gs a v) = get_order a /\
  get_order (gsub_sg v a) = get_order a /\ get_order (gsub_gs a v) = get_order a /\
  get_order (gmul_sg v a) = get_order a /\ get_order (gmul_gs a v) = get_order a /\
  get_order (gdiv_sg v a) = get_order a /\ get_order (gdiv_gs a v) = get_order a /\
  get_order (gneg a) = get_order a /\
  (forall s g, gintegrate a s = Ok g -> get_order g = get_order a) /\
  (forall s g, gpartial a s = Ok g -> get_order g = get_order a) /\
  (forall s, get_order (gsubs_val a s v) = get_order a) /\
  (forall s b, get_order (gsubs a s b) = get_order a) /\
  (forall eps g, gtrim a eps = Ok g -> get_order g = get_order a) /\
  (forall l g, extend_symbol_set l a = Ok g -> get_order g = get_order a) /\
  (forall n g, extract_terms a n = Ok g -> get_order g = n).
Proof. exact @ord_unary. Qed.
Print Assumptions C02_order_unary.

Theorem C02_order_functions :
  forall (K : Type) (o : Ops K) (e : Elem K) (f : fun1) (d : gdual K), valid d ->
  get_order (run1 f d) = get_order d.
Proof. exact @run1_ord. Qed.
Print Assumptions C02_order_functions.

(** pow(base, d) keeps the order only when d has a non-constant part. *)
Theorem C02_order_pow_partial :
  forall (K : Type) (o : Ops K) (e : Elem K) (d : gdual K), valid d ->
  (forall alpha, get_order (gpow_real d alpha) = get_order d) /\
  (forall n, get_order (gpow_int d n) = get_order d) /\
  (forall b, gdegree d <> 0%nat -> get_order (gpow_sg b d) = get_order d).
Proof. exact @ord_pow. Qed.
Print Assumptions C02_order_pow_partial.

(** erf and the *_d functions keep it only when there is at least one symbol. *)
Theorem C02_order_quadrature_partial :
  forall (K : Type) (o : Ops K) (e : Elem K) (f : funD) (d g : gdual K), valid d ->
  (forall s, In s (psyms (gp d)) -> exists r, s = dsym r) -> psyms (gp d) <> [] -> runD f d = Ok g ->
  get_symbol_set g = get_symbol_set d /\ get_order g = get_order d.
Proof. exact @runD_sto. Qed.
Print Assumptions C02_order_quadrature_partial.

(** pow(2, x - x) of an order-3 gdual has order 0 and no symbols. *)
Theorem C02_order_pow_scalar_refuted :
  forall e : Elem Qc, exists (b : Qc) (d : gdual Qc), reach d /\
  get_order d = 3%nat /\ get_symbol_set d = ["x"] /\
  get_order (gpow_sg b d) = 0%nat /\ get_symbol_set (gpow_sg b d) = [].
Proof.
  intros e. exists (q 2), (gsub (x2 3) (x2 3)). split.
  - apply reach_sub; apply (reach_var (q 2) "x" 3); vm_compute; reflexivity.
  - split; [reflexivity|]. split; [reflexivity|]. split; reflexivity.
Qed.
Print Assumptions C02_order_pow_scalar_refuted.

(** erf of [x.subs("dx", gdual(1))], an order-3 constant, has order 0. *)
Theorem C02_order_quadrature_refuted :
  forall e : Elem Qc, exists d g : gdual Qc, reach d /\ get_order d = 3%nat /\
  gerf d = Ok g /\ get_order g = 0%nat.
Proof.
  intros e. exists (gsubs (x2 3) "dx" (gconst (q 1))). eexists. split; [|split; [|split]].
  - apply reach_subs; [apply (reach_var (q 2) "x" 3); vm_compute; reflexivity|apply reach_const].
  - reflexivity.
  - unfold gerf, compose_from_derivative.
    replace (get_symbol_set (gsubs (x2 3) "dx" (gconst (q 1)))) with (@nil string) by (vm_compute; reflexivity).
    reflexivity.
  - reflexivity.
Qed.
Print Assumptions C02_order_quadrature_refuted.

Example C02_case : reach xy /\ psyms (gp xy) <> [] /\ gdegree xy <> 0%nat /\
  forall s, In s (psyms (gp xy)) -> exists r, s = dsym r.
Proof.
  split; [exact xy_reach|]. split; [vm_compute; discriminate|]. split; [vm_compute; discriminate|].
  exact (reach_dnames neg_nz_field xy xy_reach).
Qed.

(** ** C03 *)
Theorem C03_symbols_binary :
  forall (K : Type) (o : Ops K) (e : Elem K) (a b : gdual K) (s : string), valid a -> valid b ->
  (In s (get_symbol_set (gadd a b)) <-> In s (get_symbol_set a) \/ In s (get_symbol_set b)) /\
  (In s (get_symbol_set (gsub a b)) <-> In s (get_symbol_set a) \/ In s (get_symbol_set b)) /\
  (In s (get_symbol_set (gmul a b)) <-> In s (get_symbol_set a) \/ In s (get_symbol_set b)) /\
  (In s (get_symbol_set (gdiv a b)) <-> In s (get_symbol_set a) \/ In s (get_symbol_set b)) /\
  (In s (get_symbol_set (gpow a b)) <-> In s (get_symbol_set a) \/ In s (get_symbol_set b)).
Proof. exact @syms_binary. Qed.
Print Assumptions C03_symbols_binary.

(** The public symbol set is strictly sorted (hence duplicate-free) and is
    exactly the internal one without its leading d. *)
Theorem C03_symbols_sorted :
  forall (K : Type) (o : Ops K) (e : Elem K),
  (forall c : K, keqb c k0 = false -> keqb (kopp c) k0 = false) ->
  forall g : gdual K, reach g ->
  StronglySorted (fun a b => String.compare a b = Lt) (get_symbol_set g) /\
  map dsym (get_symbol_set g) = psyms (gp g).
Proof. exact @reach_names. Qed.
Print Assumptions C03_symbols_sorted.

(** At order 0, atan, atanh, asin and acos are excluded (see the refutation). *)
Theorem C03_symbols_functions_partial :
  forall (K : Type) (o : Ops K) (e : Elem K) (f : fun1) (d : gdual K),
  (forall c : K, keqb c k0 = false -> keqb (kopp c) k0 = false) -> valid d ->
  (get_order d <> 0%nat \/ ~ In f [Fatan; Fatanh; Fasin; Facos]) ->
  get_symbol_set (run1 f d) = get_symbol_set d.
Proof. exact @run1_syms. Qed.
Print Assumptions C03_symbols_functions_partial.

Theorem C03_symbols_pow_partial :
  forall (K : Type) (o : Ops K) (e : Elem K) (d : gdual K), valid d ->
  (forall alpha, get_symbol_set (gpow_real d alpha) = get_symbol_set d) /\
  (forall n, get_symbol_set (gpow_int d n) = get_symbol_set d) /\
  (forall b, gdegree d <> 0%nat -> get_symbol_set (gpow_sg b d) = get_symbol_set d).
Proof. exact @pow_syms. Qed.
Print Assumptions C03_symbols_pow_partial.

(** atan of a gdual of order 0 in the variable x has no symbols. *)
Theorem C03_symbols_atan_refuted :
  forall e : Elem Qc, exists d : gdual Qc, reach d /\
  get_symbol_set d = ["x"] /\ get_symbol_set (gatan d) = [] /\ get_symbol_set (gatanh d) = [].
Proof.
  intros e. exists (x2 0). split; [|split; [|split]].
  - apply (reach_var (q 2) "x" 0); vm_compute; reflexivity.
  - reflexivity.
  - reflexivity.
  - reflexivity.
Qed.
Print Assumptions C03_symbols_atan_refuted.

Example C03_case : get_symbol_set (gmul (y3 2) (x2 3)) = ["x"; "y"] /\
  get_symbol_set (gatan (gmul (y3 2) (x2 3))) = ["x"; "y"].
Proof. vm_compute. auto. Qed.

(** ** C04 *)
(** Any arithmetic: each coefficient of a sum is one coefficient addition. *)
Theorem C04_add_stored :
  forall (K : Type) (o : Ops K) (a b : gdual K) (W : list string) (k : key), valid a -> valid b ->
  stored (gadd a b) W k =
  match stored a W k, stored b W k with
  | Some x, Some y => if keqb (kadd x y) k0 then None else Some (kadd x y)
  | Some x, None => Some x
  | None, Some y => Some y
  | None, None => None
  end.
Proof. exact @stored_add. Qed.
Print Assumptions C04_add_stored.

Theorem C04_neg_stored :
  forall (K : Type) (o : Ops K) (a : gdual K) (W : list string) (k : key),
  stored (gneg a) W k = option_map kopp (stored a W k).
Proof. exact @stored_neg. Qed.
Print Assumptions C04_neg_stored.

Theorem C04_add_coef :
  forall (K : Type) (o : Ops K) (fl : FieldLaws o) (a b : gdual K) (W : list string) (k : key),
  valid a -> valid b -> NoDup W -> length k = length W ->
  coef (gadd a b) W k = kadd (coef a W k) (coef b W k) /\
  coef (gsub a b) W k = ksub (coef a W k) (coef b W k) /\
  coef (gneg a) W k = kopp (coef a W k).
Proof. exact @coef_linear. Qed.
Print Assumptions C04_add_coef.

Theorem C04_add_laws :
  forall (K : Type) (o : Ops K) (fl : FieldLaws o) (a b c : gdual K), valid a -> valid b -> valid c ->
  geqb (gadd a b) (gadd b a) = true /\
  geqb (gadd (gadd a b) c) (gadd a (gadd b c)) = true /\
  geqb (gsub a b) (gadd a (gneg b)) = true /\
  geqb (gsub a a) (gconst k0) = true /\
  geqb (gadd a (gconst k0)) a = true.
Proof. exact @add_laws. Qed.
Print Assumptions C04_add_laws.

Example C04_case : coef (gadd xy (x2 3)) ["dx"; "dy"] [1%nat; 0%nat] = qf 46 49 /\
  stored xy ["dy"; "dx"] [1%nat; 1%nat] = Some (coef xy ["dx"; "dy"] [1%nat; 1%nat]) /\ valid xy.
Proof.
  split; [vm_compute; reflexivity|]. split; [vm_compute; reflexivity|].
  exact (reach_valid neg_nz_field xy xy_reach).
Qed.

(** ** C05 *)
Theorem C05_mul_cauchy :
  forall (K : Type) (o : Ops K) (fl : FieldLaws o) (a b : gdual K) (W : list string) (k : key),
  valid a -> valid b -> NoDup W -> length k = length W ->
  coef (gmul a b) W k =
  if Nat.leb (list_sum k) (Nat.max (get_order a) (get_order b))
  then sum_list (fun ij => kmul (coef a W (fst ij)) (coef b W (snd ij))) (splits k)
  else k0.
Proof. exact @coef_mul_all. Qed.
Print Assumptions C05_mul_cauchy.

(** [splits k] lists exactly the pairs of exponent vectors adding up to [k]. *)
Theorem C05_splits_spec :
  forall (k i j : key), In (i, j) (splits k) <->
  (length i = length k /\ length j = length k /\ forall n, (nth n i 0 + nth n j 0 = nth n k 0)%nat).
Proof. exact splits_spec. Qed.
Print Assumptions C05_splits_spec.
Theorem C05_splits_nodup : forall k : key, NoDup (splits k).
Proof. exact splits_NoDup. Qed.
Print Assumptions C05_splits_nodup.

Example C05_case : coef (gmul xy (x2 3)) ["dx"; "dy"] [1%nat; 1%nat] = qf 96 343.
Proof. vm_compute. reflexivity. Qed.

(** ** C06 *)
Theorem C06_ring_laws :
  forall (K : Type) (o : Ops K) (fl : FieldLaws o) (a b c : gdual K), valid a -> valid b -> valid c ->
  get_order a = get_order b -> get_order b = get_order c ->
  geqb (gmul (gmul a b) c) (gmul a (gmul b c)) = true /\
  geqb (gmul a (gadd b c)) (gadd (gmul a b) (gmul a c)) = true.
Proof. exact @mul_laws. Qed.
Print Assumptions C06_ring_laws.

(** Different orders: commutativity and the unit and zero laws hold; associativity and
    distributivity hold up to the smaller of the orders of the inner products. *)
Theorem C06_ring_mixed_orders_partial :
  forall (K : Type) (o : Ops K) (fl : FieldLaws o) (a b c : gdual K), valid a -> valid b -> valid c ->
  geqb (gmul a b) (gmul b a) = true /\
  geqb (gmul a (gconst k1)) a = true /\
  geqb (gmul a (gconst k0)) (gconst k0) = true /\
  agree (Nat.min (Nat.max (get_order a) (get_order b)) (Nat.max (get_order b) (get_order c)))
        (gmul (gmul a b) c) (gmul a (gmul b c)) /\
  agree (Nat.min (Nat.max (get_order a) (get_order b)) (Nat.max (get_order a) (get_order c)))
        (gmul a (gadd b c)) (gadd (gmul a b) (gmul a c)).
Proof. exact @mul_laws_mixed. Qed.
Print Assumptions C06_ring_mixed_orders_partial.

(** (x*x)*y loses x^2 when x has order 1 and y has order 2; x*(x*y) does not. *)
Theorem C06_associativity_mixed_refuted :
  exists a b c : gdual Qc, valid a /\ valid b /\ valid c /\
  geqb (gmul (gmul a b) c) (gmul a (gmul b c)) = false.
Proof. exact assoc_counterexample. Qed.
Print Assumptions C06_associativity_mixed_refuted.
Theorem C06_distributivity_mixed_refuted :
  exists a b c : gdual Qc, valid a /\ valid b /\ valid c /\
  geqb (gmul a (gadd b c)) (gadd (gmul a b) (gmul a c)) = false.
Proof. exact distr_counterexample. Qed.
Print Assumptions C06_distributivity_mixed_refuted.

Example C06_case : valid (x2 3) /\ valid xy /\ get_order (x2 3) = get_order xy /\
  length (pterms (gp (gmul (gmul xy (x2 3)) xy))) = 10%nat.
Proof.
  split; [exact (reach_valid neg_nz_field _ x2_reach)|]. split; [exact (reach_valid neg_nz_field _ xy_reach)|].
  vm_compute. auto.
Qed.

(** ** C07 *)
(** The dividend may have any order; the product gives it back up to the order of the divisor. *)
Theorem C07_div_mul :
  forall (K : Type) (o : Ops K) (fl : FieldLaws o) (a b : gdual K), valid a -> valid b ->
  constant_cf b <> k0 -> agree (get_order b) (gmul (gdiv a b) b) a.
Proof. exact @div_mul. Qed.
Print Assumptions C07_div_mul.
Theorem C07_div_mul_eq :
  forall (K : Type) (o : Ops K) (fl : FieldLaws o) (a b : gdual K), valid a -> valid b ->
  constant_cf b <> k0 -> get_order a <= get_order b -> geqb (gmul (gdiv a b) b) a = true.
Proof. exact @div_mul_eq. Qed.
Print Assumptions C07_div_mul_eq.
Theorem C07_reciprocal_unique :
  forall (K : Type) (o : Ops K) (fl : FieldLaws o) (b : gdual K), valid b -> constant_cf b <> k0 ->
  geqb (gmul (gdiv_sg k1 b) b) (gconst k1) = true /\ get_order (gdiv_sg k1 b) = get_order b /\
  forall c, valid c -> get_order c <= get_order b -> geqb (gmul c b) (gconst k1) = true -> geqb c (gdiv_sg k1 b) = true.
Proof. exact @recip_unique. Qed.
Print Assumptions C07_reciprocal_unique.

(** When the dividend has the larger order, the quotient is wrong above the
    order of the divisor although the result claims the larger order:
    (1 + y) / (1 + x) with orders 2 and 1. *)
Theorem C07_div_larger_order_refuted :
  exists a b : gdual Qc, valid a /\ valid b /\ constant_cf b <> k0 /\
  get_order (gdiv a b) = get_order a /\ ~ agree (get_order a) (gmul (gdiv a b) b) a.
Proof. exact div_counterexample. Qed.
Print Assumptions C07_div_larger_order_refuted.

Example C07_case : valid xy /\ constant_cf xy <> k0 /\ geqb (gmul (gdiv (y3 2) xy) xy) (y3 2) = true.
Proof.
  split; [exact (reach_valid neg_nz_field _ xy_reach)|]. split; [|vm_compute; reflexivity].
  intros E. assert (T : keqb (constant_cf xy) k0 = false) by (vm_compute; reflexivity).
  rewrite E in T. vm_compute in T. discriminate.
Qed.

(** ** C08 *)
Theorem C08_scalar_operations :
  forall (K : Type) (o : Ops K) (fl : FieldLaws o) (v : K) (d : gdual K), valid d ->
  (geqb (gadd_sg v d) (gadd (gconst v) d) = true /\ get_order (gadd_sg v d) = get_order (gadd (gconst v) d)) /\
  (geqb (gadd_gs d v) (gadd d (gconst v)) = true /\ get_order (gadd_gs d v) = get_order (gadd d (gconst v))) /\
  (geqb (gsub_sg v d) (gsub (gconst v) d) = true /\ get_order (gsub_sg v d) = get_order (gsub (gconst v) d)) /\
  (geqb (gsub_gs d v) (gsub d (gconst v)) = true /\ get_order (gsub_gs d v) = get_order (gsub d (gconst v))) /\
  (geqb (gmul_sg v d) (gmul (gconst v) d) = true /\ get_order (gmul_sg v d) = get_order (gmul (gconst v) d)) /\
  (geqb (gmul_gs d v) (gmul d (gconst v)) = true /\ get_order (gmul_gs d v) = get_order (gmul d (gconst v))) /\
  (geqb (gdiv_sg v d) (gdiv (gconst v) d) = true /\ get_order (gdiv_sg v d) = get_order (gdiv (gconst v) d)) /\
  (geqb (gdiv_gs d v) (gdiv d (gconst v)) = true /\ get_order (gdiv_gs d v) = get_order (gdiv d (gconst v))).
Proof. exact @scalar_ops. Qed.
Print Assumptions C08_scalar_operations.

Example C08_case : valid xy /\ length (pterms (gp (gdiv_sg (q 7) xy))) = 9%nat.
Proof. split; [exact (reach_valid neg_nz_field _ xy_reach)|vm_compute; auto]. Qed.
