(** * Properties of Taylor models (C37 - C45)

    Vocabulary: Spec.v, SpecTM.v.  Model: Interval.v, TaylorModel.v,
    TMFunctions.v.  [represents D A f]: the model [A] is in good order and for
    every point of [D], which lies in its domain, [f] differs from the
    polynomial by an element of the remainder.  The scalars are the real
    numbers and interval bounds are exact.

    [iter] is the unspecified iteration order of unordered_map; [iv] are the
    boost interval functions, of which [iv_sound iv] says that they enclose
    the images. *)

From Coq Require Import String List Arith Bool ZArith Reals Lra Lia.
From Verif Require Import Ops Syms Poly Gdual Functions Spec Interval TaylorModel TMFunctions SpecTaylor SpecTM TMMaps TMArith TMMul TMTaylor TMBounds TMPow TMMisc TMSamples TMFlat TMRefute TMExact TMRefute2 TMRefute3 TMRefute4 TMClass TMInst TMGlue TMInterval TMRefute5 TMRefute6 TMProbe TMRoots TMSwap TMAtan TMRem.
Import ListNotations.
Open Scope string_scope.
Open Scope list_scope.
Open Scope R_scope.
Notation iterator := (list (string * (R * R)) -> list (string * (R * R))).

(** ** C37 *)
(** The constructor throws iff its arguments do not fit together. *)
Theorem C37_constructor :
  forall (K : Type) (o : Ops K) (p : gdual K) (r : K * K) (ex : list (string * K)) (dom : list (string * (K * K))),
  distinct_keys ex -> distinct_keys dom ->
  let t := mkTM p (get_order p) (length (psyms (gp p))) r ex dom in
  (consistent t -> tm_make p r ex dom = Ok t) /\ (~ consistent t -> tm_make p r ex dom = Throw InvalidArgument).
Proof. exact make_iff. Qed.
Print Assumptions C37_constructor.
(** A setter leaves the object consistent, or throws and leaves it inconsistent. *)
Theorem C37_setters :
  forall (K : Type) (o : Ops K) (t : taylor_model K) (p : gdual K) (e : list (string * K)) (d : list (string * (K * K))),
  distinct_keys (m_exp t) -> distinct_keys (m_domain t) -> m_ndim t = length (psyms (gp (m_tpol t))) ->
  distinct_keys e -> distinct_keys d ->
  Forall (fun after : taylor_model K * res unit =>
            match snd after with Ok _ => consistent (fst after) | Throw x => x = InvalidArgument /\ ~ consistent (fst after) end)
         [set_tpol p t; set_exp e t; set_dom d t] /\
  m_tpol (fst (set_tpol p t)) = p /\ m_exp (fst (set_exp e t)) = e /\ m_domain (fst (set_dom d t)) = d /\
  m_order (fst (set_tpol p t)) = get_order p.
Proof. exact setters. Qed.
Print Assumptions C37_setters.
(** After set_rem the model represents the functions that differ from the
    polynomial by an element of the new remainder. *)
Theorem C37_set_rem : forall (D : point -> Prop) (t : taylor_model R) (f : point -> R) (rem : R * R), represents D t f ->
  (represents D (set_rem rem t) f <-> forall x, D x -> within rem (f x - value (m_tpol t) (displacement (m_exp t) x))).
Proof. exact set_rem_iff. Qed.
Print Assumptions C37_set_rem.
(** The identity represents the constant function 1 only. *)
Theorem C37_identity_one : forall (D : point -> Prop) (f : point -> R),
  represents D (tm_identity (K := R)) f <-> forall x, D x -> f x = 1%R.
Proof. exact identity_one. Qed.
Print Assumptions C37_identity_one.
Example C37_identity_case : represents (fun _ => True) (tm_identity (K := R)) (fun _ => 1%R) /\
  represents (fun _ => True) (set_rem (-1, 1)%R (tm_identity (K := R))) (fun _ => 1%R).
Proof. exact identity_case. Qed.
(** extend_symbol_set keeps what the model says about the function. *)
Theorem C37_extend_symbol_set :
  forall (l : list string) (e : list (string * R)) (d : list (string * (R * R))) (t : taylor_model R) (D : point -> Prop) (f : point -> R),
  distinct_keys e -> distinct_keys d -> represents D t f ->
  (forall x s I, D x -> In s l -> In (s, I) d -> within I (x s)) ->
  let fits := forall s c I, In s l -> ~ In s (map fst (m_exp t)) -> In (s, c) e -> In (s, I) d -> within I c in
  match tm_extend_symbol_set l e d t with
  | (t', Ok _) => represents D t' f /\ m_rem t' = m_rem t /\
                  (forall s, In s (map fst (m_domain t')) <-> In s (map fst (m_domain t)) \/ In s l) /\ fits /\
                  (forall s, In s l -> In s (map fst e) /\ In s (map fst d))
  | (t', Throw x) => (x = OtherException /\ exists s, In s l /\ (~ In s (map fst e) \/ ~ In s (map fst d))) \/
                     (x = InvalidArgument /\ ~ fits)
  end.
Proof. exact (fun l e d => extend_in e d l). Qed.
Print Assumptions C37_extend_symbol_set.
(** A setter or extend_symbol_set that throws has already changed the object. *)
Theorem C37_after_throw_refuted :
  exists (t : taylor_model R) e t' x, well_formed t /\ distinct_keys e /\ set_exp e t = (t', Throw x) /\ ~ consistent t' /\
    (exists e', e' <> e /\ consistent t /\ set_exp e' t = (t, Ok tt)).
Proof. exact set_exp_spoils. Qed.
Print Assumptions C37_after_throw_refuted.
Theorem C37_extend_after_throw_refuted :
  exists (t : taylor_model R) l e d t' x, well_formed t /\ distinct_keys e /\ distinct_keys d /\
    tm_extend_symbol_set l e d t = (t', Throw x) /\ ~ consistent t'.
Proof. exact extend_spoils. Qed.
Print Assumptions C37_extend_after_throw_refuted.
(** The constructor does not compare names: a polynomial in x is accepted with
    a domain for y. *)
Theorem C37_names_refuted :
  exists (p : gdual R) r ex dom t, valid p /\ distinct_keys ex /\ distinct_keys dom /\ tm_make p r ex dom = Ok t /\ ~ well_formed t.
Proof. exact names_unchecked. Qed.
Print Assumptions C37_names_refuted.
(** identity(rem, exp, domain) is not checked. *)
Theorem C37_identity_refuted :
  exists (rem : R * R) ex dom, distinct_keys ex /\ distinct_keys dom /\ ~ consistent (tm_identity_with (K:=R) rem ex dom) /\
    (forall s, In s (map fst ex) <-> In s (map fst dom)) /\ (forall s c I, In (s, c) ex -> In (s, I) dom -> within I c).
Proof. exact identity_spoils. Qed.
Print Assumptions C37_identity_refuted.
(** The default constructor leaves the number of variables uninitialised. *)
Theorem C37_default_invalid :
  forall (K : Type) (o : Ops K) (garbage : nat), garbage <> 0%nat -> check_input_validity (tm_default (K:=K) garbage) = Throw InvalidArgument.
Proof. exact @default_invalid. Qed.
Print Assumptions C37_default_invalid.
Example C37_case : well_formed (var 1 1 (0, 0) (0, 2)) /\ consistent (var 1 1 (0, 0) (0, 2)) /\ represents (on (0, 2)) (var 1 1 (0, 0) (0, 2)) (fun x => x "x").
Proof.
  assert (W : well_formed (var 1 1 (0, 0) (0, 2))) by (apply wf_var; try lra; try lia; unfold within; cbn; lra).
  split; auto. split; [apply well_formed_consistent; auto|]. apply var_represents; try lra; try lia; unfold within; cbn; lra.
Qed.

(** ** C38 *)
(** Addition and subtraction of two models: defined iff the shared variables
    are expanded at points and lie in intervals which agree up to ten machine
    epsilons.  Missing: shared expansion points that are merely close. *)
Theorem C38_add_partial :
  forall A B : taylor_model R, well_formed A -> well_formed B ->
  (close_centers A B /\ close_domains A B -> exists T, tm_add A B = Ok T) /\
  (~ (close_centers A B /\ close_domains A B) -> tm_add A B = Throw RuntimeError) /\
  (forall T (D : point -> Prop) f g, tm_add A B = Ok T -> same_centers A B -> encloses D A f -> encloses D B g ->
     represents D T (fun x => f x + g x)).
Proof. exact tm_add_cases. Qed.
Print Assumptions C38_add_partial.
Theorem C38_sub_partial :
  forall A B : taylor_model R, well_formed A -> well_formed B ->
  (close_centers A B /\ close_domains A B -> exists T, tm_sub A B = Ok T) /\
  (~ (close_centers A B /\ close_domains A B) -> tm_sub A B = Throw RuntimeError) /\
  (forall T (D : point -> Prop) f g, tm_sub A B = Ok T -> same_centers A B -> encloses D A f -> encloses D B g ->
     represents D T (fun x => f x - g x)).
Proof. exact tm_sub_cases. Qed.
Print Assumptions C38_sub_partial.
Theorem C38_close_centers_refuted :
  exists (D : point -> Prop) A B f g T, (exists x, D x) /\ represents D A f /\ represents D B g /\
    tm_add A B = Ok T /\ ~ encloses D T (fun x => f x + g x).
Proof. exact add_centers_wrong. Qed.
Print Assumptions C38_close_centers_refuted.
(** With a number or an interval on either side. *)
Theorem C38_scalars :
  forall (A : taylor_model R) (D : point -> Prop) f (c : R), represents D A f ->
  (exists T, tm_add_sg c A = Ok T /\ represents D T (fun x => c + f x)) /\
  (exists T, tm_add_gs A c = Ok T /\ represents D T (fun x => f x + c)) /\
  (exists T, tm_sub_gs A c = Ok T /\ represents D T (fun x => f x - c)).
Proof. exact add_scalars. Qed.
Print Assumptions C38_scalars.
Theorem C38_intervals :
  forall (A : taylor_model R) (D : point -> Prop) f (I : R * R) (h : point -> R), represents D A f -> (forall x, D x -> within I (h x)) ->
  (exists T, tm_add_ig I A = Ok T /\ represents D T (fun x => h x + f x)) /\
  (exists T, tm_add_gi A I = Ok T /\ represents D T (fun x => f x + h x)) /\
  (exists T, tm_sub_gi A I = Ok T /\ represents D T (fun x => f x - h x)).
Proof. exact add_intervals. Qed.
Print Assumptions C38_intervals.
(** number - A and -A keep the remainder as it is: right if it is symmetric. *)
Theorem C38_negation_partial :
  forall (A : taylor_model R) (D : point -> Prop) f (c : R), represents D A f -> fst (m_rem A) = - snd (m_rem A) ->
  (exists T, tm_sub_sg c A = Ok T /\ represents D T (fun x => c - f x)) /\
  (exists T, tm_neg A = Ok T /\ represents D T (fun x => - f x)).
Proof. exact negations. Qed.
Print Assumptions C38_negation_partial.
(** ... and only then: for every other (nonempty) remainder some enclosure is
    lost. *)
Theorem C38_negation_iff :
  forall (A : taylor_model R), well_formed A -> fst (m_rem A) <= snd (m_rem A) ->
  (forall c : R, fst (m_rem A) = - snd (m_rem A) <->
     forall (D : point -> Prop) f, represents D A f -> exists T, tm_sub_sg c A = Ok T /\ represents D T (fun x => c - f x)) /\
  (fst (m_rem A) = - snd (m_rem A) <->
     forall (D : point -> Prop) f, represents D A f -> exists T, tm_neg A = Ok T /\ represents D T (fun x => - f x)).
Proof. exact (fun A W N => conj (fun c => sub_sg_iff A c W N) (neg_iff A W N)). Qed.
Print Assumptions C38_negation_iff.
Theorem C38_number_minus_refuted :
  forall c : R, exists (D : point -> Prop) A f T, represents D A f /\ tm_sub_sg c A = Ok T /\ ~ encloses D T (fun x => c - f x).
Proof. exact sub_sg_wrong. Qed.
Print Assumptions C38_number_minus_refuted.
Theorem C38_negation_refuted :
  exists (D : point -> Prop) A f T, represents D A f /\ tm_neg A = Ok T /\ ~ encloses D T (fun x => - f x).
Proof. exact neg_wrong. Qed.
Print Assumptions C38_negation_refuted.
(** interval - A does not change the sign of the polynomial. *)
Theorem C38_interval_minus_refuted :
  exists (D : point -> Prop) A f I h T, represents D A f /\ (forall x, D x -> within I (h x)) /\
    tm_sub_ig I A = Ok T /\ ~ encloses D T (fun x => h x - f x).
Proof. exact sub_ig_wrong. Qed.
Print Assumptions C38_interval_minus_refuted.
Example C38_case : exists D A f T, represents D A f /\ fst (m_rem A) = - snd (m_rem A) /\ same_centers A A /\ tm_add A A = Ok T /\ psyms (gp (m_tpol A)) <> [] /\ D (at_x 1).
Proof.
  set (A := var 1 1 (-1, 1) (0, 2)). assert (RA : represents (on (0, 2)) A (fun x => x "x")) by (apply var_represents; try lra; try lia; unfold within; cbn; lra).
  destruct (proj1 (tm_add_cases A A (proj1 RA) (proj1 RA))) as [T E].
  - split; [|apply close_domains_refl, RA]. intros s c c' H H'. rewrite (same_centers_refl A (proj1 RA) s c c' H H'). apply close_refl.
  - exists (on (0, 2)), A, (fun x => x "x"), T. split; auto. split; [cbn; lra|]. split; [apply same_centers_refl, RA|]. split; auto. split; [discriminate|].
    unfold on, within, at_x. cbn. lra.
Qed.

(** ** C39 *)
(** Missing: a factor with zero polynomial and nonzero remainder, two factors
    of order 0, truncated terms all of which are below 10^-16 in modulus,
    orders whose sum is above 62, iteration orders that are not those of
    insertion.  Each is a refutation below. *)
Theorem C39_mul_partial :
  forall (iter : iterator) (A B : taylor_model R) (D : point -> Prop) f g,
  represents D A f -> represents D B g -> same_centers A B -> close_domains A B ->
  nonzero (m_tpol A) -> nonzero (m_tpol B) -> (1 <= get_order (m_tpol A) + get_order (m_tpol B) <= 62)%nat ->
  truncation_seen (m_tpol A) (m_tpol B) -> permutes iter -> ordered_on iter (variables A ++ variables B) ->
  exists T, tm_mul iter A B = Ok T /\ represents D T (fun x => f x * g x).
Proof. exact tm_mul_ok. Qed.
Print Assumptions C39_mul_partial.
(** The polynomial of the product is the truncated product. *)
Theorem C39_mul_polynomial_partial :
  forall (iter : iterator) (A B : taylor_model R), well_formed A -> well_formed B -> same_centers A B -> close_domains A B ->
  nonzero (m_tpol A) -> nonzero (m_tpol B) -> (1 <= get_order (m_tpol A) + get_order (m_tpol B) <= 62)%nat ->
  permutes iter -> ordered_on iter (variables A ++ variables B) ->
  exists T, tm_mul iter A B = Ok T /\ well_formed T /\ get_order (m_tpol T) = Nat.max (get_order (m_tpol A)) (get_order (m_tpol B)) /\
    forall W k, NoDup W -> length k = length W ->
      coef (m_tpol T) W k = if (list_sum k <=? Nat.max (get_order (m_tpol A)) (get_order (m_tpol B)))%nat then product_coef (m_tpol A) (m_tpol B) W k else 0.
Proof. exact mul_polynomial. Qed.
Print Assumptions C39_mul_polynomial_partial.
(** If one of the polynomials is zero, the result is the exact 0. *)
Theorem C39_mul_zero :
  forall (iter : iterator) (A B : taylor_model R) (D : point -> Prop) f g, well_formed A -> well_formed B ->
  ~ nonzero (m_tpol A) \/ ~ nonzero (m_tpol B) ->
  (exists T, tm_mul iter A B = Ok T /\ represents D T (fun x => f x * g x)) <-> forall x, D x -> f x * g x = 0.
Proof. exact tm_mul_zero_only. Qed.
Print Assumptions C39_mul_zero.
Theorem C39_zero_refuted :
  forall iter : iterator, exists (D : point -> Prop) A B f g T, represents D A f /\ represents D B g /\ same_centers A B /\ close_domains A B /\
    tm_mul iter A B = Ok T /\ ~ encloses D T (fun x => f x * g x).
Proof. exact mul_zero_wrong. Qed.
Print Assumptions C39_zero_refuted.
(** The product of two exact constants of order 0 is 0. *)
Theorem C39_order_zero_refuted :
  forall iter : iterator, permutes iter -> exists (D : point -> Prop) A B f g T, represents D A f /\ represents D B g /\ same_centers A B /\ close_domains A B /\
    nonzero (m_tpol A) /\ nonzero (m_tpol B) /\ truncation_seen (m_tpol A) (m_tpol B) /\ m_rem A = (0, 0) /\ m_rem B = (0, 0) /\
    tm_mul iter A B = Ok T /\ ~ encloses D T (fun x => f x * g x).
Proof. exact mul_order_zero_wrong. Qed.
Print Assumptions C39_order_zero_refuted.
Theorem C39_tolerance_refuted :
  forall iter : iterator, permutes iter -> ordered_on iter ["x"] -> exists (D : point -> Prop) A f T, represents D A f /\
    nonzero (m_tpol A) /\ (1 <= get_order (m_tpol A))%nat /\ m_rem A = (0, 0) /\ tm_mul iter A A = Ok T /\ ~ encloses D T (fun x => f x * f x).
Proof. exact mul_tolerance_wrong. Qed.
Print Assumptions C39_tolerance_refuted.
(** The 64-bit binomial coefficients of degree 63 overflow. *)
Theorem C39_order_63_refuted :
  forall iter : iterator, permutes iter -> exists (D : point -> Prop) A B f g T, represents D A f /\ represents D B g /\ same_centers A B /\ close_domains A B /\
    nonzero (m_tpol A) /\ nonzero (m_tpol B) /\ (get_order (m_tpol A) + get_order (m_tpol B) = 63)%nat /\
    truncation_seen (m_tpol A) (m_tpol B) /\ variables A = ["x"] /\ variables B = ["x"] /\ tm_mul iter A B = Ok T /\ ~ encloses D T (fun x => f x * g x).
Proof. exact mul_63_wrong. Qed.
Print Assumptions C39_order_63_refuted.
(** Iterating over the variables in another order mixes up their intervals. *)
Theorem C39_iteration_order_refuted :
  exists iter : iterator, permutes iter /\ exists (D : point -> Prop) A B f g T, represents D A f /\ represents D B g /\ same_centers A B /\ close_domains A B /\
    nonzero (m_tpol A) /\ nonzero (m_tpol B) /\ (1 <= get_order (m_tpol A) + get_order (m_tpol B) <= 62)%nat /\
    truncation_seen (m_tpol A) (m_tpol B) /\ tm_mul iter A B = Ok T /\ ~ encloses D T (fun x => f x * g x).
Proof. exact mul_reversed_wrong. Qed.
Print Assumptions C39_iteration_order_refuted.
Theorem C39_scalars :
  forall (A : taylor_model R) (D : point -> Prop) f (c : R), represents D A f ->
  (exists T, tm_mul_sg c A = Ok T /\ represents D T (fun x => c * f x)) /\
  (exists T, tm_mul_gs A c = Ok T /\ represents D T (fun x => f x * c)).
Proof. exact mul_scalars. Qed.
Print Assumptions C39_scalars.
(** interval * A throws if A has a variable; otherwise it can be wrong.
    A * interval throws unless A has exactly one variable. *)
Theorem C39_intervals_throw :
  forall (iter : iterator) (I : R * R) (A : taylor_model R), well_formed A ->
  (psyms (gp (m_tpol A)) <> [] -> tm_mul_ig iter I A = Throw InvalidArgument) /\
  (length (psyms (gp (m_tpol A))) <> 1%nat -> tm_mul_gi iter A I = Throw InvalidArgument).
Proof. exact mul_intervals. Qed.
Print Assumptions C39_intervals_throw.
Theorem C39_interval_refuted :
  forall iter : iterator, permutes iter -> exists (D : point -> Prop) A f I h T, represents D A f /\ (forall x, D x -> within I (h x)) /\
    tm_mul_ig iter I A = Ok T /\ ~ encloses D T (fun x => h x * f x).
Proof. exact mul_ig_wrong. Qed.
Print Assumptions C39_interval_refuted.
(** A * interval, A with one variable.  The code multiplies by the model
    1 + interval of a variable "x": the result encloses f (1 + h). *)
Theorem C39_times_interval :
  forall (iter : iterator) (A : taylor_model R) (I : R * R) (D : point -> Prop) f h, variables A = ["x"] -> represents D A f ->
  (forall x, D x -> within I (h x)) -> nonzero (m_tpol A) -> (1 <= get_order (m_tpol A) <= 62)%nat -> permutes iter ->
  exists T, tm_mul_gi iter A I = Ok T /\ tm_div_gi iter A I = Ok T /\ represents D T (fun x => f x * (1 + h x)).
Proof. exact interval_right. Qed.
Print Assumptions C39_times_interval.
(** It need not enclose f h.  For a variable of another name there is no
    result; a zero polynomial gives the exact 0, whatever its remainder. *)
Theorem C39_times_interval_refuted :
  forall iter : iterator, permutes iter -> exists (D : point -> Prop) A f I h T, represents D A f /\ variables A = ["x"] /\ m_rem A = (0, 0) /\
    (1 <= get_order (m_tpol A) <= 62)%nat /\ (forall x, D x -> within I (h x)) /\ tm_mul_gi iter A I = Ok T /\ ~ encloses D T (fun x => f x * h x).
Proof. exact mul_gi_wrong. Qed.
Print Assumptions C39_times_interval_refuted.
Theorem C39_times_interval_names :
  forall (iter : iterator) (A : taylor_model R) (I : R * R) s T, well_formed A -> variables A = [s] ->
  (s <> "x" -> nonzero (m_tpol A) -> tm_mul_gi iter A I <> Ok T /\ tm_div_gi iter A I <> Ok T) /\
  (~ nonzero (m_tpol A) -> tm_mul_gi iter A I = Ok (tm_const 0) /\ tm_div_gi iter A I = Ok (tm_const 0)).
Proof. exact interval_other. Qed.
Print Assumptions C39_times_interval_names.
Example C39_times_interval_case : exists T,
  tm_mul_gi (fun l => l) (var 1 2 (-1, 1) (1, 3)) (0, 5) = Ok T /\ represents (on (1, 3)) T (fun x => x "x" * (1 + x "x" * x "x" / 2)).
Proof.
  destruct (C39_times_interval (fun l => l) (var 1 2 (-1, 1) (1, 3)) (0, 5) (on (1, 3)) (fun x => x "x") (fun x => x "x" * x "x" / 2)) as (T & E & _ & RT); eauto.
  - apply var_represents; try lra; try lia; unfold within; cbn; lra.
  - unfold on, within. cbn. intros x [L U]. nra.
  - apply var_nonzero.
  - cbn. lia.
  - intros l. apply Permutation.Permutation_refl.
Qed.
Example C39_case : exists (D : point -> Prop) A f, represents D A f /\ same_centers A A /\ close_domains A A /\ nonzero (m_tpol A) /\
  (1 <= get_order (m_tpol A) + get_order (m_tpol A) <= 62)%nat /\ truncation_seen (m_tpol A) (m_tpol A) /\
  permutes in_order /\ ordered_on in_order (variables A ++ variables A) /\ D (at_x 1).
Proof.
  set (A := var0 1 1 (0, 0) (-1, 1)). assert (RA : represents (on (-1, 1)) A (fun x => 1 * x "x")) by (apply var0_represents; try lra; try lia; unfold within; cbn; lra).
  exists (on (-1, 1)), A, (fun x => 1 * x "x"). split; auto. split; [apply same_centers_refl, RA|]. split; [apply close_domains_refl, RA|]. split; [discriminate|].
  split; [cbn; lia|]. split; [apply x_seen; lia|]. split; [apply in_order_permutes|]. split; [apply in_order_ordered|]. unfold on, within, at_x. cbn. lra.
Qed.

(** ** C40 *)
Theorem C40_by_number :
  forall (A : taylor_model R) (D : point -> Prop) f (c : R), represents D A f -> c <> 0 ->
  exists T, tm_div_gs A c = Ok T /\ represents D T (fun x => f x / c).
Proof. exact div_number. Qed.
Print Assumptions C40_by_number.
(** number / A.  Missing: polynomials of degree above one, inexact models of
    positive order, numbers outside [0, 1] (the remainder does not depend on
    the number). *)
Theorem C40_number_over_partial :
  forall (iter : iterator) (A : taylor_model R) (D : point -> Prop) f (v : R) T, represents D A f ->
  (Z.of_nat (get_order (m_tpol A)) < 4294967296)%Z -> simple A -> permutes iter -> ordered_on iter (variables A) ->
  v = 1 \/ (0 <= v <= 1 /\ within (m_rem T) 0) -> tm_div_sg iter v A = Ok T -> represents D T (fun x => v / f x).
Proof. exact div_sg_scaled. Qed.
Print Assumptions C40_number_over_partial.
Theorem C40_number_over_defined :
  forall (iter : iterator) (A : taylor_model R), well_formed A -> (Z.of_nat (get_order (m_tpol A)) < 4294967296)%Z -> linear A -> permutes iter ->
  ordered_on iter (variables A) -> within (m_rem A) 0 -> positive_model A \/ negative_model A -> exists T, tm_div_sg iter 1 A = Ok T.
Proof. exact tm_recip_defined. Qed.
Print Assumptions C40_number_over_defined.
Theorem C40_number_over_refuted :
  forall iter : iterator, permutes iter -> exists (D : point -> Prop) A f v T, represents D A f /\ simple A /\ (forall x, D x -> f x <> 0) /\
    tm_div_sg iter v A = Ok T /\ ~ encloses D T (fun x => v / f x).
Proof. exact div_sg_wrong. Qed.
Print Assumptions C40_number_over_refuted.
(** The condition [simple] cannot be dropped at any positive order: 1 / A is
    wrong for a linear model with a remainder, and for an exact model. *)
Theorem C40_not_simple_refuted :
  forall (iter : iterator) (n : nat), permutes iter -> (1 <= n)%nat -> (Z.of_nat n < 4294967296)%Z ->
  (exists (D : point -> Prop) A f T, represents D A f /\ linear A /\ get_order (m_tpol A) = n /\ (forall x, D x -> 0 < f x) /\
     tm_div_sg iter 1 A = Ok T /\ ~ encloses D T (fun x => / f x)) /\
  ((2 <= n)%nat -> exists (D : point -> Prop) A f T, represents D A f /\ m_rem A = (0, 0) /\ get_order (m_tpol A) = n /\ (forall x, D x -> 0 < f x) /\
     tm_div_sg iter 1 A = Ok T /\ ~ encloses D T (fun x => / f x)).
Proof. exact not_simple_recip. Qed.
Print Assumptions C40_not_simple_refuted.
(** Nor can the condition on the iteration order: with the variables in the
    reverse order 1 / A is wrong for a linear, exact model at every order. *)
Theorem C40_iteration_order_refuted :
  exists iter : iterator, permutes iter /\ forall n, (1 <= n)%nat -> (Z.of_nat n < 4294967296)%Z ->
  exists (D : point -> Prop) A f T, represents D A f /\ simple A /\ m_rem A = (0, 0) /\ get_order (m_tpol A) = n /\ (forall x, D x -> 1 <= f x) /\
    tm_div_sg iter 1 A = Ok T /\ ~ encloses D T (fun x => / f x).
Proof. exact reversed_recip. Qed.
Print Assumptions C40_iteration_order_refuted.
(** A / B is A * (1 / B). *)
Theorem C40_div_partial :
  forall (iter : iterator) (A B : taylor_model R) (D : point -> Prop) f g r,
  represents D A f -> represents D B g -> simple B -> tm_div_sg iter 1 B = Ok r -> same_centers A B -> close_domains A B ->
  nonzero (m_tpol A) -> nonzero (m_tpol r) -> (1 <= get_order (m_tpol A) + get_order (m_tpol B) <= 62)%nat ->
  truncation_seen (m_tpol A) (m_tpol r) -> permutes iter -> ordered_on iter (variables A ++ variables B) ->
  exists T, tm_div iter A B = Ok T /\ represents D T (fun x => f x / g x).
Proof. exact tm_div_ok. Qed.
Print Assumptions C40_div_partial.
Theorem C40_intervals_throw :
  forall (iter : iterator) (I : R * R) (A : taylor_model R), well_formed A ->
  (psyms (gp (m_tpol A)) <> [] -> tm_div_ig iter I A = Throw InvalidArgument) /\
  (length (psyms (gp (m_tpol A))) <> 1%nat -> tm_div_gi iter A I = Throw InvalidArgument).
Proof. exact div_intervals. Qed.
Print Assumptions C40_intervals_throw.
Theorem C40_interval_refuted :
  forall iter : iterator, permutes iter -> exists (D : point -> Prop) A f I h T, represents D A f /\ (forall x, D x -> within I (h x)) /\
    (forall x, D x -> f x <> 0) /\ tm_div_ig iter I A = Ok T /\ ~ encloses D T (fun x => h x / f x).
Proof. exact div_ig_wrong. Qed.
Print Assumptions C40_interval_refuted.
(** A / interval is computed as A * interval (C39_times_interval). *)
Theorem C40_over_interval_refuted :
  forall iter : iterator, permutes iter -> exists (D : point -> Prop) A f I h T, represents D A f /\ variables A = ["x"] /\ m_rem A = (0, 0) /\
    (1 <= get_order (m_tpol A) <= 62)%nat /\ (forall x, D x -> within I (h x)) /\ (forall v, within I v -> v <> 0) /\
    tm_div_gi iter A I = Ok T /\ ~ encloses D T (fun x => f x / h x).
Proof. exact div_gi_wrong. Qed.
Print Assumptions C40_over_interval_refuted.
Example C40_case : exists (D : point -> Prop) A f T, represents D A f /\ simple A /\ (Z.of_nat (get_order (m_tpol A)) < 4294967296)%Z /\ permutes in_order /\
  ordered_on in_order (variables A) /\ within (m_rem A) 0 /\ positive_model A /\ tm_div_sg in_order 1 A = Ok T /\ nonzero (m_tpol T) /\ D (at_x 1).
Proof. exact recip_case. Qed.

(** ** C41 *)
(** Positive exponents.  Missing: as for the multiplication; the conditions on
    the intermediate powers. *)
Theorem C41_positive_partial :
  forall (iv : IvFun R) (iter : iterator) (A : taylor_model R) (D : point -> Prop) f, represents D A f -> permutes iter -> ordered_on iter (variables A) ->
  forall n : nat, (1 <= get_order (m_tpol A) <= 31)%nat -> (1 <= n)%nat ->
  (n = 1%nat \/ nonzero (m_tpol A) /\ truncation_seen (m_tpol A) (m_tpol A)) ->
  (forall j P, (2 <= j < n)%nat -> tm_pow iter A (INR j) = Ok P -> nonzero (m_tpol P) /\ truncation_seen (m_tpol P) (m_tpol A)) ->
  exists T, tm_pow iter A (INR n) = Ok T /\ represents D T (fun x => f x ^ n).
Proof. exact @real_pow_pos. Qed.
Print Assumptions C41_positive_partial.
Theorem C41_negative_partial :
  forall (iv : IvFun R) (iter : iterator) (A : taylor_model R) (D : point -> Prop) f, represents D A f -> permutes iter -> ordered_on iter (variables A) ->
  forall (n : nat) r, (1 <= get_order (m_tpol A) <= 31)%nat -> (1 <= n)%nat -> simple A -> tm_pow iter A (- INR 1) = Ok r -> nonzero (m_tpol r) ->
  (forall j P, (1 <= j < n)%nat -> tm_pow iter A (- INR j) = Ok P -> nonzero (m_tpol P) /\ truncation_seen (m_tpol P) (m_tpol r)) ->
  exists T, tm_pow iter A (- INR n) = Ok T /\ represents D T (fun x => / f x ^ n).
Proof. exact @real_pow_neg. Qed.
Print Assumptions C41_negative_partial.
(** Exponent 0: encloses 1, but not in good order as soon as A has variables. *)
Theorem C41_zero_partial :
  forall (iv : IvFun R) (iter : iterator) (A : taylor_model R) (D : point -> Prop) f, represents D A f -> permutes iter -> ordered_on iter (variables A) ->
  (get_order (m_tpol A) <= 62)%nat -> within (m_rem A) 0 -> exists T, tm_pow iter A 0 = Ok T /\ encloses D T (fun x => f x ^ 0).
Proof. exact @real_pow_zero. Qed.
Print Assumptions C41_zero_partial.
Theorem C41_zero_refuted :
  forall iter : iterator, exists (D : point -> Prop) A f T, represents D A f /\ (forall x, D x -> f x <> 0) /\
    tm_pow_int iter A 0 = Ok T /\ ~ encloses D T (fun x => f x ^ 0).
Proof. exact pow_zero_wrong. Qed.
Print Assumptions C41_zero_refuted.
Theorem C41_zero_inconsistent :
  forall (iter : iterator) (A T : taylor_model R), well_formed A -> psyms (gp (m_tpol A)) <> [] -> tm_pow_int iter A 0 = Ok T ->
  m_ndim T <> length (m_domain T) /\ check_input_validity T = Throw InvalidArgument.
Proof. exact pow_zero_inconsistent. Qed.
Print Assumptions C41_zero_inconsistent.
(** The cube of x is 0, at order 1. *)
Theorem C41_cube_refuted :
  forall iter : iterator, permutes iter -> ordered_on iter ["x"] -> exists (D : point -> Prop) A f T, represents D A f /\
    nonzero (m_tpol A) /\ (1 <= get_order (m_tpol A))%nat /\ m_rem A = (0, 0) /\ truncation_seen (m_tpol A) (m_tpol A) /\
    tm_pow_int iter A 3 = Ok T /\ ~ encloses D T (fun x => f x ^ 3).
Proof. exact cube_wrong. Qed.
Print Assumptions C41_cube_refuted.
(** Exponents 1/2 and -1/2.  Missing: polynomials of degree above one, inexact
    models of positive order, orders above 17 (the 64-bit double factorial),
    for -1/2 a remainder without 0. *)
Theorem C41_half_partial :
  forall (iv : IvFun R) (iter : iterator) (A : taylor_model R) (D : point -> Prop) f, represents D A f -> permutes iter -> ordered_on iter (variables A) ->
  forall T, (get_order (m_tpol A) <= 17)%nat -> simple A -> iv_sound iv -> tm_pow iter A (1 / 2) = Ok T -> represents D T (fun x => sqrt (f x)).
Proof. exact @real_pow_half. Qed.
Print Assumptions C41_half_partial.
Theorem C41_minus_half_partial :
  forall (iv : IvFun R) (iter : iterator) (A : taylor_model R) (D : point -> Prop) f, represents D A f -> permutes iter -> ordered_on iter (variables A) ->
  forall T, (get_order (m_tpol A) <= 16)%nat -> simple A -> iv_sound iv -> within (m_rem A) 0 -> tm_pow iter A (- (1 / 2)) = Ok T ->
  represents D T (fun x => / sqrt (f x)).
Proof. exact @real_pow_mhalf. Qed.
Print Assumptions C41_minus_half_partial.
Theorem C41_minus_half_refuted :
  forall (iv : IvFun R) (iter : iterator), permutes iter -> iv_sound iv -> 0 < fst (i_sqrt (1, 125 / 64)) -> snd (i_sqrt (1, 125 / 64)) <= 2 ->
  exists (D : point -> Prop) A f T, represents D A f /\ simple A /\ (forall x, D x -> 0 < f x) /\ tm_inv_sqrt iter A = Ok T /\
    ~ encloses D T (fun x => / sqrt (f x)).
Proof. exact @inv_sqrt_wrong. Qed.
Print Assumptions C41_minus_half_refuted.
(** Other exponents: n + 1/2 is the square root of the (2n+1)-th power, and
    exponents within 10 machine epsilons of an integer are truncated, so that
    3 - 4e-16 means 2. *)
Theorem C41_dispatch :
  forall (iv : IvFun R) (iter : iterator) (A : taylor_model R) F, f_bar_remainder_bounds iter A = Ok F ->
  forall n : Z,
  tm_pow iter A (IZR n) = tm_pow_int iter A n /\
  (n <> 0%Z -> n <> (-1)%Z -> tm_pow iter A (IZR n + 1 / 2) = rbind (tm_pow_int iter A (2 * n + 1)) (tm_sqrt iter)).
Proof. exact @pow_dispatch. Qed.
Print Assumptions C41_dispatch.
Theorem C41_near_integer :
  forall (iv : IvFun R) (iter : iterator) (A : taylor_model R) F, f_bar_remainder_bounds iter A = Ok F ->
  tm_pow iter A (3 - 4 / 10000000000000000) = tm_pow_int iter A 2.
Proof. exact @pow_near_three. Qed.
Print Assumptions C41_near_integer.
Example C41_case : exists (D : point -> Prop) A f F, represents D A f /\ f_bar_remainder_bounds in_order A = Ok F /\ (1 <= get_order (m_tpol A) <= 31)%nat /\
  nonzero (m_tpol A) /\ truncation_seen (m_tpol A) (m_tpol A) /\ permutes in_order /\ ordered_on in_order (variables A) /\ D (at_x 1) /\
  iv_sound iv_std /\ 0 < fst (i_sqrt (IvFun:=iv_std) (1, 125 / 64)) /\ snd (i_sqrt (IvFun:=iv_std) (1, 125 / 64)) <= 2.
Proof. exact pow_case. Qed.

(** ** C42 *)
(** Missing: polynomials of degree above one, inexact models of positive
    order, orders above 169 (C42_high_orders_refuted). *)
Theorem C42_entire_partial :
  forall (iv : IvFun R) (iter : iterator) (A : taylor_model R) (D : point -> Prop) f, represents D A f -> simple A ->
  (Z.of_nat (get_order (m_tpol A)) <= 169)%Z -> permutes iter -> ordered_on iter (variables A) -> iv_sound iv ->
  (exists T, tm_exp iter A = Ok T /\ represents D T (fun x => exp (f x))) /\
  (exists T, tm_sin iter A = Ok T /\ represents D T (fun x => sin (f x))) /\
  (exists T, tm_cos iter A = Ok T /\ represents D T (fun x => cos (f x))) /\
  (exists T, tm_sinh iter A = Ok T /\ represents D T (fun x => sinh (f x))) /\
  (exists T, tm_cosh iter A = Ok T /\ represents D T (fun x => cosh (f x))).
Proof. exact @entire_functions. Qed.
Print Assumptions C42_entire_partial.
Theorem C42_log_sqrt_partial :
  forall (iv : IvFun R) (iter : iterator) (A : taylor_model R) (D : point -> Prop) f T, represents D A f -> simple A ->
  (Z.of_nat (get_order (m_tpol A)) < 4294967296)%Z -> permutes iter -> ordered_on iter (variables A) -> iv_sound iv ->
  (tm_log iter A = Ok T -> represents D T (fun x => ln (f x))) /\
  ((get_order (m_tpol A) <= 17)%nat -> tm_sqrt iter A = Ok T -> represents D T (fun x => sqrt (f x))).
Proof. exact @log_sqrt. Qed.
Print Assumptions C42_log_sqrt_partial.
Theorem C42_log_sqrt_defined :
  forall (iv : IvFun R) (iter : iterator) (A : taylor_model R), well_formed A -> (Z.of_nat (get_order (m_tpol A)) < 4294967296)%Z -> linear A ->
  permutes iter -> ordered_on iter (variables A) -> within (m_rem A) 0 -> (forall I, 0 < fst I -> fst I <= snd I -> 0 < fst (i_sqrt I)) -> positive_model A ->
  (exists T, tm_log iter A = Ok T) /\
  ((Z.of_nat (get_order (m_tpol A)) <= 169)%Z -> (exists T, tm_sqrt iter A = Ok T) /\ (exists T, tm_inv_sqrt iter A = Ok T)).
Proof. exact @roots_defined. Qed.
Print Assumptions C42_log_sqrt_defined.
(** At every order above 169 there is an exact, positive model for which all
    functions that divide by a factorial throw. *)
Theorem C42_high_orders_refuted :
  forall (iv : IvFun R) (iter : iterator) n, permutes iter -> (169 < Z.of_nat n)%Z -> (Z.of_nat n < 4294967296)%Z -> exists (D : point -> Prop) A f,
  represents D A f /\ simple A /\ positive_model A /\ D (fun _ => 0) /\ get_order (m_tpol A) = n /\
  tm_exp iter A = Throw OtherException /\ tm_sin iter A = Throw OtherException /\ tm_cos iter A = Throw OtherException /\
  tm_sinh iter A = Throw OtherException /\ tm_cosh iter A = Throw OtherException /\
  tm_sin_and_cos iter A = Throw OtherException /\ tm_sinh_and_cosh iter A = Throw OtherException /\
  tm_sqrt iter A = Throw OtherException /\ tm_inv_sqrt iter A = Throw OtherException.
Proof. exact @high_orders. Qed.
Print Assumptions C42_high_orders_refuted.
(** The remainder of the argument is lost at positive orders. *)
Theorem C42_exp_refuted :
  forall (iv : IvFun R) (iter : iterator), permutes iter -> iv_sound iv -> snd (i_exp (-1, 1)) <= 20 -> exists (D : point -> Prop) A f T, represents D A f /\
    tm_exp iter A = Ok T /\ ~ encloses D T (fun x => exp (f x)).
Proof. exact @exp_wrong. Qed.
Print Assumptions C42_exp_refuted.
(** Exact models of degree two: at every order from 3 on the terms cut off from
    the powers of the polynomial are lost. *)
Theorem C42_degree_two_refuted :
  forall (iv : IvFun R) (iter : iterator) (n : nat), permutes iter -> iv_sound iv -> snd (i_exp (0, 1)) <= 10 -> (3 <= n)%nat -> (Z.of_nat n <= 169)%Z ->
  exists (D : point -> Prop) A f T, represents D A f /\ m_rem A = (0, 0) /\ get_order (m_tpol A) = n /\
    tm_exp iter A = Ok T /\ ~ encloses D T (fun x => exp (f x)).
Proof. exact @exp_degree_two. Qed.
Print Assumptions C42_degree_two_refuted.
Example C42_degree_two_case : permutes in_order /\ iv_sound iv_std /\ snd (i_exp (IvFun:=iv_std) (0, 1)) <= 10.
Proof. exact degree_two_case. Qed.
(** The condition [simple] cannot be dropped for any of the functions at any
    positive order: each is wrong for a linear model with a remainder, and (from
    order 2) for an exact model with a product of two variables.  The argument
    stays inside the domain of the function. *)
Theorem C42_not_simple_refuted :
  forall (iv : IvFun R) (iter : iterator) (F : fun1) (n : nat), permutes iter -> iv_moderate iv -> In F [Fexp; Fsin; Fcos; Fsinh; Fcosh; Flog; Fsqrt] ->
  (1 <= n)%nat -> (Z.of_nat n < 4294967296)%Z -> (F = Fsqrt -> (n <= 17)%nat) -> (F <> Flog -> (n <= 169)%nat) ->
  (exists (D : point -> Prop) A f T, represents D A f /\ linear A /\ get_order (m_tpol A) = n /\ (forall x, D x -> dom1 F (f x)) /\
     tm_apply iter F A = Ok T /\ ~ encloses D T (fun x => real1 F (f x))) /\
  ((2 <= n)%nat -> exists (D : point -> Prop) A f T, represents D A f /\ m_rem A = (0, 0) /\ get_order (m_tpol A) = n /\ (forall x, D x -> dom1 F (f x)) /\
     tm_apply iter F A = Ok T /\ ~ encloses D T (fun x => real1 F (f x))).
Proof. exact @not_simple. Qed.
Print Assumptions C42_not_simple_refuted.
Example C42_not_simple_case : permutes in_order /\ iv_sound iv_std /\ iv_moderate iv_std.
Proof. exact not_simple_case. Qed.
(** With another iteration order each of the functions is wrong for a linear,
    exact model at every positive order. *)
Theorem C42_iteration_order_refuted :
  exists iter : iterator, permutes iter /\ forall (iv : IvFun R) (F : fun1) (n : nat), iv_moderate iv -> In F [Fexp; Fsin; Fcos; Fsinh; Fcosh; Flog; Fsqrt] ->
  (1 <= n)%nat -> (Z.of_nat n < 4294967296)%Z -> (F = Fsqrt -> (n <= 17)%nat) -> (F <> Flog -> (n <= 169)%nat) ->
  exists (D : point -> Prop) A f T, represents D A f /\ simple A /\ m_rem A = (0, 0) /\ get_order (m_tpol A) = n /\ (forall x, D x -> dom1 F (f x)) /\
    tm_apply iter F A = Ok T /\ ~ encloses D T (fun x => real1 F (f x)).
Proof. exact reversed_wrong. Qed.
Print Assumptions C42_iteration_order_refuted.
(** The bound 17 for the square root is sharp: the signed 64-bit double
    factorial overflows from order 18 on, at every order that does not throw. *)
Theorem C42_sqrt_orders_refuted :
  forall (iv : IvFun R) (iter : iterator) (n : nat), permutes iter -> iv_moderate iv -> (18 <= n <= 169)%nat ->
  exists (D : point -> Prop) A f T, represents D A f /\ simple A /\ m_rem A = (0, 0) /\ get_order (m_tpol A) = n /\ (forall x, D x -> 1 <= f x) /\
    tm_sqrt iter A = Ok T /\ ~ encloses D T (fun x => sqrt (f x)).
Proof. exact @sqrt_high_orders. Qed.
Print Assumptions C42_sqrt_orders_refuted.
(** tan, tanh, asinh, acosh and atanh go through the product of models. *)
Theorem C42_tan_refuted :
  forall (iv : IvFun R) (iter : iterator), permutes iter -> iv_sound iv -> exists (D : point -> Prop) A f T, represents D A f /\ simple A /\ m_rem A = (0, 0) /\
    (forall x, D x -> cos (f x) <> 0) /\ tm_tan iter A = Ok T /\ ~ encloses D T (fun x => tan (f x)).
Proof. exact @tan_wrong. Qed.
Print Assumptions C42_tan_refuted.
Theorem C42_tanh_refuted :
  forall (iv : IvFun R) (iter : iterator), permutes iter -> iv_sound iv -> exists (D : point -> Prop) A f T, represents D A f /\ simple A /\ m_rem A = (0, 0) /\
    tm_tanh iter A = Ok T /\ ~ encloses D T (fun x => tanh (f x)).
Proof. exact @tanh_wrong. Qed.
Print Assumptions C42_tanh_refuted.
Theorem C42_asinh_refuted :
  forall (iv : IvFun R) (iter : iterator), permutes iter -> iv_sound iv -> (forall I, 0 < fst I -> fst I <= snd I -> 0 < fst (i_sqrt I)) ->
  exists (D : point -> Prop) A f T, represents D A f /\ simple A /\ m_rem A = (0, 0) /\
    tm_asinh iter A = Ok T /\ ~ encloses D T (fun x => ln (f x + sqrt (f x ^ 2 + 1))).
Proof. exact @asinh_wrong. Qed.
Print Assumptions C42_asinh_refuted.
Theorem C42_acosh_atanh_throw :
  forall (iv : IvFun R) (iter : iterator) (v : R), permutes iter ->
  tm_acosh iter (cst v (0, 0)) = Throw RuntimeError /\ (v <> 1 -> tm_atanh iter (cst v (0, 0)) = Throw OtherException).
Proof. exact @acosh_atanh. Qed.
Print Assumptions C42_acosh_atanh_throw.
Theorem C42_asin_refuted :
  forall (iv : IvFun R) (iter : iterator), permutes iter -> iv_sound iv -> (forall I, 0 < fst I -> fst I <= snd I -> 0 < fst (i_sqrt I)) ->
  exists (D : point -> Prop) A f T, represents D A f /\ simple A /\ m_rem A = (0, 0) /\ (forall x, D x -> -1 < f x < 1) /\
    tm_asin iter A = Ok T /\ ~ encloses D T (fun x => asin (f x)).
Proof. exact @asin_wrong. Qed.
Print Assumptions C42_asin_refuted.
Theorem C42_acos_refuted :
  forall (iv : IvFun R) (iter : iterator), permutes iter -> iv_sound iv -> (forall I, 0 < fst I -> fst I <= snd I -> 0 < fst (i_sqrt I)) ->
  exists (D : point -> Prop) A f T, represents D A f /\ simple A /\ m_rem A = (0, 0) /\ (forall x, D x -> -1 < f x < 1) /\
    tm_acos iter A = Ok T /\ ~ encloses D T (fun x => acos (f x)).
Proof. exact @acos_wrong. Qed.
Print Assumptions C42_acos_refuted.
Theorem C42_atan_refuted :
  forall (iv : IvFun R) (iter : iterator), permutes iter -> iv_sound iv -> exists (D : point -> Prop) A f T, represents D A f /\ simple A /\
    tm_atan iter A = Ok T /\ ~ encloses D T (fun x => atan (f x)).
Proof. exact @atan_wrong. Qed.
Print Assumptions C42_atan_refuted.
(** It is right for exact linear models of positive order expanded where the
    function is 0: there the argument is not transformed before the series is
    taken.  The sine, cosine and arc tangent of intervals are used. *)
Theorem C42_atan_origin_partial :
  forall (iv : IvFun R) (iter : iterator) (A : taylor_model R) (D : point -> Prop) f, represents D A f -> linear A -> m_rem A = (0, 0) ->
  constant_cf (m_tpol A) = 0 -> (1 <= get_order (m_tpol A) <= 31)%nat -> permutes iter -> ordered_on iter (variables A) -> iv_sound iv ->
  (forall I v, within I v -> within (i_atan I) (atan v)) -> exists T, tm_atan iter A = Ok T /\ represents D T (fun x => atan (f x)).
Proof. exact atan_origin. Qed.
Print Assumptions C42_atan_origin_partial.
Example C42_atan_case : exists (D : point -> Prop) A f, represents D A f /\ linear A /\ m_rem A = (0, 0) /\ constant_cf (m_tpol A) = 0 /\ nonzero (m_tpol A) /\
  (1 <= get_order (m_tpol A) <= 31)%nat /\ permutes in_order /\ ordered_on in_order (variables A) /\ iv_sound iv_std /\
  (forall I v, within I v -> within (i_atan (IvFun:=iv_std) I) (atan v)) /\ D (at_x 1).
Proof. exact atan_case. Qed.
(** abs: the remainder is replaced by its absolute value. *)
Theorem C42_abs_partial :
  forall (A : taylor_model R) (D : point -> Prop) f, represents D A f ->
  0 <= constant_cf (m_tpol A) /\ 0 <= fst (m_rem A) /\ (forall x, D x -> 0 <= f x) \/
  constant_cf (m_tpol A) < 0 /\ snd (m_rem A) <= 0 /\ (forall x, D x -> f x <= 0) ->
  exists T, tm_abs A = Ok T /\ represents D T (fun x => Rabs (f x)).
Proof. exact tm_abs_ok. Qed.
Print Assumptions C42_abs_partial.
Theorem C42_abs_refuted :
  exists (D : point -> Prop) A f T, represents D A f /\ tm_abs A = Ok T /\ ~ encloses D T (fun x => Rabs (f x)).
Proof. exact abs_wrong. Qed.
Print Assumptions C42_abs_refuted.
(** sin_and_cos and sinh_and_cosh return what the two functions return. *)
Theorem C42_pairs :
  forall (K : Type) (o : Ops K) (e : Elem K) (iv : IvFun K) (iter : list (string * (K * K)) -> list (string * (K * K))) (t : taylor_model K) s c,
  (tm_sin_and_cos iter t = Ok (s, c) <-> tm_sin iter t = Ok s /\ tm_cos iter t = Ok c) /\
  (tm_sinh_and_cosh iter t = Ok (s, c) <-> tm_sinh iter t = Ok s /\ tm_cosh iter t = Ok c).
Proof. exact @pairs. Qed.
Print Assumptions C42_pairs.
Example C42_case : exists (D : point -> Prop) A f, represents D A f /\ simple A /\ (Z.of_nat (get_order (m_tpol A)) <= 169)%Z /\ (1 <= get_order (m_tpol A) <= 17)%nat /\
  permutes in_order /\ ordered_on in_order (variables A) /\ iv_sound iv_std /\ (forall I, 0 < fst I -> fst I <= snd I -> 0 < fst (i_sqrt (IvFun:=iv_std) I)) /\
  snd (i_exp (IvFun:=iv_std) (-1, 1)) <= 20 /\ within (m_rem A) 0 /\ positive_model A /\ D (at_x 1) /\ psyms (gp (m_tpol A)) <> [].
Proof. exact fun_case. Qed.

(** ** C43 *)
(** Equality of values is the test [veq] passed to it: up to ten machine
    epsilons.  Where the values differ by less those of the first map are kept. *)
Theorem C43_get_common_map :
  forall (V : Type) (veq : V -> V -> bool) (a b : list (string * V)), distinct_keys a -> distinct_keys b ->
  match get_common_map veq a b with
  | Ok m => distinct_keys m /\ (forall s v w, In (s, v) a -> In (s, w) b -> veq v w = true) /\
            (forall s v, In (s, v) m <-> In (s, v) a \/ (In (s, v) b /\ ~ In s (map fst a)))
  | Throw x => x = RuntimeError /\ exists s v w, In (s, v) a /\ In (s, w) b /\ veq v w = false
  end.
Proof. exact @common_spec. Qed.
Print Assumptions C43_get_common_map.
Theorem C43_trim_map :
  forall (V : Type) (l : list string) (a : list (string * V)), distinct_keys a ->
  match trim_map l a with
  | Ok m => distinct_keys m /\ incl l (map fst a) /\ (forall s v, In (s, v) m <-> In s l /\ In (s, v) a)
  | Throw x => x = OtherException /\ exists s, In s l /\ ~ In s (map fst a)
  end.
Proof. exact @trim_spec. Qed.
Print Assumptions C43_trim_map.
Example C43_case : distinct_keys [("x", 1%nat); ("y", 2%nat)] /\ get_common_map Nat.eqb [("x", 1%nat); ("y", 2%nat)] [("y", 2%nat); ("z", 3%nat)] = Ok [("x", 1%nat); ("y", 2%nat); ("z", 3%nat)] /\
  trim_map ["z"; "y"] [("x", 1%nat); ("y", 2%nat); ("z", 3%nat)] = Ok [("z", 3%nat); ("y", 2%nat)].
Proof. split; [constructor; [intros [C|[]]; discriminate|constructor; [intros []|constructor]]|]. split; reflexivity. Qed.

(** ** C44 *)
Theorem C44_meaning :
  forall a b : taylor_model R, well_formed a -> well_formed b -> tm_eqb a b = true <-> tm_equal a b.
Proof. exact tm_eqb_iff. Qed.
Print Assumptions C44_meaning.
Theorem C44_reflexive_symmetric :
  forall a b : taylor_model R, well_formed a -> well_formed b -> tm_eqb a a = true /\ tm_eqb a b = tm_eqb b a.
Proof. exact eqb_refl_sym. Qed.
Print Assumptions C44_reflexive_symmetric.
Theorem C44_transitive_refuted :
  exists a b c, well_formed a /\ well_formed b /\ well_formed c /\ tm_eqb a b = true /\ tm_eqb b c = true /\ tm_eqb a c = false.
Proof. exact eqb_not_transitive. Qed.
Print Assumptions C44_transitive_refuted.
Theorem C44_negation :
  forall (K : Type) (o : Ops K) (a b : taylor_model K), tm_neqb a b = negb (tm_eqb a b).
Proof. exact @tm_neqb_neg. Qed.
Print Assumptions C44_negation.
Example C44_case : well_formed (var 2 1 (0, 1) (0, 2)) /\ well_formed (cst 1 (0, 0)) /\ ~ tm_equal (var 2 1 (0, 1) (0, 2)) (cst 1 (0, 0)).
Proof.
  split; [apply wf_var; try lra; try lia; unfold within; cbn; lra|]. split; [apply wf_cst|]. intros (_ & _ & [H _] & _). apply (H "x"). left. auto.
Qed.

(** ** C45 *)
Theorem C45_double_factorial :
  forall n : nat, ((dfact n < 9223372036854775808)%Z -> factorial2 (Z.of_nat n) = Ok (dfact n)) /\
  ((dfact n < 9223372036854775808)%Z <-> (n <= 33)%nat) /\
  factorial2 (-1) = Ok 1%Z /\ (forall m : Z, (m < -1)%Z -> factorial2 m = Throw InvalidArgument).
Proof. exact double_factorial. Qed.
Print Assumptions C45_double_factorial.
(** Beyond 33 the result wraps around modulo 2^64. *)
Theorem C45_wraps :
  forall n : nat, exists z, factorial2 (Z.of_nat n) = Ok z /\ (-9223372036854775808 <= z < 9223372036854775808)%Z /\
    (z mod 18446744073709551616 = dfact n mod 18446744073709551616)%Z.
Proof. exact double_factorial_wraps. Qed.
Print Assumptions C45_wraps.
(** The unsigned version, used for the square root, is 1 from 2^31 on. *)
Theorem C45_unsigned :
  forall n : nat, (Z.of_nat n < 2147483648)%Z -> (dfact n < 9223372036854775808)%Z -> factorial2_u (Z.of_nat n) = dfact n.
Proof. exact unsigned_fits. Qed.
Print Assumptions C45_unsigned.
Theorem C45_unsigned_large :
  forall n : Z, (2147483648 <= n < 4294967296)%Z -> factorial2_u n = 1%Z.
Proof. exact factorial2_unsigned_large. Qed.
Print Assumptions C45_unsigned_large.
Example C45_case : dfact 9 = 945%Z /\ dfact 10 = 3840%Z /\ factorial2 9 = Ok 945%Z.
Proof. vm_compute. auto. Qed.
