(** * Specification vocabulary for Taylor models

    A point gives a real number to every variable name.  The definitions read
    the fields of a Taylor model and do not use its operations; [tm_apply] names
    them. *)
From Coq Require Import String List Arith Bool ZArith Reals Permutation.
From Verif Require Import Ops Syms Poly Gdual Functions Spec ElemR TaylorModel TMFunctions Interval.
Import ListNotations.
Local Open Scope R_scope.

Definition point := string -> R.
Definition within (I : R * R) (v : R) : Prop := fst I <= v <= snd I.

(** The point lies in the box given by a domain map. *)
Definition in_box (dom : list (string * (R * R))) (x : point) : Prop := forall s I, In (s, I) dom -> within I (x s).

(** Displacement of the symbol "ds" from the expansion point of "s". *)
Definition center_of (ex : list (string * R)) (s : string) : R :=
  match find (fun kv => String.eqb (fst kv) s) ex with Some kv => snd kv | None => 0 end.
Definition displacement (ex : list (string * R)) (x : point) : point :=
  fun ds => x (undsym ds) - center_of ex (undsym ds).

(** What check_input_validity is documented to ensure. *)
Record consistent {K} {o : Ops K} (t : taylor_model K) : Prop := mkConsistent {
  con_keys : forall s, In s (map fst (m_exp t)) <-> In s (map fst (m_domain t));
  con_inside : forall s c I, In (s, c) (m_exp t) -> In (s, I) (m_domain t) ->
                 (c <? fst I)%K = false /\ (snd I <? c)%K = false;
  con_ndim : length (m_domain t) = length (psyms (gp (m_tpol t)))
}.
(** Maps have distinct keys. *)
Definition distinct_keys {V} (m : list (string * V)) : Prop := NoDup (map fst m).

(** A Taylor model in good order: well-formed polynomial, its order and number
    of variables recorded, domain and expansion point given for exactly its
    variables, expansion point in the domain. *)
Record well_formed (t : taylor_model R) : Prop := mkWF {
  wf_poly : valid (m_tpol t);
  wf_order : m_order t = get_order (m_tpol t);
  wf_ndim : m_ndim t = length (psyms (gp (m_tpol t)));
  wf_names : psyms (gp (m_tpol t)) = map dsym (map undsym (psyms (gp (m_tpol t))));
  wf_exp : distinct_keys (m_exp t);
  wf_dom : distinct_keys (m_domain t);
  wf_exp_keys : forall s, In s (map fst (m_exp t)) <-> In (dsym s) (psyms (gp (m_tpol t)));
  wf_dom_keys : forall s, In s (map fst (m_domain t)) <-> In (dsym s) (psyms (gp (m_tpol t)));
  wf_inside : forall s c I, In (s, c) (m_exp t) -> In (s, I) (m_domain t) -> within I c
}.

(** [t] encloses [f] on the set [D]: [D] lies in the domain of [t] and there
    [f] differs from the polynomial by an element of the remainder. *)
Definition encloses (D : point -> Prop) (t : taylor_model R) (f : point -> R) : Prop :=
  forall x, D x -> in_box (m_domain t) x /\ within (m_rem t) (f x - value (m_tpol t) (displacement (m_exp t) x)).
Definition represents (D : point -> Prop) (t : taylor_model R) (f : point -> R) : Prop :=
  well_formed t /\ encloses D t f.

(** Shared variables are expanded at the same point. *)
Definition same_centers (a b : taylor_model R) : Prop :=
  forall s c c', In (s, c) (m_exp a) -> In (s, c') (m_exp b) -> c = c'.
(** Their intervals differ by less than ten machine epsilons in each bound. *)
Definition close (u v : R) : Prop := Rabs (u - v) < 10 / 4503599627370496.
Definition close_domains (a b : taylor_model R) : Prop :=
  forall s I J, In (s, I) (m_domain a) -> In (s, J) (m_domain b) -> close (fst I) (fst J) /\ close (snd I) (snd J).

Definition close_centers (a b : taylor_model R) : Prop :=
  forall s c c', In (s, c) (m_exp a) -> In (s, c') (m_exp b) -> close c c'.

(** The models take only positive (negative) values. *)
Definition positive_model (t : taylor_model R) : Prop :=
  forall x, in_box (m_domain t) x -> 0 < value (m_tpol t) (displacement (m_exp t) x) + fst (m_rem t).
Definition negative_model (t : taylor_model R) : Prop :=
  forall x, in_box (m_domain t) x -> value (m_tpol t) (displacement (m_exp t) x) + snd (m_rem t) < 0.

(** Two maps have the same keys and related values. *)
Definition agree {V} (veq : V -> V -> Prop) (a b : list (string * V)) : Prop :=
  (forall s, In s (map fst a) <-> In s (map fst b)) /\ forall s v w, In (s, v) a -> In (s, w) b -> veq v w.
(** What == compares: the polynomials exactly, the remainders and the domains
    to ten machine epsilons, the expansion points exactly. *)
Definition tm_equal (a b : taylor_model R) : Prop :=
  (forall rho, value (m_tpol a) rho = value (m_tpol b) rho) /\
  (close (fst (m_rem a)) (fst (m_rem b)) /\ close (snd (m_rem a)) (snd (m_rem b))) /\
  agree (fun v w => v = w) (m_exp a) (m_exp b) /\
  agree (fun I J => close (fst I) (fst J) /\ close (snd I) (snd J)) (m_domain a) (m_domain b).

(** n!! *)
Fixpoint dfact (n : nat) : Z :=
  match n with O => 1 | S m => match m with O => 1 | S p => Z.of_nat n * dfact p end end%Z.

(** The iteration order of an unordered_map of variables among [names] agrees,
    as far as the intervals are concerned, with the order of insertion. *)
Definition ordered_on (iter : list (string * (R * R)) -> list (string * (R * R))) (names : list string) : Prop :=
  forall box, NoDup (map fst box) -> incl (map fst box) names -> map snd (iter box) = map snd box.
Definition permutes (iter : list (string * (R * R)) -> list (string * (R * R))) : Prop :=
  forall l, Permutation (iter l) l.
Definition variables (t : taylor_model R) : list string := map undsym (psyms (gp (m_tpol t))).

(** Coefficient of a monomial in the product of two polynomials. *)
Definition product_coef {K} {o : Ops K} (a b : gdual K) (W : list string) (k : key) : K :=
  sum_list (fun ij => (coef a W (fst ij) * coef b W (snd ij))%K) (splits k).
(** Every truncated term of the product vanishes, or one of them exceeds the
    tolerance 10^-16 below which multiply ignores them all. *)
Definition truncation_seen (a b : gdual R) : Prop :=
  (forall W k, NoDup W -> length k = length W -> (Nat.max (get_order a) (get_order b) < list_sum k)%nat ->
     product_coef a b W k = 0) \/
  (exists W k, NoDup W /\ length k = length W /\ (Nat.max (get_order a) (get_order b) < list_sum k)%nat /\
     1 / 10000000000000000 < Rabs (product_coef a b W k)).
(** The polynomial is not the zero polynomial. *)
Definition nonzero (g : gdual R) : Prop := pterms (gp g) <> [].

(** The models on which the functions of one argument are right: all terms are
    of degree at most one, and the model is exact or of order 0. *)
Definition linear (t : taylor_model R) : Prop := forall u, In u (pterms (gp (m_tpol t))) -> (list_sum (fst u) <= 1)%nat.
Definition simple (t : taylor_model R) : Prop := linear t /\ (get_order (m_tpol t) = 0%nat \/ m_rem t = (0, 0)).

(** The boost interval functions enclose the images. *)
Record iv_sound (iv : IvFun R) : Prop := mkIvSound {
  s_exp : forall I v, within I v -> within (i_exp I) (exp v);
  s_sqrt : forall I v, 0 <= v -> within I v -> within (i_sqrt I) (sqrt v);
  s_sin : forall I v, within I v -> within (i_sin I) (sin v);
  s_cos : forall I v, within I v -> within (i_cos I) (cos v);
  s_sinh : forall I v, within I v -> within (i_sinh I) (sinh v);
  s_cosh : forall I v, within I v -> within (i_cosh I) (cosh v)
}.

(** They do not overestimate wildly on arguments in [0, 1] (sqrt: from 1 on). *)
Record iv_moderate (iv : IvFun R) : Prop := mkIvModerate {
  mod_exp : forall I, 0 <= fst I -> fst I <= snd I -> snd I <= 1 -> Rabs (fst (i_exp I)) <= 8 /\ Rabs (snd (i_exp I)) <= 8;
  mod_sin : forall I, 0 <= fst I -> fst I <= snd I -> snd I <= 1 -> Rabs (fst (i_sin I)) <= 8 /\ Rabs (snd (i_sin I)) <= 8;
  mod_cos : forall I, 0 <= fst I -> fst I <= snd I -> snd I <= 1 -> Rabs (fst (i_cos I)) <= 8 /\ Rabs (snd (i_cos I)) <= 8;
  mod_sinh : forall I, 0 <= fst I -> fst I <= snd I -> snd I <= 1 -> Rabs (fst (i_sinh I)) <= 8 /\ Rabs (snd (i_sinh I)) <= 8;
  mod_cosh : forall I, 0 <= fst I -> fst I <= snd I -> snd I <= 1 -> Rabs (fst (i_cosh I)) <= 8 /\ Rabs (snd (i_cosh I)) <= 8;
  mod_sqrt : forall I, 1 <= fst I -> fst I <= snd I -> 1 / 2 <= fst (i_sqrt I) /\ fst (i_sqrt I) <= snd (i_sqrt I)
}.

(** The function of taylor_model_functions.hpp called by a name; the others
    do not exist for Taylor models. *)
Definition tm_apply {iv : IvFun R} (iter : list (string * (R * R)) -> list (string * (R * R))) (f : fun1) : taylor_model R -> res (taylor_model R) :=
  match f with
  | Fexp => tm_exp iter | Flog => tm_log iter | Fsqrt => tm_sqrt iter
  | Fsin => tm_sin iter | Fcos => tm_cos iter | Ftan => tm_tan iter
  | Fsinh => tm_sinh iter | Fcosh => tm_cosh iter | Ftanh => tm_tanh iter
  | Fasin => tm_asin iter | Facos => tm_acos iter | Fatan => tm_atan iter
  | Fasinh => tm_asinh iter | Facosh => tm_acosh iter | Fatanh => tm_atanh iter
  | Fabs => tm_abs
  | _ => fun _ => Throw OtherException
  end.
(** As [fits1] for the inverse functions; for the others no bound is needed:
    beyond the orders for which sin and cos of gduals are right those of Taylor
    models throw. *)
Definition tm_fits (f : fun1) (order : nat) : Prop :=
  match f with
  | Fatan | Fasin | Facos => (order <= 30)%nat
  | _ => True
  end.
