(** * Property C53: Python expressions over gdual_vdouble

    [is_component N i v w] (SpecPyVec.v): v and w are the same Python number,
    or v is a gdual_vdouble and w the gdual_double computed by the same calls
    on its i-th components ([both], SpecVec.v; what that means for the
    coefficients is C29). *)
From Coq Require Import String Ascii List Arith Bool ZArith Reals QArith.Qcanon.
From Coquelicot Require Import Coquelicot.
From Verif Require Import Ops Syms Poly Gdual Functions Spec ElemR SpecTaylor Vectorized SpecVec VecSamples
  PyFun SpecPy PyVec SpecPyVec PyVecProofs PyVecMore PyVecDeriv PyVecCalc.
Import ListNotations.
Local Open Scope string_scope.
Local Open Scope nat_scope.

(** The i-th component of the value of an expression is the value of the
    expression on the i-th components; both throw the same exception or
    neither does.  Partial: [steps_ok] excludes number ** gdual when only one
    of the degrees is 0, and abs when the constant coefficient has a single
    negative component (both refuted below). *)
Theorem C53_components_partial :
  forall (K : Type) (o : Ops K) (fl : FieldLaws o) (e : Elem K) (N i : nat), i < N ->
  (forall z : K, z <> k0 -> kltb k0 z = negb (kltb z k0)) -> kltb (k0 : K) k0 = false ->
  forall (env : string -> vpyval K N) (env' : string -> pyval K), (forall s, is_component N i (env s) (env' s)) ->
  forall p, steps_ok N i env env' p -> component_outcome N i (vpy_eval env p) (py_eval env' p).
Proof. exact (fun K o fl e N i => @eval_components K o fl e N i). Qed.
Print Assumptions C53_components_partial.
Theorem C53_no_steps : forall (K : Type) (o : Ops K) (e : Elem K) N i env env' (p : pyexpr K),
  no_steps p -> steps_ok N i env env' p.
Proof. exact no_steps_ok. Qed.
Print Assumptions C53_no_steps.
(** abs(-1 + [1, 2] dx) and its component 1 *)
Theorem C53_abs_refuted : forall e : Elem Qc, exists (env : string -> vpyval Qc 2) (env' : string -> pyval Qc) g h,
  (forall s, is_component 2 1 (env s) (env' s)) /\
  vpy_eval env (ECall "abs" (EName "x")) = Ok (WVec g) /\ py_eval env' (ECall "abs" (EName "x")) = Ok (VGdual h) /\
  component 2 1 (coef g ["dx"] [1%nat]) <> coef h ["dx"] [1%nat].
Proof. exact abs_differs. Qed.
Print Assumptions C53_abs_refuted.
(** 2 ** ([0, 1] dx) and its component 0 *)
Theorem C53_pow_refuted : forall e : Elem Qc, exists (env : string -> vpyval Qc 2) (env' : string -> pyval Qc) g h,
  (forall s, is_component 2 0 (env s) (env' s)) /\
  vpy_eval env (EBin BPow (EInt 2) (EName "x")) = Ok (WVec g) /\ py_eval env' (EBin BPow (EInt 2) (EName "x")) = Ok (VGdual h) /\
  get_order g = 2%nat /\ get_order h = 0%nat.
Proof. exact pow_differs. Qed.
Print Assumptions C53_pow_refuted.

(** An expression over gdual_vdouble names and floats gives one
    gdual_vdouble, and each of its components is the Taylor expansion of the
    expression at the component's point. *)
Theorem C53_taylor_partial : forall (N n m : nat) (vd : string -> bool) (env : string -> vpyval R N)
  (G : nat -> string -> gdual R) (point : string -> R) (p : pyexpr R), 0 < N ->
  (forall s, if vd s then exists g, env s = WVec g /\ (forall i, i < N -> both N i true g (G i s))
             else env s = WPlain (VFloat (point s))) ->
  (forall i s, i < N -> vd s = true -> input n m (G i s)) ->
  (forall i, i < N -> py_smooth vd p (inputs vd (G i) point center) m) -> is_number vd p = false ->
  (forall i, i < N -> steps_ok N i env (fun s => if vd s then VGdual (G i s) else VFloat (point s)) p) ->
  exists g, vpy_eval env p = Ok (WVec g) /\ forall i, i < N -> exists h, both N i true g h /\
    component N i (constant_cf g) = py_real p (inputs vd (G i) point center) /\
    taylor_of n h (fun x => py_real p (inputs vd (G i) point x)).
Proof. exact vec_taylor. Qed.
Print Assumptions C53_taylor_partial.
(** x = gdual_vdouble([1, 2], "x", 3); 2 / x + log(x) *)
Example C53_case : exists g, vpy_eval vcase_env vcase_expr = Ok (WVec g) /\
  (component 2 0 (constant_cf g) = 2 /\ component 2 1 (constant_cf g) = 1 + ln 2 /\
  exists h, both 2 1 true g h /\ taylor_of 3 h (fun x => 2 / (2 + x "dx") + ln (2 + x "dx")))%R.
Proof. exact vcase. Qed.

(** One call of get_derivative returns the partial derivatives at all the
    points: its i-th component is the derivative at the i-th point.  Partial:
    as above, and exponents up to 170 (C19_high_derivatives_refuted). *)
Theorem C53_derivatives_partial : forall (N n m : nat) (vd : string -> bool) (env : string -> vpyval R N)
  (G : nat -> string -> gdual R) (point : string -> R) (p : pyexpr R), 0 < N ->
  (forall s, if vd s then exists g, env s = WVec g /\ (forall i, i < N -> both N i true g (G i s))
             else env s = WPlain (VFloat (point s))) ->
  (forall i s, i < N -> vd s = true -> input n m (G i s)) ->
  (forall i, i < N -> py_smooth vd p (inputs vd (G i) point center) m) -> is_number vd p = false ->
  (forall i, i < N -> steps_ok N i env (fun s => if vd s then VGdual (G i s) else VFloat (point s)) p) ->
  (Z.of_nat m < 4294967296)%Z ->
  exists g, vpy_eval env p = Ok (WVec g) /\ (n <= get_order g \/ get_order g = 0) /\ forall i, i < N ->
    let f := fun x => py_real p (inputs vd (G i) point x) in
    (exists F, derivatives (psyms (gp g)) n f F) /\
    forall F, derivatives (psyms (gp g)) n f F -> forall k, length k = length (psyms (gp g)) ->
      list_sum k <= n -> list_sum k <= get_order g -> (forall j, In j k -> (Z.of_nat j <= 170)%Z) ->
      exists v, get_derivative g k = Ok v /\ component N i v = F k center.
Proof. exact vec_derivatives. Qed.
Print Assumptions C53_derivatives_partial.
(** 2 / x + log(x) at [1, 2] *)
Example C53_derivatives_case : exists g v, vpy_eval vcase_env vcase_expr = Ok (WVec g) /\ get_derivative g [1] = Ok v /\
  (component 2 0 v = -1 /\ component 2 1 v = 0)%R.
Proof. exact vderiv_case. Qed.

(** Each component of partial() is the expansion, one order lower, of the
    derivative at that point; each component of integrate() is that of the
    integral from the point.  Partial: as above. *)
Theorem C53_partial_partial : forall (N n m : nat) (vd : string -> bool) (env : string -> vpyval R N)
  (G : nat -> string -> gdual R) (point : string -> R) (p : pyexpr R),
  (forall s, if vd s then exists g, env s = WVec g /\ (forall i, i < N -> both N i true g (G i s))
             else env s = WPlain (VFloat (point s))) ->
  (forall i, i < N -> py_smooth vd p (inputs vd (G i) point center) m) -> is_number vd p = false ->
  (forall i, i < N -> steps_ok N i env (fun s => if vd s then VGdual (G i s) else VFloat (point s)) p) ->
  forall g s r, (forall i s, i < N -> vd s = true -> input (S n) m (G i s)) -> vpy_eval env p = Ok (WVec g) -> gpartial g s = Ok r ->
  forall i d, i < N ->
  (exists q, 0 < q /\ forall x, small x q ->
     derivable_pt_lim (fun t => py_real p (inputs vd (G i) point (update x (dsym s) t))) (x (dsym s)) (d x))%R ->
  exists h, both N i true r h /\ taylor_of n h d.
Proof. exact vec_partial. Qed.
Print Assumptions C53_partial_partial.
Theorem C53_integral_partial : forall (N n m : nat) (vd : string -> bool) (env : string -> vpyval R N)
  (G : nat -> string -> gdual R) (point : string -> R) (p : pyexpr R),
  (forall s, if vd s then exists g, env s = WVec g /\ (forall i, i < N -> both N i true g (G i s))
             else env s = WPlain (VFloat (point s))) ->
  (forall i, i < N -> py_smooth vd p (inputs vd (G i) point center) m) -> is_number vd p = false ->
  (forall i, i < N -> steps_ok N i env (fun s => if vd s then VGdual (G i s) else VFloat (point s)) p) ->
  forall g s r, (forall i s, i < N -> vd s = true -> input n m (G i s)) -> (Z.of_nat m < 2147483648)%Z ->
  vpy_eval env p = Ok (WVec g) -> gintegrate g s = Ok r ->
  forall i M, i < N -> M <= S n -> M <= get_order g ->
  exists h, both N i true r h /\
    taylor_of M h (fun x => RInt (fun t => py_real p (inputs vd (G i) point (update x (dsym s) t))) 0 (x (dsym s))).
Proof. exact vec_integral. Qed.
Print Assumptions C53_integral_partial.
(** 2 / x + log(x) at [1, 2], the component 1 *)
Example C53_calculus_case : exists g r w h k, vpy_eval vcase_env vcase_expr = Ok (WVec g) /\ gpartial g "x" = Ok r /\ gintegrate g "x" = Ok w /\
  both 2 1 true r h /\ taylor_of 2 h (fun x => - 2 / ((2 + x "dx") * (2 + x "dx")) + 1 / (2 + x "dx"))%R /\
  both 2 1 true w k /\ taylor_of 3 k (fun x => RInt (fun t => 2 / (2 + t) + ln (2 + t)) 0 (x "dx"))%R.
Proof. exact vcalc_case. Qed.

(** The value is a gdual_vdouble exactly when one occurs in the expression. *)
Theorem C53_kinds : forall (K : Type) (o : Ops K) (e : Elem K) (N : nat) (vd : string -> bool) (env : string -> vpyval K N),
  (forall s, vd s = true <-> exists g, env s = WVec g) ->
  forall p v, vpy_eval env p = Ok v -> (has_vec vd p = true <-> exists g, v = WVec g).
Proof. exact (fun K o e N => @kinds K o e N). Qed.
Print Assumptions C53_kinds.
(** No operator combines a gdual_double with a gdual_vdouble. *)
Theorem C53_mixed_throws : forall (K : Type) (o : Ops K) (e : Elem K) (N : nat) op (g : gdual (vec K N)) (d : gdual K),
  vpy_bin op (WVec g) (WPlain (VGdual d)) = Throw OtherException /\
  vpy_bin op (WPlain (VGdual d)) (WVec g) = Throw OtherException.
Proof. exact (fun K o e N => @mixed K o e N). Qed.
Print Assumptions C53_mixed_throws.
(** Without gdual_vdouble names the value is that of C51. *)
Theorem C53_plain : forall (K : Type) (o : Ops K) (e : Elem K) (N : nat) (env : string -> pyval K) p,
  vpy_eval (N := N) (fun s => WPlain (env s)) p = match py_eval env p with Ok v => Ok (WPlain v) | Throw x => Throw x end.
Proof. exact (fun K o e N => @plain K o e N). Qed.
Print Assumptions C53_plain.
Theorem C53_methods : forall (K : Type) (o : Ops K) (e : Elem K) (N : nat) (g : gdual (vec K N)),
  (forall f, lookup f module_table <> None -> vpy_method f (WVec g) = vpy_call f (WVec g)) /\
  (forall f h, In (f, h) numpy_names -> vpy_method f (WVec g) = vpy_call h (WVec g)).
Proof. exact (fun K o e N => @vmethods K o e N). Qed.
Print Assumptions C53_methods.
