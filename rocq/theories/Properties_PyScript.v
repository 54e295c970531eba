(** * Property C55: Python scripts

    [means c M]: the functions of calculus the names stand for after the script
    [c]; [starts], [ends]: the names hold those functions, gduals up to the
    order [order_of] (SpecPyScript.v). *)
From Coq Require Import String Ascii Reals List ZArith.
From Coquelicot Require Import Coquelicot.
From Verif Require Import Ops Syms Poly Gdual Functions Spec ElemR SpecTaylor PyFun SpecPy PyScript SpecPyScript PyScriptProofs PyNewton ScriptSamples PyWhile SpecPyWhile PyWhileProofs.
Import ListNotations.
Open Scope R_scope.
Local Open Scope string_scope.

(** A script whose steps are all differentiable raises nothing, and at its end
    every name holds its number or the Taylor polynomial of its function.
    Partial: exact real arithmetic; no functions, integrate or subs. *)
Theorem C55_scripts_partial : forall (m : nat) (c : pstmt R) (M : meaning) (env : string -> pyval R), (Z.of_nat m < 4294967285)%Z ->
  starts m M env -> runs_smoothly m c M ->
  exists env', py_exec c env = Ok env' /\ ends m (means c M) env'.
Proof. exact script. Qed.
Print Assumptions C55_scripts_partial.
(** x = gdual_double(1, "x", 2), squared twice, then differentiated *)
Example C55_case : starts 2 ones_mean ones /\ runs_smoothly 2 squares ones_mean /\
  exists env g, py_exec squares ones = Ok env /\ env "g" = VGdual g /\ constant_cf g = 4 /\
    taylor_of 1 g (fun x => 4 * (1 + x "dx") ^ 3).
Proof. exact script_case. Qed.
(** A conditional on gduals *)
Example C55_branch_case : runs_smoothly 2 branch ones_mean /\
  exists env g, py_exec branch ones = Ok env /\ env "x" = VGdual g /\ taylor_of 2 g (fun x => 3 * (1 + x "dx") ^ 2 - (1 + x "dx")).
Proof. exact branch_case. Qed.

(** Two scripts whose names stand for the same function near the center give
    the same coefficients up to the order tracked for both, and equal gduals
    when that is the order of the variables. *)
Theorem C55_equal_scripts_partial : forall m c c' M M' env env' s t n, (Z.of_nat m < 4294967285)%Z ->
  starts m M env -> starts m M' env' -> runs_smoothly m c M -> runs_smoothly m c' M' ->
  holds_gdual (means c M) s = true -> holds_gdual (means c' M') t = true ->
  (n <= order_of (means c M) s)%nat -> (n <= order_of (means c' M') t)%nat ->
  (exists d, 0 < d /\ forall x, small x d -> fun_of (means c M) s x = fun_of (means c' M') t x) ->
  exists e e' g h, py_exec c env = Ok e /\ py_exec c' env' = Ok e' /\ e s = VGdual g /\ e' t = VGdual h /\
    agree n g h /\ (n = m -> geqb g h = true).
Proof. exact equal_scripts. Qed.
Print Assumptions C55_equal_scripts_partial.
(** sin(x).partial("x") and cos(x) at order three *)
Example C55_equal_case : exists e e' g h, py_exec sin_script ones = Ok e /\ py_exec cos_script ones = Ok e' /\
  e "g" = VGdual g /\ e' "g" = VGdual h /\ agree 2 g h.
Proof. exact equal_script_case. Qed.

(** Whatever the coefficients, doubles included: a script that raises nothing
    has called methods, partial and constant_cf on gduals only, has constructed
    variables from numbers, with acceptable names, has compared gduals with
    gduals and numbers with numbers, and its names hold gduals
    exactly where the types of the operands say so. *)
Theorem C55_types : forall (K : Type) (o : Ops K) (el : Elem K) (c : pstmt K) (env env' : string -> pyval K) (gd : string -> bool),
  (forall s, is_gdual (env s) = gd s) -> py_exec c env = Ok env' ->
  exists gd', typed c gd gd' /\ forall s, is_gdual (env' s) = gd' s.
Proof. exact @exec_types. Qed.
Print Assumptions C55_types.
Example C55_types_case : exists env gd, py_exec squares ones = Ok env /\ typed squares (fun _ => false) gd /\
  (forall s, is_gdual (env s) = gd s) /\ gd "g" = true /\ gd "c" = false.
Proof. exact types_case. Qed.
(** 1.partial("x") raises *)
Example C55_types_case2 : forall env', py_exec (SPartial "g" "c" "x") ones <> Ok env'.
Proof. exact types_case2. Qed.

(** Newton's method written with gduals of order one computes the iterates of
    Newton's method with the derivative of calculus, for any expression in x
    that is differentiable, with a derivative that is not zero, at the iterates. *)
Theorem C55_newton_partial : forall e : pyexpr R, only_x e -> is_number (String.eqb "x") e = false ->
  let f := fun t => py_real e (fun _ => t) in
  forall (k : nat) (env : string -> pyval R) (t : R),
  (forall s, number_of (env s) <> None) -> number_of (env "c") = Some t ->
  (forall j, (j < k)%nat -> let u := repeat_for j (newton_step f) t in
     py_smooth (String.eqb "x") e (fun _ => u) 1 /\ Derive f u <> 0) ->
  exists env', py_exec (newton e k) env = Ok env' /\ number_of (env' "c") = Some (repeat_for k (newton_step f) t).
Proof. exact newton_iterates. Qed.
Print Assumptions C55_newton_partial.
(** x * x - 2 from 1: two steps give 17/12 *)
Example C55_newton_case : exists env, py_exec (newton root2 2) ones = Ok env /\ number_of (env "c") = Some (17 / 12).
Proof. exact newton_case. Qed.

(** While loops ([py_runs], PyWhile.v; [ends_smoothly], SpecPyWhile.v): if the
    script ends in real arithmetic, so does the Python script, with this result
    only, and its names hold the Taylor polynomials of their functions.
    Partial: exact real arithmetic. *)
Theorem C55_while_partial : forall (m : nat) (c : wstmt R) (M M' : meaning) (env : string -> pyval R), (Z.of_nat m < 4294967285)%Z ->
  starts m M env -> ends_smoothly m c M M' ->
  exists env', py_runs c env (Ok env') /\ ends m M' env' /\ forall r, py_runs c env r -> r = Ok env'.
Proof. exact while_script. Qed.
Print Assumptions C55_while_partial.
(** 3 + dx halved until its value is not above 1 *)
Example C55_while_case : exists M, ends_smoothly 2 halving ones_mean M /\
  exists env g, py_runs halving ones (Ok env) /\ env "x" = VGdual g /\ taylor_of 2 g (fun x => (3 + x "dx") / 4).
Proof. exact halving_case. Qed.
(** A loop that does not end in real arithmetic does not end, nor raise.
    Partial: exact real arithmetic (rounding can end such a loop); one loop. *)
Theorem C55_forever_partial : forall (m : nat) (x y : string) (b : pstmt R) (M : meaning) (env : string -> pyval R), (Z.of_nat m < 4294967285)%Z ->
  starts m M env ->
  (forall j, let Mj := repeat_for j (means b) M in same_kind Mj x y /\ below Mj x y /\ runs_smoothly m b Mj) ->
  forall r, ~ py_runs (WWhile x y (WDo b)) env r.
Proof. exact while_forever. Qed.
Print Assumptions C55_forever_partial.
Example C55_forever_case : forall r, ~ py_runs forever one_x r.
Proof. exact forever_case. Qed.
(** A loop that ends has ended in real arithmetic after as many turns, without
    an exception, if the turns taken are differentiable.  Partial: as above. *)
Theorem C55_while_ends_partial : forall (m : nat) (x y : string) (b : pstmt R) (M : meaning) (env : string -> pyval R) (r : res (string -> pyval R)),
  (Z.of_nat m < 4294967285)%Z -> starts m M env ->
  (forall j, let Mj := repeat_for j (means b) M in (forall i, (i < j)%nat -> below (repeat_for i (means b) M) x y) ->
     same_kind Mj x y /\ (below Mj x y -> runs_smoothly m b Mj)) ->
  py_runs (WWhile x y (WDo b)) env r ->
  exists k env', r = Ok env' /\ (forall i, (i < k)%nat -> below (repeat_for i (means b) M) x y) /\
    ~ below (repeat_for k (means b) M) x y /\ ends m (repeat_for k (means b) M) env'.
Proof. exact while_ends. Qed.
Print Assumptions C55_while_ends_partial.
(** while z < x: x = x - 2, with x = 1 and z = 0 *)
Example C55_while_ends_case : forall r, py_runs (WWhile "z" "x" (WDo once)) one_x r -> exists env, r = Ok env /\ number_of (env "x") = Some (-1).
Proof. exact once_case. Qed.
(** Types, whatever the coefficients, as in C55_types. *)
Theorem C55_while_types : forall (K : Type) (o : Ops K) (el : Elem K) (c : wstmt K) (env env' : string -> pyval K) (gd : string -> bool),
  (forall s, is_gdual (env s) = gd s) -> py_runs c env (Ok env') ->
  exists gd', wtyped c gd gd' /\ forall s, is_gdual (env' s) = gd' s.
Proof. exact @while_types. Qed.
Print Assumptions C55_while_types.
(** A number and a gdual compared by while; the types of the halving loop *)
Example C55_while_types_case :
  (forall env, ~ py_runs (WSeq (WDo (SVariable "x" "c" "x" 2)) (WWhile "c" "x" (WDo SSkip))) ones (Ok env)) /\
  exists gd, wtyped halving (fun _ => false) gd /\ gd "x" = true /\ gd "u" = false.
Proof. exact while_types_case. Qed.
