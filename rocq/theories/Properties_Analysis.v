(** * Properties C19, C21, C22: derivatives, primitives and substitution of functions

    Coefficients are real numbers.  [taylor_of n g f]: f(x) = g(x) +
    O(|x|^(n+1)); [derivatives W n f F]: F k is the partial derivative of f
    with exponents k over the variables W, up to order n + 1 (SpecTaylor.v). *)

From Coq Require Import String Reals Lra Lia List ZArith Sorting.Sorted.
From Verif Require Import Ops Syms Poly Gdual Functions Spec CoreProofs SpecTaylor TaySubs TayDeriv.
Import ListNotations.
Open Scope R_scope.
Open Scope string_scope.

(** The case used below: exp (a + dx + 1 + dy) at order 3. *)
Example case : forall a, exists g : gdual R, reach g /\ valid g /\ psyms (gp g) = ["dx"; "dy"] /\ get_order g = 3%nat /\
  taylor_of 3 g (fun x => exp ((a + x "dx") + (1 + x "dy"))).
Proof. exact fexp_sample. Qed.
Example case_derivatives : forall a n, derivatives ["dx"; "dy"] n (fun x => exp ((a + x "dx") + (1 + x "dy"))) (fun _ x => exp ((a + x "dx") + (1 + x "dy"))).
Proof. exact fexp_derivatives. Qed.

(** ** C19 *)
(** Missing: exponents above 170, which throw (C19_high_derivatives_refuted). *)
Theorem C19_derivative_partial :
  forall W n (g : gdual R) f F k, valid g -> psyms (gp g) = W -> (n <= get_order g)%nat -> (Z.of_nat (get_order g) < 4294967296)%Z ->
  taylor_of n g f -> derivatives W n f F -> length k = length W -> (list_sum k <= n)%nat -> (forall e, In e k -> (Z.of_nat e <= 170)%Z) ->
  get_derivative g k = Ok (F k center).
Proof. exact derivative_taylor. Qed.
Print Assumptions C19_derivative_partial.
Example C19_derivative_case : forall a, exists g : gdual R, reach g /\ get_derivative g [2; 1]%nat = Ok (exp (a + 0 + (1 + 0))).
Proof.
  intros a. destruct (case a) as (g & Rg & Vg & S & O & T). exists g. split; [exact Rg|].
  apply (C19_derivative_partial ["dx"; "dy"] 3 g _ _ [2; 1]%nat Vg S ltac:(rewrite O; lia) ltac:(rewrite O; reflexivity) T (case_derivatives a 3)); [reflexivity|cbn; lia|].
  intros e [<-|[<-|[]]]; lia.
Qed.

(** ** C21 *)
Theorem C21_partial_value :
  forall (g r : gdual R) s x, valid g -> gpartial g s = Ok r ->
  derivable_pt_lim (fun t => value g (update x (dsym s) t)) (x (dsym s)) (value r x).
Proof. exact partial_value. Qed.
Print Assumptions C21_partial_value.
Theorem C21_partial_taylor :
  forall W n (g r : gdual R) s f F, valid g -> gpartial g s = Ok r -> StronglySorted (fun a b => String.compare a b = Lt) W -> In (dsym s) W ->
  (forall k x y, (forall s, In s W -> x s = y s) -> F k x = F k y) ->
  taylor_of (S n) g f -> derivatives W (S n) f F -> taylor_of n r (F (incr W (map (fun _ => 0%nat) W) (dsym s))).
Proof. exact partial_taylor. Qed.
Print Assumptions C21_partial_taylor.
Theorem C21_integrate_taylor :
  forall n N (g r : gdual R) s f H, valid g -> (Z.of_nat (get_order g) < 2147483648)%Z -> gintegrate g s = Ok r ->
  (N <= S n)%nat -> (N <= get_order g)%nat -> taylor_of n g f ->
  (exists e, 0 < e /\ forall x, small x e ->
     H (update x (dsym s) 0) = 0 /\ derivable_pt_lim (fun t => H (update x (dsym s) t)) (x (dsym s)) (f x)) ->
  taylor_of N r H.
Proof. exact integrate_taylor. Qed.
Print Assumptions C21_integrate_taylor.
Example C21_taylor_case : forall a, exists g p i : gdual R, reach g /\ gpartial g "x" = Ok p /\ gintegrate g "x" = Ok i /\
  taylor_of 2 p (fun x => exp ((a + x "dx") + (1 + x "dy"))) /\
  taylor_of 3 i (fun x => exp ((a + x "dx") + (1 + x "dy")) - exp ((a + 0) + (1 + x "dy"))).
Proof.
  intros a. destruct (case a) as (g & Rg & Vg & S & O & T). exists g.
  destruct (gpartial g "x") as [p|] eqn:Ep; [|discriminate]. destruct (gintegrate g "x") as [i|] eqn:Ei; [|discriminate].
  exists p, i. split; [exact Rg|]. split; [reflexivity|]. split; [reflexivity|]. split.
  - apply (C21_partial_taylor ["dx"; "dy"] 2 g p "x" (fexp a) (fun _ => fexp a) Vg Ep).
    + rewrite <- S. apply Vg.
    + left. reflexivity.
    + intros k x y H. unfold fexp. rewrite (H "dx"), (H "dy"); cbn; auto.
    + exact T.
    + exact (case_derivatives a 3).
  - apply (C21_integrate_taylor 3 3 g i "x" (fexp a) _ Vg ltac:(rewrite O; reflexivity) Ei ltac:(lia) ltac:(rewrite O; lia) T).
    exists 1. split; [lra|]. intros x _. exact (fexp_primitive a x).
Qed.

(** ** C22 *)
Theorem C22_subs_taylor :
  forall n (d : gdual R) s (g : gdual R) f u, valid d -> valid g -> (n <= get_order d)%nat ->
  taylor_of n d f -> taylor_of n g u -> u center = 0 ->
  taylor_of n (gsubs d s g) (fun x => f (update x s (u x))).
Proof. exact subs_taylor. Qed.
Print Assumptions C22_subs_taylor.
Example C22_taylor_case : forall a, exists d g : gdual R, reach d /\ reach g /\
  taylor_of 3 (gsubs d "dy" g) (fun x => exp ((a + x "dx") + (1 + (exp (0 + x "dz") - 1)))).
Proof.
  intros a. destruct (case a) as (d & Rd & Vd & _ & O & T). destruct fz_sample as (g & Rg & Vg & Tg). exists d, g. split; [exact Rd|]. split; [exact Rg|].
  apply (C22_subs_taylor 3 d "dy" g _ _ Vd Vg ltac:(rewrite O; lia) T Tg). unfold center. rewrite Rplus_0_r, exp_0. ring.
Qed.
