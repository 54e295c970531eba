(** * Sample Taylor models, and models on which the operations go wrong (proof file) *)
From Coq Require Import String List Arith Bool ZArith Reals Permutation Lra Lia.
From Verif Require Import Ops Syms SymsFacts Poly PolyFacts Gdual GdualFacts Functions FunStruct Spec CoefFacts CoreProofs CalcProofs ValueProofs MiscProofs ElemR FunAlg Interval TaylorModel TMFunctions SpecTM TMMaps TMArith TMMul TMTaylor TMBounds TMPow TMMisc.
Import ListNotations.
Local Open Scope string_scope.
Local Open Scope list_scope.
Local Open Scope R_scope.

Notation ivl := (R * R)%type.
(** the iteration order of insertion *)
Definition in_order : list (string * ivl) -> list (string * ivl) := fun l => l.
Lemma in_order_permutes : permutes in_order.
Proof. intros l. apply Permutation_refl. Qed.
Lemma in_order_ordered V : ordered_on in_order V.
Proof. intros box _ _. reflexivity. Qed.

(** A model without variables, of order 0. *)
Definition cst (v : R) (r : ivl) : taylor_model R := mkTM (gconst v) 0 0 r [] [].
Lemma wf_cst v r : well_formed (cst v r).
Proof. constructor; cbn; auto; try constructor; try tauto; try apply valid_const. Qed.
Lemma cst_represents (D : point -> Prop) v r (f : point -> R) : (forall x, D x -> within r (f x - v)) -> represents D (cst v r) f.
Proof.
  intros H. split; [apply wf_cst|]. intros x Hx. split; [intros s I []|]. cbn [cst m_rem m_tpol m_exp]. rewrite value_const. auto.
Qed.
Lemma cst_not_encloses (D : point -> Prop) t (f : point -> R) x : D x -> ~ within (m_rem t) (f x - value (m_tpol t) (displacement (m_exp t) x)) -> ~ encloses D t f.
Proof. intros Hx H E. destruct (E x Hx). auto. Qed.
Lemma cst_linear v r : linear (cst v r).
Proof.
  intros u Hu. cbn in Hu. unfold add_terms, add_term in Hu. cbn in Hu. assert (V := valid_order _ (valid_const v) u). cbn [gconst gord] in V. specialize (V Hu). lia.
Qed.
Lemma cst_simple v r : simple (cst v r).
Proof. split; [apply cst_linear|left; reflexivity]. Qed.
Lemma cst_value v r x : value (m_tpol (cst v r)) (displacement (m_exp (cst v r)) x) = v.
Proof. cbn [cst m_tpol m_exp]. apply value_const. Qed.
Lemma cst_nonzero v r : v <> 0 -> nonzero (m_tpol (cst v r)).
Proof.
  intros H C. apply H. rewrite <- (cst_value v r (fun _ => 0)). unfold value. rewrite C. reflexivity.
Qed.
Lemma cst_bounds iter v r : permutes iter -> tm_bounds iter (cst v r) = Ok (v, v).
Proof.
  intros Hp. destruct (tm_bounds_exact iter (cst v r)) as (lo & hi & x & y & E & _ & _ & Vx & Vy); auto.
  - apply wf_cst.
  - cbn. lia.
  - apply cst_linear.
  - intros box Nb Ib. destruct box as [|b l]; [|exfalso; apply (Ib (fst b)); left; auto].
    assert (X := Permutation_length (Hp [])). destruct (iter []); [reflexivity|discriminate].
  - rewrite cst_value in Vx, Vy. subst. auto.
Qed.

(** The identity function near [c] on the interval [I], and a multiple of it
    around 0. *)
Definition var (k : nat) (c : R) (r I : ivl) : taylor_model R :=
  mkTM (mkG (mkPoly ["dx"] [([0%nat], c); ([1%nat], 1)]) k) k 1 r [("x", c)] [("x", I)].
Definition var0 (k : nat) (a : R) (r I : ivl) : taylor_model R :=
  mkTM (mkG (mkPoly ["dx"] [([1%nat], a)]) k) k 1 r [("x", 0)] [("x", I)].
Lemma nz (c : R) : c <> 0 -> (c =? 0)%K = false.
Proof. intros H. cbn. unfold Reqb. destruct (Req_EM_T c 0); auto; contradiction. Qed.
Lemma wf_var k c r I : c <> 0 -> (1 <= k)%nat -> within I c -> well_formed (var k c r I).
Proof.
  intros Hc Hk Hi. constructor; cbn [var m_tpol m_order m_ndim m_exp m_domain gp psyms pterms get_order gord length map].
  - constructor; cbn [gp psyms pterms gord].
    + constructor; constructor.
    + intros t [<-|[<-|[]]]; reflexivity.
    + constructor; [intros [C|[]]; discriminate|constructor; [intros []|constructor]].
    + intros t [<-|[<-|[]]]; apply nz; cbn; lra.
    + intros t [<-|[<-|[]]]; unfold list_sum; cbn; lia.
  - reflexivity.
  - reflexivity.
  - reflexivity.
  - constructor; [intros []|constructor].
  - constructor; [intros []|constructor].
  - intros s. cbn. split; intros [E|[]]; left; [subst; reflexivity|]. change "dx" with (dsym "x") in E. injection E. auto.
  - intros s. cbn. split; intros [E|[]]; left; [subst; reflexivity|]. change "dx" with (dsym "x") in E. injection E. auto.
  - intros s c' J [E|[]] [F|[]]. injection E as _ <-. injection F as _ <-. auto.
Qed.
Lemma wf_var0 k a r I : a <> 0 -> (1 <= k)%nat -> within I 0 -> well_formed (var0 k a r I).
Proof.
  intros Ha Hk Hi. constructor; cbn [var0 m_tpol m_order m_ndim m_exp m_domain gp psyms pterms get_order gord length map].
  - constructor; cbn [gp psyms pterms gord].
    + constructor; constructor.
    + intros t [<-|[]]; reflexivity.
    + constructor; [intros []|constructor].
    + intros t [<-|[]]; apply nz; cbn; lra.
    + intros t [<-|[]]; unfold list_sum; cbn; lia.
  - reflexivity.
  - reflexivity.
  - reflexivity.
  - constructor; [intros []|constructor].
  - constructor; [intros []|constructor].
  - intros s. cbn. split; intros [E|[]]; left; [subst; reflexivity|]. change "dx" with (dsym "x") in E. injection E. auto.
  - intros s. cbn. split; intros [E|[]]; left; [subst; reflexivity|]. change "dx" with (dsym "x") in E. injection E. auto.
  - intros s c' J [E|[]] [F|[]]. injection E as _ <-. injection F as _ <-. auto.
Qed.
Lemma var_value k c r I x : value (m_tpol (var k c r I)) (displacement (m_exp (var k c r I)) x) = x "x".
Proof. cbn. unfold displacement, center_of. cbn. ring. Qed.
Lemma var0_value k a r I x : value (m_tpol (var0 k a r I)) (displacement (m_exp (var0 k a r I)) x) = a * x "x".
Proof. cbn. unfold displacement, center_of. cbn. ring. Qed.
Definition on (I : ivl) : point -> Prop := fun x => within I (x "x").
Lemma on_box I x : on I x -> in_box [("x", I)] x.
Proof. intros H s J [E|[]]. injection E as <- <-. auto. Qed.
Lemma var_represents k c r I : c <> 0 -> (1 <= k)%nat -> within I c -> within r 0 -> represents (on I) (var k c r I) (fun x => x "x").
Proof.
  intros. split; [apply wf_var; auto|]. intros x Hx. split; [apply on_box; auto|]. rewrite var_value. replace (x "x" - x "x") with 0 by ring. auto.
Qed.
Lemma var0_represents k a r I : a <> 0 -> (1 <= k)%nat -> within I 0 -> within r 0 -> represents (on I) (var0 k a r I) (fun x => a * x "x").
Proof.
  intros. split; [apply wf_var0; auto|]. intros x Hx. split; [apply on_box; auto|]. rewrite var0_value. replace (a * x "x" - a * x "x") with 0 by ring. auto.
Qed.
Lemma var_simple k c I : simple (var k c (0, 0) I).
Proof. split; [|right; reflexivity]. intros u [<-|[<-|[]]]; unfold list_sum; cbn; lia. Qed.
Lemma var0_simple k a I : simple (var0 k a (0, 0) I).
Proof. split; [|right; reflexivity]. intros u [<-|[]]; unfold list_sum; cbn; lia. Qed.
Lemma var_nonzero k c r I : nonzero (m_tpol (var k c r I)).
Proof. discriminate. Qed.
Lemma var0_nonzero k a r I : nonzero (m_tpol (var0 k a r I)).
Proof. discriminate. Qed.
Definition at_x (v : R) : point := fun _ => v.
