(** * Python scripts with while loops (proof file for C55) *)
From Coq Require Import String Ascii Reals List ZArith Bool Arith Lra Lia.
From Verif Require Import Ops Syms Poly Gdual Functions Spec ElemR SpecTaylor TayIdent PyDeriv PyFun SpecPy PyScript SpecPyScript PyScriptProofs ScriptSamples PyWhile SpecPyWhile.
Import ListNotations.
Open Scope R_scope.
Local Open Scope string_scope.

Section Deterministic.
  Context {K : Type} {oK : Ops K} {eK : Elem K}.
  Lemma runs_once (c : wstmt K) env r : py_runs c env r -> forall r', py_runs c env r' -> r' = r.
  Proof.
    induction 1; intros r' H'; inversion H'; subst; try congruence; auto.
    - match goal with A : py_runs a env (Ok _), B : forall r', py_runs a env r' -> _ |- _ => apply B in A; injection A as -> end. auto.
    - match goal with A : py_runs a env (Throw _), B : forall r', py_runs a env r' -> _ |- _ => apply B in A; discriminate end.
    - match goal with A : py_runs a env (Ok _), B : forall r', py_runs a env r' -> _ |- _ => apply B in A; discriminate end.
    - match goal with A : py_runs b env (Ok _), B : forall r', py_runs b env r' -> _ |- _ => apply B in A; injection A as -> end. auto.
    - match goal with A : py_runs b env (Throw _), B : forall r', py_runs b env r' -> _ |- _ => apply B in A; discriminate end.
    - match goal with A : py_runs b env (Ok _), B : forall r', py_runs b env r' -> _ |- _ => apply B in A; discriminate end.
  Qed.
End Deterministic.

Lemma guard_true m M env x y : holds m M env -> same_kind M x y -> below M x y -> py_less (env x) (env y) = Ok true.
Proof. intros H E L. rewrite (less_holds m M env x y H E). unfold Rltb. destruct (Rlt_dec _ _); auto. contradiction. Qed.
Lemma guard_false m M env x y : holds m M env -> same_kind M x y -> ~ below M x y -> py_less (env x) (env y) = Ok false.
Proof. intros H E L. rewrite (less_holds m M env x y H E). unfold Rltb. destruct (Rlt_dec _ _); auto. contradiction. Qed.
Lemma runs_holds m c M M' : (Z.of_nat m < 4294967285)%Z -> ends_smoothly m c M M' -> forall env, holds m M env ->
  exists env', py_runs c env (Ok env') /\ holds m M' env'.
Proof.
  intros Hm E. induction E as [c M S|a b M M' M'' Ea IHa Eb IHb|x y a b M M' Sk L Ea IHa|x y a b M M' Sk L Eb IHb|x y b M Sk L|x y b M M' M'' Sk L Eb IHb Ew IHw];
    intros env H.
  - destruct (exec_holds m c Hm M env H S) as (env' & X & H'). exists env'. split; auto. rewrite <- X. constructor.
  - destruct (IHa env H) as (e1 & R1 & H1). destruct (IHb e1 H1) as (e2 & R2 & H2). exists e2. split; auto. econstructor; eauto.
  - destruct (IHa env H) as (e1 & R1 & H1). exists e1. split; auto. apply R_then; auto. eapply guard_true; eauto.
  - destruct (IHb env H) as (e1 & R1 & H1). exists e1. split; auto. apply R_else; auto. eapply guard_false; eauto.
  - exists env. split; auto. apply R_stop. eapply guard_false; eauto.
  - destruct (IHb env H) as (e1 & R1 & H1). destruct (IHw e1 H1) as (e2 & R2 & H2). exists e2. split; auto.
    eapply R_again; eauto. eapply guard_true; eauto.
Qed.
Lemma while_script m c M M' env : (Z.of_nat m < 4294967285)%Z -> starts m M env -> ends_smoothly m c M M' ->
  exists env', py_runs c env (Ok env') /\ ends m M' env' /\ forall r, py_runs c env r -> r = Ok env'.
Proof.
  intros Hm H E. destruct (runs_holds m c M M' Hm E env (starts_holds _ _ _ H)) as (env' & R & H'). exists env'. split; [auto|split].
  - apply holds_ends. auto.
  - intros r Hr. eapply runs_once; eauto.
Qed.

(** Loops that never end in real arithmetic never end. *)
Lemma while_forever m x y b M env : (Z.of_nat m < 4294967285)%Z -> starts m M env ->
  (forall j, let Mj := repeat_for j (means b) M in same_kind Mj x y /\ below Mj x y /\ runs_smoothly m b Mj) ->
  forall r, ~ py_runs (WWhile x y (WDo b)) env r.
Proof.
  intros Hm H F r R. apply starts_holds in H. remember (WWhile x y (WDo b)) as w eqn:Ew. revert M H F.
  induction R as [| | | | | | |x0 y0 b0 env env' r G Rb IHb Rw IHw| |]; try discriminate; injection Ew as -> -> ->; intros M Hh F;
    destruct (F 0%nat) as (Sk & L & Sm); cbn [repeat_for] in *; pose proof (guard_true m M env x y Hh Sk L); try congruence;
    destruct (exec_holds m b Hm M env Hh Sm) as (e1 & X & H1).
  - assert (Q : Ok env' = Ok e1) by (rewrite <- X; exact (runs_once _ _ _ (R_do b env) _ Rb)). injection Q as ->.
    apply (IHw eq_refl (means b M) H1). intros j. exact (F (S j)).
  - match goal with T : py_runs (WDo b) env (Throw ?v) |- _ =>
      assert (Q : Throw v = Ok e1) by (rewrite <- X; exact (runs_once _ _ _ (R_do b env) _ T)) end. discriminate.
Qed.

(** u = 3; x = gdual_double(u, "x", 2); while c < u: x = x / 2; u = x.constant_cf *)
Definition halve : pstmt R := SSeq (SAssign "x" (EBin BDiv (EName "x") (EInt 2))) (SConstant "u" "x").
Definition halving : wstmt R := WSeq (WDo (SSeq (SAssign "u" (EInt 3)) (SVariable "x" "u" "x" 2))) (WWhile "c" "u" (WDo halve)).
Lemma halving_case : exists M, ends_smoothly 2 halving ones_mean M /\
  exists env g, py_runs halving ones (Ok env) /\ env "x" = VGdual g /\ taylor_of 2 g (fun x => (3 + x "dx") / 4).
Proof.
  set (M0 := means (SSeq (SAssign "u" (EInt 3)) (SVariable "x" "u" "x" 2)) ones_mean).
  assert (S0 : runs_smoothly 2 (SSeq (SAssign "u" (EInt 3)) (SVariable "x" "u" "x" 2)) ones_mean).
  { cbn. repeat split; auto. exists "x"%char, EmptyString. split; [reflexivity|discriminate]. }
  assert (E : ends_smoothly 2 halving ones_mean (means halve (means halve M0))).
  { eapply E_seq; [apply E_do; exact S0|]. fold M0. eapply E_again; [reflexivity| |apply E_do|].
    - unfold below. cbn. lra.
    - cbn. repeat split; auto; intros; lra.
    - eapply E_again; [reflexivity| |apply E_do|].
      + unfold below. cbn. unfold at_point. cbn. unfold center. lra.
      + cbn. repeat split; auto; intros; lra.
      + apply E_stop; [reflexivity|]. unfold below. cbn. unfold at_point. cbn. unfold at_point. cbn. unfold center. lra. }
  eexists. split; [exact E|].
  assert (S : starts 2 ones_mean ones) by (intros s; exists 1; auto).
  destruct (while_script 2 halving _ _ ones ltac:(cbn; lia) S E) as (env & R & H & _). specialize (H "x").
  change (holds_gdual (means halve (means halve M0)) "x") with true in H. cbv iota in H. destruct H as (g & Eg & _ & _ & T).
  change (order_of (means halve (means halve M0)) "x") with 2%nat in T.
  exists env, g. split; [auto|split; [auto|]]. eapply taylor_near; [|exact T]. exists 1. split; [lra|]. intros x _. cbn. unfold at_point. cbn. unfold at_point. cbn. unfold at_point, dsym. cbn. field.
Qed.
(** while z < x: x = x / 2, with x = 1 and z = 0 *)
Definition forever : wstmt R := WWhile "z" "x" (WDo (SAssign "x" (EBin BDiv (EName "x") (EInt 2)))).
Definition one_x : string -> pyval R := fun s => if String.eqb s "x" then VInt 1 else VInt 0.
Lemma forever_case : forall r, ~ py_runs forever one_x r.
Proof.
  set (b := SAssign (K := R) "x" (EBin BDiv (EName "x") (EInt 2))).
  assert (I : forall j M, (holds_gdual M "x" = false /\ holds_gdual M "z" = false /\ fun_of M "z" center = 0 /\ 0 < fun_of M "x" center) ->
    let Mj := repeat_for j (means b) M in
    holds_gdual Mj "x" = false /\ holds_gdual Mj "z" = false /\ fun_of Mj "z" center = 0 /\ 0 < fun_of Mj "x" center).
  { induction j as [|j IH]; intros M H; cbn [repeat_for]; auto. apply IH. destruct H as (H1 & H2 & H3 & H4). cbn. rewrite H1. cbn.
    split; [auto|split; [auto|split; [auto|]]]. unfold at_point. lra. }
  apply (while_forever 0 "z" "x" b (Meaning (fun _ => false) (fun s _ => if String.eqb s "x" then 1 else 0) (fun _ => 0%nat)) one_x).
  - lia.
  - intros s. cbn. exists (if String.eqb s "x" then 1 else 0). unfold one_x. destruct (String.eqb s "x"); auto.
  - intros j. destruct (I j (Meaning (fun _ => false) (fun s _ => if String.eqb s "x" then 1 else 0) (fun _ => 0%nat))) as (H1 & H2 & H3 & H4).
    { cbn. repeat split; auto. lra. }
    cbv zeta. split; [unfold same_kind; congruence|]. split; [unfold below; lra|]. cbn. repeat split; auto; intros; lra.
Qed.

(** ** Types *)
Section Types.
  Context {K : Type} {oK : Ops K} {eK : Elem K}.
  Lemma while_types (c : wstmt K) env env' gd : (forall s, is_gdual (env s) = gd s) -> py_runs c env (Ok env') ->
    exists gd', wtyped c gd gd' /\ forall s, is_gdual (env' s) = gd' s.
  Proof.
    intros H R. remember (Ok env') as r eqn:Er. revert gd H env' Er. induction R; intros gd T e' Er; try discriminate;
      try (match goal with L : py_less _ _ = Ok _ |- _ => pose proof (less_type _ _ _ L) as Q; rewrite !T in Q end).
    - destruct (exec_types c env e' gd T Er) as (gd' & W & T'). exists gd'. split; [constructor; auto|auto].
    - destruct (IHR1 gd T _ eq_refl) as (g1 & W1 & T1). destruct (IHR2 g1 T1 _ Er) as (g2 & W2 & T2). exists g2. split; [econstructor; eauto|auto].
    - destruct (IHR gd T _ Er) as (g1 & W1 & T1). exists g1. split; [apply WT_then; auto|auto].
    - destruct (IHR gd T _ Er) as (g1 & W1 & T1). exists g1. split; [apply WT_else; auto|auto].
    - injection Er as <-. exists gd. split; [apply WT_stop; auto|auto].
    - destruct (IHR1 gd T _ eq_refl) as (g1 & W1 & T1). destruct (IHR2 g1 T1 _ Er) as (g2 & W2 & T2). exists g2. split; [eapply WT_again; eauto|auto].
  Qed.
End Types.
(** while c < x: with c a number and x a gdual, and a failing statement before a loop *)
Lemma while_types_case : (forall env, ~ py_runs (WSeq (WDo (SVariable "x" "c" "x" 2)) (WWhile "c" "x" (WDo SSkip))) ones (Ok env)) /\
  exists gd, wtyped halving (fun _ => false) gd /\ gd "x" = true /\ gd "u" = false.
Proof.
  split.
  - intros env R. destruct (while_types _ ones env (fun _ => false) (fun _ => eq_refl) R) as (gd & W & _).
    inversion W; subst. match goal with H : wtyped (WDo _) _ _ |- _ => inversion H; subst; clear H end.
    match goal with H : typed (SVariable _ _ _ _) _ _ |- _ => inversion H; subst; clear H end.
    match goal with H : wtyped (WWhile _ _ _) _ _ |- _ => inversion H; subst; clear H end;
      match goal with H : put _ _ _ _ = put _ _ _ _ |- _ => cbn in H; discriminate H end.
  - destruct halving_case as (_ & _ & env & g & R & E & _). destruct (while_types _ ones env (fun _ => false) (fun _ => eq_refl) R) as (gd & W & T).
    exists gd. split; [auto|]. split; [rewrite <- T, E; reflexivity|].
    inversion W; subst. match goal with H : wtyped (WWhile _ _ _) ?g _ |- _ => assert (U : g "u" = false) end.
    { match goal with H : wtyped (WDo _) _ _ |- _ => inversion H; subst; clear H end.
      match goal with H : typed (SSeq _ _) _ _ |- _ => inversion H; subst; clear H end.
      match goal with H : typed (SVariable _ _ _ _) _ _ |- _ => inversion H; subst; clear H end.
      match goal with H : typed (SAssign _ _) _ _ |- _ => inversion H; subst; clear H end. reflexivity. }
    match goal with H : wtyped (WWhile _ _ _) _ _ |- _ => revert U; remember (WWhile "c" "u" (WDo halve)) as w eqn:Ew; clear - H Ew; induction H; try discriminate; intros U end.
    + injection Ew as -> -> ->. auto.
    + injection Ew as -> -> ->. apply IHwtyped2; auto.
      match goal with H : wtyped (WDo _) _ _ |- _ => inversion H; subst; clear H end.
      match goal with H : typed halve _ _ |- _ => inversion H; subst; clear H end.
      match goal with H : typed (SConstant _ _) _ _ |- _ => inversion H; subst; clear H end. reflexivity.
Qed.

(** A Python loop that ends has ended in real arithmetic too. *)
Lemma while_ends m x y b M env r : (Z.of_nat m < 4294967285)%Z -> starts m M env ->
  (forall j, let Mj := repeat_for j (means b) M in (forall i, (i < j)%nat -> below (repeat_for i (means b) M) x y) ->
     same_kind Mj x y /\ (below Mj x y -> runs_smoothly m b Mj)) ->
  py_runs (WWhile x y (WDo b)) env r ->
  exists k env', r = Ok env' /\ (forall i, (i < k)%nat -> below (repeat_for i (means b) M) x y) /\
    ~ below (repeat_for k (means b) M) x y /\ ends m (repeat_for k (means b) M) env'.
Proof.
  intros Hm H F R. apply starts_holds in H. remember (WWhile x y (WDo b)) as w eqn:Ew. revert M H F.
  induction R as [| | | | | |x0 y0 b0 env G|x0 y0 b0 env env' r G Rb IHb Rw IHw|x0 y0 b0 env u G Rb IHb|x0 y0 b0 env u G]; try discriminate;
    injection Ew as -> -> ->; intros M Hh F; destruct (F 0%nat) as (Sk & Sm); try (intros i Hi; lia); cbn [repeat_for] in *;
    pose proof (less_holds m M env x y Hh Sk) as Q; rewrite G in Q; try discriminate; injection Q as Q; unfold Rltb in Q;
    destruct (Rlt_dec (fun_of M x center) (fun_of M y center)) as [L|L]; try discriminate.
  - exists 0%nat, env. split; [auto|split; [intros i Hi; lia|split; [exact L|]]]. apply holds_ends. exact Hh.
  - destruct (exec_holds m b Hm M env Hh (Sm L)) as (e1 & X & H1).
    assert (Q' : Ok env' = Ok e1) by (rewrite <- X; exact (runs_once _ _ _ (R_do b env) _ Rb)). injection Q' as ->.
    destruct (IHw eq_refl (means b M) H1) as (k & e2 & E2 & B & N & E).
    { intros j Hj. apply (F (S j)). intros [|i] Hi; [exact L|]. apply (Hj i). lia. }
    exists (S k), e2. split; [auto|split; [|auto]]. intros [|i] Hi; [exact L|]. apply (B i). lia.
  - destruct (exec_holds m b Hm M env Hh (Sm L)) as (e1 & X & H1).
    assert (Q' : Throw u = Ok e1) by (rewrite <- X; exact (runs_once _ _ _ (R_do b env) _ Rb)). discriminate.
Qed.
(** while z < x: x = x - 2, with x = 1 and z = 0 *)
Definition once : pstmt R := SAssign "x" (EBin BSub (EName "x") (EInt 2)).
Lemma once_case : forall r, py_runs (WWhile "z" "x" (WDo once)) one_x r -> exists env, r = Ok env /\ number_of (env "x") = Some (-1).
Proof.
  set (M := Meaning (fun _ => false) (fun s _ => if String.eqb s "x" then 1 else 0) (fun _ => 0%nat)).
  assert (I : forall j M, holds_gdual M "x" = false -> holds_gdual M "z" = false -> fun_of M "z" center = 0 ->
    let Mj := repeat_for j (means once) M in
    holds_gdual Mj "x" = false /\ holds_gdual Mj "z" = false /\ fun_of Mj "z" center = 0 /\ fun_of Mj "x" center = fun_of M "x" center - 2 * INR j).
  { induction j as [|j IH]; intros N H1 H2 H3; cbn [repeat_for]; [cbn; repeat split; auto; ring|].
    destruct (IH (means once N)) as (A & B & C & E); [cbn; rewrite H1; reflexivity|exact H2|exact H3|].
    split; [auto|split; [auto|split; [auto|]]]. rewrite E. rewrite S_INR. cbn. unfold at_point. ring. }
  assert (J : forall j, below (repeat_for j (means once) M) "z" "x" <-> 2 * INR j < 1).
  { intros j. destruct (I j M) as (_ & _ & A & B); auto. unfold below. rewrite A, B. cbn [M fun_of]. change (String.eqb "x" "x") with true. cbv iota. split; lra. }
  intros r R. destruct (while_ends 0 "z" "x" once M one_x r) as (k & env & Er & B & N & E); auto.
  - lia.
  - intros s. cbn. exists (if String.eqb s "x" then 1 else 0). unfold one_x. destruct (String.eqb s "x"); auto.
  - intros j Mj _. destruct (I j M) as (H1 & H2 & _); auto. subst Mj. split; [unfold same_kind; congruence|]. intros _. cbn. repeat split; auto.
  - exists env. split; auto. destruct k as [|[|k]].
    + destruct N. apply J. cbn. lra.
    + specialize (E "x"). destruct (I 1%nat M) as (H1 & _ & _ & H4); auto. rewrite H1, H4 in E. rewrite E. f_equal. cbn. lra.
    + specialize (B 1%nat ltac:(lia)). apply J in B. cbn in B. lra.
Qed.
