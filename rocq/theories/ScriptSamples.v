(** * Concrete cases for the properties of Python scripts *)
From Coq Require Import String Ascii Reals List ZArith Bool Arith Lra Lia.
From Coquelicot Require Import Coquelicot.
From Verif Require Import Ops Syms Poly Gdual Functions Spec ElemR SpecTaylor PyFun SpecPy PyScript SpecPyScript PyScriptProofs PyNewton.
Import ListNotations.
Open Scope R_scope.
Local Open Scope string_scope.

(** x = gdual_double(c, "x", 2); for _ in range(2): x = x * x;
    g = x.partial("x") *)
Definition squares : pstmt R :=
  SSeq (SVariable "x" "c" "x" 2) (SSeq (SFor 2 (SAssign "x" (EBin BMul (EName "x") (EName "x")))) (SPartial "g" "x" "x")).
Definition ones : string -> pyval R := fun _ => VInt 1.
Definition ones_mean : meaning := Meaning (fun _ => false) (fun _ _ => 1) (fun _ => 0%nat).
Lemma script_case : starts 2 ones_mean ones /\ runs_smoothly 2 squares ones_mean /\
  exists env g, py_exec squares ones = Ok env /\ env "g" = VGdual g /\ constant_cf g = 4 /\
    taylor_of 1 g (fun x => 4 * (1 + x "dx") ^ 3).
Proof.
  assert (S : starts 2 ones_mean ones) by (intros s; exists 1; auto).
  assert (X : runs_smoothly 2 squares ones_mean).
  { cbn [squares runs_smoothly]. split; [|split].
    - cbn. repeat split; auto. exists "x"%char, EmptyString. split; [reflexivity|discriminate].
    - intros j _. cbn. auto.
    - cbn. repeat split; auto. exists "x"%char, EmptyString. split; [reflexivity|discriminate]. }
  split; [auto|split; [auto|]].
  destruct (script 2 squares ones_mean ones ltac:(cbn; lia) S X) as (env & E & H). specialize (H "g").
  change (holds_gdual (means squares ones_mean) "g") with true in H. cbv iota in H. destruct H as (g & Eg & _ & Hc & T).
  assert (D : forall x, fun_of (means squares ones_mean) "g" x = 4 * (1 + x "dx") ^ 3).
  { intros x. cbn. unfold at_point. cbn. apply is_derive_unique.
    apply (is_derive_ext (fun t => ((1 + t) * (1 + t)) * ((1 + t) * (1 + t)))).
    - intros t. unfold update. cbn. reflexivity.
    - auto_derive; auto. unfold dsym. cbn. ring. }
  exists env, g. split; [auto|split; [auto|split]].
  - rewrite Hc, D. unfold center. ring.
  - change (order_of (means squares ones_mean) "g") with 1%nat in T. destruct T as (c & d & Hc0 & Hd & T). exists c, d.
    split; [auto|split; [auto|]]. intros x r H1 H2. rewrite <- D. auto.
Qed.

(** Newton's method for x * x - 2 from 1 *)
Definition root2 : pyexpr R := EBin BSub (EBin BMul (EName "x") (EName "x")) (EInt 2).
Lemma root2_derive u : Derive (fun t => py_real root2 (fun _ => t)) u = 2 * u.
Proof. apply is_derive_unique. cbn. auto_derive; auto. ring. Qed.
Lemma newton_case : exists env, py_exec (newton root2 2) ones = Ok env /\ number_of (env "c") = Some (17 / 12).
Proof.
  assert (S1 : newton_step (fun t => py_real root2 (fun _ => t)) 1 = 3 / 2) by (unfold newton_step; rewrite root2_derive; cbn; field).
  assert (S2 : newton_step (fun t => py_real root2 (fun _ => t)) (3 / 2) = 17 / 12) by (unfold newton_step; rewrite root2_derive; cbn; field).
  destruct (newton_iterates root2 ltac:(cbn; auto) eq_refl 2 ones 1) as (env & E & H).
  - discriminate.
  - reflexivity.
  - intros j Hj. cbv zeta. rewrite root2_derive. split; [cbn; auto|].
    destruct j as [|[|j]]; [cbn; lra| |lia]. cbn [repeat_for]. rewrite S1. lra.
  - exists env. split; auto. rewrite H. cbn [repeat_for]. rewrite S1, S2. reflexivity.
Qed.

Lemma types_case : exists env gd, py_exec squares ones = Ok env /\ typed squares (fun _ => false) gd /\
  (forall s, is_gdual (env s) = gd s) /\ gd "g" = true /\ gd "c" = false.
Proof.
  destruct script_case as (_ & _ & env & g & E & _). exists env.
  destruct (exec_types squares ones env (fun _ => false) (fun _ => eq_refl) E) as (gd & W & T). exists gd. split; [auto|split; [auto|split; [auto|]]].
  inversion W; subst. match goal with H : typed (SSeq _ _) _ _ |- _ => inversion H; subst end.
  match goal with H : typed (SPartial _ _ _) _ _ |- _ => inversion H; subst end.
  match goal with H : typed (SVariable _ _ _ _) _ _ |- _ => inversion H; subst end.
  repeat match goal with H : typed (SFor _ _) _ _ |- _ => inversion H; clear H; subst | H : typed (SAssign _ _) _ _ |- _ => inversion H; clear H; subst end.
  split; reflexivity.
Qed.
Lemma types_case2 : forall env', py_exec (SPartial "g" "c" "x") ones <> Ok env'.
Proof. intros env' E. destruct (exec_types (SPartial "g" "c" "x") ones env' (fun _ => false) (fun _ => eq_refl) E) as (gd & W & _). inversion W. discriminate. Qed.

(** x = gdual_double(1, "x", 2); y = x * x * 3; if x < y: x = y - x; else: y = x *)
Definition branch : pstmt R :=
  SSeq (SVariable "x" "c" "x" 2) (SSeq (SAssign "y" (EBin BMul (EBin BMul (EName "x") (EName "x")) (EInt 3)))
    (SIf "x" "y" (SAssign "x" (EBin BSub (EName "y") (EName "x"))) (SAssign "y" (EName "x")))).
Lemma branch_case : runs_smoothly 2 branch ones_mean /\
  exists env g, py_exec branch ones = Ok env /\ env "x" = VGdual g /\ taylor_of 2 g (fun x => 3 * (1 + x "dx") ^ 2 - (1 + x "dx")).
Proof.
  assert (S : starts 2 ones_mean ones) by (intros s; exists 1; auto).
  assert (X : runs_smoothly 2 branch ones_mean).
  { cbn [branch runs_smoothly]. split; [|split].
    - cbn. repeat split; auto. exists "x"%char, EmptyString. split; [reflexivity|discriminate].
    - cbn. auto.
    - split; [reflexivity|]. destruct (Rlt_dec _ _); cbn; auto. }
  split; auto. destruct (script 2 branch ones_mean ones ltac:(cbn; lia) S X) as (env & E & H). specialize (H "x").
  cbn [branch means] in H. destruct (Rlt_dec _ _) as [L|L] in H.
  2:{ exfalso. apply L. cbn. unfold at_point, center. cbn. lra. }
  match type of H with if ?b then _ else _ => change b with true in H end. cbv iota in H.
  destruct H as (g & Eg & _ & _ & T). exists env, g. split; [auto|split; [auto|]].
  destruct T as (c & d & Hc0 & Hd & T). exists c, d. split; [auto|split; [auto|]]. intros x r H1 H2.
  replace (3 * (1 + x "dx") ^ 2 - (1 + x "dx")) with (py_real (EBin BSub (EBin BMul (EBin BMul (EName "x") (EName "x")) (EInt 3)) (EName "x")) (fun _ => 1 + x "dx")) by (cbn; ring).
  apply T; auto.
Qed.

(** x = gdual_double(1, "x", 3); f = sin(x); g = f.partial("x") *)
Definition sin_script : pstmt R :=
  SSeq (SVariable "x" "c" "x" 3) (SSeq (SAssign "f" (ECall "sin" (EName "x"))) (SPartial "g" "f" "x")).
(** x = gdual_double(1, "x", 3); g = cos(x) *)
Definition cos_script : pstmt R := SSeq (SVariable "x" "c" "x" 3) (SAssign "g" (ECall "cos" (EName "x"))).
Lemma name_x : variable_name "x".
Proof. exists "x"%char, EmptyString. split; [reflexivity|discriminate]. Qed.
Lemma equal_script_case : exists e e' g h, py_exec sin_script ones = Ok e /\ py_exec cos_script ones = Ok e' /\
  e "g" = VGdual g /\ e' "g" = VGdual h /\ agree 2 g h.
Proof.
  assert (S : starts 3 ones_mean ones) by (intros s; exists 1; auto).
  destruct (equal_scripts 3 sin_script cos_script ones_mean ones_mean ones ones "g" "g" 2) as (e & e' & g & h & A & B & D & E & F & _);
    [cbn; lia|auto|auto| | |reflexivity|reflexivity|cbn; lia|cbn; lia| |exists e, e', g, h; auto].
  - cbn [sin_script runs_smoothly]. split; [split; [reflexivity|split; [exact name_x|lia]]|split; [|split; [reflexivity|split; [exact name_x|cbn; lia]]]].
    cbn. repeat split; auto; lia.
  - cbn [cos_script runs_smoothly]. split; [split; [reflexivity|split; [exact name_x|lia]]|]. cbn. repeat split; auto; lia.
  - exists 1. split; [lra|]. intros x _. cbn. apply is_derive_unique. unfold at_point. cbn.
    apply (is_derive_ext (fun t => sin (1 + t))); [intros t; reflexivity|]. auto_derive; auto. unfold math_fun. cbn. unfold dsym. cbn. ring.
Qed.
