(** * Programs with equal expansions (proof file for C09). *)
From Coq Require Import String Ascii Reals Lra Lia List ZArith Bool.
From Verif Require Import Ops Syms Poly Gdual Functions Spec CoreProofs ValueProofs ElemR SpecTaylor TayProofs TayIdent.
Import ListNotations.
Open Scope R_scope.
Local Open Scope string_scope.

(** Equal gduals exactly when the functions agree to the order. *)
Lemma equal_programs N point order e f : (forall s, order s = N) -> names_ok order e -> names_ok order f -> fits e N -> fits f N ->
  smooth e point -> smooth f point ->
  exists g h, calc point order e = Ok g /\ calc point order f = Ok h /\
    (geqb g h = true <->
     exists K d, 0 < d /\ 0 <= K /\ forall x r, small x r -> r <= d ->
       Rabs (real e (fun s => point s + x (dsym s)) - real f (fun s => point s + x (dsym s))) <= K * r ^ S N).
Proof.
  intros HN Ne Nf Fe Ff Se Sf. assert (HM : forall s, (N <= order s <= N)%nat) by (intros s; rewrite HN; lia).
  destruct (calc_ok point order e Ne) as (g & Eg & _). destruct (calc_ok point order f Nf) as (h & Eh & _).
  destruct (calc_inv point order N N HM e g Eg Fe Se) as (X & _ & O). destruct (calc_inv point order N N HM f h Eh Ff Sf) as (Y & _ & O').
  exists g, h. split; auto. split; auto. destruct X as (Vg & Og & Tg), Y as (Vh & Oh & Th). unfold TayProofs.at_disp in *.
  destruct Tg as (K1 & d1 & Hd1 & HK1 & B1), Th as (K2 & d2 & Hd2 & HK2 & B2). split.
  - intros E. pose proof (proj1 (value_eq_iff g h Vg Vh) E) as E'.
    exists (K1 + K2), (Rmin d1 d2). split; [apply Rmin_pos; auto|]. split; [lra|]. intros x r Hx Hr.
    pose proof (Rmin_l d1 d2). pose proof (Rmin_r d1 d2).
    specialize (B1 x r Hx ltac:(lra)). specialize (B2 x r Hx ltac:(lra)). rewrite E' in B1.
    set (a := real e _) in *. set (b := real f _) in *. set (v := value h x) in *.
    replace (a - b) with ((a - v) - (b - v)) by ring.
    eapply Rle_trans; [apply Rabs_triang|]. rewrite Rabs_Ropp. lra.
  - intros (K3 & d3 & Hd3 & HK3 & B3).
    apply (eq_of_expands N g h (fun x => real e (fun s => point s + x (dsym s)))); auto.
    + split; auto. split; auto. exists K1, d1. auto.
    + split; auto. split; auto. exists (K2 + K3), (Rmin d2 d3). split; [apply Rmin_pos; auto|]. split; [lra|]. intros x r Hx Hr.
      pose proof (Rmin_l d2 d3). pose proof (Rmin_r d2 d3).
      specialize (B3 x r Hx ltac:(lra)). specialize (B2 x r Hx ltac:(lra)).
      set (a := real e _) in *. set (b := real f _) in *. set (v := value h x) in *.
      replace (a - v) with ((a - b) + (b - v)) by ring.
      eapply Rle_trans; [apply Rabs_triang|]. lra.
Qed.

(** sin(2 x) = 2 sin(x) cos(x) at any point *)
Lemma equal_sample p : exists g h,
  calc (fun _ => p) (fun _ => 7%nat) (Fun1 Fsin (NumMul 2 (Var "x"))) = Ok g /\
  calc (fun _ => p) (fun _ => 7%nat) (NumMul 2 (Mul (Fun1 Fsin (Var "x")) (Fun1 Fcos (Var "x")))) = Ok h /\ geqb g h = true.
Proof.
  assert (A : goodv (fun _ => 7%nat) "x") by (split; [exists "x"%char, ""%string; split; [reflexivity|discriminate]|reflexivity]).
  destruct (equal_programs 7 (fun _ => p) (fun _ => 7%nat) (Fun1 Fsin (NumMul 2 (Var "x"))) (NumMul 2 (Mul (Fun1 Fsin (Var "x")) (Fun1 Fcos (Var "x")))))
    as (g & h & Eg & Eh & Q); auto; try (cbn; repeat split; auto; lia).
  - cbn. auto.
  - exists g, h. split; auto. split; auto. apply Q. exists 0, 1. split; [lra|]. split; [lra|]. intros x r _ _. cbn [real real1].
    rewrite sin_2a. match goal with |- Rabs ?z <= _ => replace z with 0 by ring end. rewrite Rabs_R0. lra.
Qed.
