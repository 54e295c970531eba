(** * Complex programs with equal expansions (proof file for C50). *)
From Coq Require Import String Ascii Reals Lra Lia List ZArith Bool.
From Coquelicot Require Import Coquelicot.
From Verif Require Import Ops Syms Poly Gdual Functions Spec CoreProofs ValueProofs SpecTaylor Cplx SpecCpx CTayProofs CTayIdent CProg.
Import ListNotations.
Open Scope R_scope.
Local Open Scope string_scope.

(** Equal gduals exactly when the functions agree to the order. *)
Lemma cequal_programs N point order e f : (forall s, order s = N) -> cnames_ok order e -> cnames_ok order f -> cfits e N -> cfits f N ->
  csmooth e point -> csmooth f point ->
  exists g h, ccalc point order e = Ok g /\ ccalc point order f = Ok h /\
    (geqb g h = true <->
     exists K d, 0 < d /\ 0 <= K /\ forall x r, csmall x r -> r <= d ->
       Cmod (cplx e (fun s => point s + x (dsym s)) - cplx f (fun s => point s + x (dsym s)))%C <= K * r ^ S N).
Proof.
  intros HN Ne Nf Fe Ff Se Sf. assert (HM : forall s, (N <= order s <= N)%nat) by (intros s; rewrite HN; lia).
  destruct (ccalc_inv point order N N HM e Ne Fe Se) as (g & Eg & X & O). destruct (ccalc_inv point order N N HM f Nf Ff Sf) as (h & Eh & Y & O').
  exists g, h. split; auto. split; auto. destruct X as (Vg & Og & Tg), Y as (Vh & Oh & Th). unfold CProg.at_disp in *.
  destruct Tg as (K1 & d1 & Hd1 & HK1 & B1), Th as (K2 & d2 & Hd2 & HK2 & B2). split.
  - intros E. pose proof (proj1 (value_eq_iff g h Vg Vh) E) as E'.
    exists (K1 + K2), (Rmin d1 d2). split; [apply Rmin_pos; auto|]. split; [lra|]. intros x r Hx Hr.
    pose proof (Rmin_l d1 d2). pose proof (Rmin_r d1 d2).
    specialize (B1 x r Hx ltac:(lra)). specialize (B2 x r Hx ltac:(lra)). rewrite E' in B1.
    set (a := cplx e _) in *. set (b := cplx f _) in *. set (v := value h x) in *.
    replace (a - b)%C with ((a - v) + - (b - v))%C by ring.
    eapply Rle_trans; [apply Cmod_triangle|]. rewrite Cmod_opp. lra.
  - intros (K3 & d3 & Hd3 & HK3 & B3).
    apply (eq_of_cexpands N g h (fun x => cplx e (fun s => point s + x (dsym s))%C)); auto.
    + split; auto. split; auto. exists K1, d1. auto.
    + split; auto. split; auto. exists (K2 + K3), (Rmin d2 d3). split; [apply Rmin_pos; auto|]. split; [lra|]. intros x r Hx Hr.
      pose proof (Rmin_l d2 d3). pose proof (Rmin_r d2 d3).
      specialize (B3 x r Hx ltac:(lra)). specialize (B2 x r Hx ltac:(lra)).
      set (a := cplx e _) in *. set (b := cplx f _) in *. set (v := value h x) in *.
      replace (a - v)%C with ((a - b) + (b - v))%C by ring.
      eapply Rle_trans; [apply Cmod_triangle|]. lra.
Qed.

(** exp(x) exp(-x) = 1 at any complex point *)
Lemma cequal_sample p : exists g h,
  ccalc (fun _ => p) (fun _ => 7%nat) (XMul (XFun Xexp (XVar "x")) (XFun Xexp (XNeg (XVar "x")))) = Ok g /\
  ccalc (fun _ => p) (fun _ => 7%nat) (XNum (RtoC 1)) = Ok h /\ geqb g h = true.
Proof.
  assert (A : goodv (fun _ => 7%nat) "x") by (split; [exists "x"%char, ""%string; split; [reflexivity|discriminate]|reflexivity]).
  destruct (cequal_programs 7 (fun _ => p) (fun _ => 7%nat) (XMul (XFun Xexp (XVar "x")) (XFun Xexp (XNeg (XVar "x")))) (XNum (RtoC 1)))
    as (g & h & Eg & Eh & Q); auto; try (cbn; repeat split; auto; lia).
  - cbn. auto.
  - exists g, h. split; auto. split; auto. apply Q. exists 0, 1. split; [lra|]. split; [lra|]. intros x r _ _. cbn [cplx cval].
    rewrite <- CFun.Cexp_add. match goal with |- Cmod ?z <= _ => replace z with (RtoC 0) end; [rewrite Cmod_0; lra|].
    rewrite Cplus_opp_r, CFun.Cexp_0. ring.
Qed.
