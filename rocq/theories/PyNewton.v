(** * Newton's method as a Python script *)
From Coq Require Import String Ascii Reals List ZArith Bool Arith Lra Lia.
From Coquelicot Require Import Coquelicot.
From Verif Require Import Ops Syms Poly Gdual Functions Spec MiscProofs ElemR SpecTaylor PyFun SpecPy PyScript SpecPyScript PyScriptProofs.
Import ListNotations.
Open Scope R_scope.
Local Open Scope string_scope.

Lemma real_only e r r' : only_x e -> r "x" = r' "x" -> py_real e r = py_real e r'.
Proof.
  intros O E. induction e; cbn in *; auto; try (rewrite IHe by auto; reflexivity).
  - subst. auto.
  - destruct O as [O1 O2]. rewrite (IHe1 O1), (IHe2 O2). reflexivity.
Qed.
Lemma number_only e gd gd' : only_x e -> gd "x" = gd' "x" -> is_number gd e = is_number gd' e.
Proof.
  intros O E. induction e; cbn in *; auto.
  - subst. rewrite E. auto.
  - destruct O as [O1 O2]. rewrite (IHe1 O1), (IHe2 O2). reflexivity.
Qed.
Lemma smooth_only e gd gd' r r' m : only_x e -> gd "x" = gd' "x" -> r "x" = r' "x" -> py_smooth gd e r m -> py_smooth gd' e r' m.
Proof.
  intros O E Er. induction e; cbn [only_x py_smooth] in *; auto.
  - destruct O as [O1 O2]. intros (S1 & S2 & S3). split; [auto|split; [auto|]]. rewrite <- (number_only e2 gd gd'), <- (real_only e1 r r'), <- (real_only e2 r r') by auto. exact S3.
  - rewrite (number_only e gd gd'), (real_only e r r') by auto. intuition.
  - rewrite (number_only e gd gd'), (real_only e r r') by auto. intuition.
Qed.
Lemma Derive_shift (f : R -> R) t : Derive (fun u => f (t + u)) 0 = Derive f t.
Proof.
  unfold Derive. f_equal. apply Lim_ext. intros h. rewrite Rplus_0_r, Rplus_0_l. reflexivity.
Qed.
Lemma least_only M e : only_x e -> is_number (holds_gdual M) e = false -> least_order M e = order_of M "x".
Proof.
  intros O. induction e; cbn in *; intros N; try discriminate; auto.
  - subst. auto.
  - destruct O as [O1 O2]. destruct (is_number (holds_gdual M) e1); cbn in N; auto.
    destruct (is_number (holds_gdual M) e2); auto. rewrite IHe1, IHe2 by auto. apply Nat.min_id.
Qed.

Section Newton.
  Variables (e : pyexpr R) (O : only_x e) (N : is_number (String.eqb "x") e = false).
  Let f : R -> R := fun t => py_real e (fun _ => t).
  Definition body : pstmt R := match newton e 0 with SFor _ b => b | c => c end.

  Lemma body_step M t : holds_gdual M "c" = false -> (forall x, fun_of M "c" x = t) ->
    (py_smooth (String.eqb "x") e (fun _ => t) 1 /\ Derive f t <> 0 -> runs_smoothly 1 body M) /\
    holds_gdual (means body M) "c" = false /\ (forall x, fun_of (means body M) "c" x = newton_step f t).
  Proof.
    intros Hc Ht. unfold body, newton. cbn [runs_smoothly means].
    set (M1 := assign M "x" true (fun x => fun_of M "c" center + x (dsym "x")) 1).
    assert (G1 : holds_gdual M1 "x" = true) by reflexivity.
    assert (N1 : is_number (holds_gdual M1) e = false) by (rewrite <- N; apply number_only; auto).
    assert (L1 : least_order M1 e = 1%nat) by (apply least_only; auto).
    rewrite N1, L1. cbn [negb].
    assert (F1 : forall x, py_real e (at_point M1 x) = f (t + x "dx")).
    { intros x. unfold f. apply real_only; auto. unfold at_point, M1. cbn. rewrite Ht. reflexivity. }
    assert (D1 : Derive (fun u => py_real e (at_point M1 (update center "dx" u))) (center "dx") = Derive f t).
    { rewrite <- (Derive_shift f t). change (center "dx") with 0. apply Derive_ext. intros u. rewrite F1. unfold update. rewrite String.eqb_refl. reflexivity. }
    set (p := fun x => py_real e (at_point M1 x)) in *.
    set (q := fun x => Derive (fun u => p (update x (dsym "x") u)) (x (dsym "x"))).
    assert (P0 : p center = f t) by (unfold p; rewrite F1; unfold center; rewrite Rplus_0_r; reflexivity).
    assert (Q0 : q center = Derive f t) by exact D1.
    split; [|split].
    - intros [S D]. split; [repeat split; auto; exists "x"%char, EmptyString; split; [reflexivity|discriminate]|].
      split; [apply (smooth_only e (String.eqb "x") _ (fun _ => t)); auto; unfold at_point, M1; cbn; rewrite Ht; unfold center; ring|].
      split; [split; [reflexivity|split; [exists "x"%char, EmptyString; split; [reflexivity|discriminate]|cbn; lia]]|].
      split; [reflexivity|]. split; [reflexivity|].
      cbn. repeat split; auto. unfold at_point. cbn. fold p. fold (q center). change (q center <> 0). rewrite Q0. exact D.
    - cbn. rewrite Hc. reflexivity.
    - intros x. cbn. unfold at_point. cbn. unfold newton_step. rewrite Ht.
      change (t - p center / q center = t - f t / Derive f t). rewrite P0, Q0. reflexivity.
  Qed.
  Lemma repeat_end {A} (g : A -> A) j : forall x, repeat_for (S j) g x = g (repeat_for j g x).
  Proof. induction j; intros x; [reflexivity|]. change (repeat_for (S j) g (g x) = g (repeat_for j g (g x))). apply IHj. Qed.
  Lemma steps M t j : holds_gdual M "c" = false -> (forall x, fun_of M "c" x = t) ->
    holds_gdual (repeat_for j (means body) M) "c" = false /\
    (forall x, fun_of (repeat_for j (means body) M) "c" x = repeat_for j (newton_step f) t).
  Proof.
    intros Hc Ht. induction j as [|j [I1 I2]]; [auto|]. rewrite !repeat_end. destruct (body_step _ _ I1 I2) as (_ & X). exact X.
  Qed.

  Lemma newton_iterates (k : nat) (env : string -> pyval R) (t : R) :
    (forall s, number_of (env s) <> None) -> number_of (env "c") = Some t ->
    (forall j, (j < k)%nat -> let u := repeat_for j (newton_step f) t in
       py_smooth (String.eqb "x") e (fun _ => u) 1 /\ Derive f u <> 0) ->
    exists env', py_exec (newton e k) env = Ok env' /\ number_of (env' "c") = Some (repeat_for k (newton_step f) t).
  Proof.
    intros He Hc H. set (M := Meaning (fun _ => false) (fun s _ => as_double (env s)) (fun _ => 0%nat)).
    assert (C1 : forall x, fun_of M "c" x = t) by (intros x; apply (PyFunProofs.as_double_number _ _ Hc)).
    assert (S : starts 1 M env).
    { intros s. cbn. specialize (He s). destruct (number_of (env s)) as [c|] eqn:E; [|congruence].
      exists c. split; auto. intros _. apply (PyFunProofs.as_double_number _ _ E). }
    destruct (script 1 (newton e k) M env ltac:(cbn; lia) S) as (env' & E & X).
    { cbn [newton runs_smoothly]. intros j Hj. destruct (steps M t j eq_refl C1) as [I1 I2].
      destruct (body_step _ _ I1 I2) as (Y & _). apply Y. apply H. auto. }
    exists env'. split; auto. specialize (X "c"). destruct (steps M t k eq_refl C1) as [I1 I2].
    change (means (newton e k) M) with (repeat_for k (means body) M) in X. rewrite I1, I2 in X. exact X.
  Qed.
End Newton.

(** ** Scripts with the same meaning *)
Lemma equal_scripts m c c' M M' env env' s t n : (Z.of_nat m < 4294967285)%Z ->
  starts m M env -> starts m M' env' -> runs_smoothly m c M -> runs_smoothly m c' M' ->
  holds_gdual (means c M) s = true -> holds_gdual (means c' M') t = true ->
  (n <= order_of (means c M) s)%nat -> (n <= order_of (means c' M') t)%nat ->
  (exists d, 0 < d /\ forall x, small x d -> fun_of (means c M) s x = fun_of (means c' M') t x) ->
  exists e e' g h, py_exec c env = Ok e /\ py_exec c' env' = Ok e' /\ e s = VGdual g /\ e' t = VGdual h /\
    agree n g h /\ (n = m -> geqb g h = true).
Proof.
  intros Hm S S' R R' Gs Gt Ln Ln' E.
  destruct (script m c M env Hm S R) as (e & Ee & H). destruct (script m c' M' env' Hm S' R') as (e' & Ee' & H').
  specialize (H s). specialize (H' t). rewrite Gs in H. rewrite Gt in H'.
  destruct H as (g & Eg & (Rg & _ & Og) & _ & Tg), H' as (h & Eh & (Rh & _ & Oh) & _ & Th).
  exists e, e', g, h. split; [auto|split; [auto|split; [auto|split; [auto|]]]].
  assert (Vg := CoefFacts.reach_valid TayProofs.neg_nz_R g Rg). assert (Vh := CoefFacts.reach_valid TayProofs.neg_nz_R h Rh).
  apply (PyDeriv.taylor_le _ n) in Tg; auto. apply (PyDeriv.taylor_le _ n) in Th; auto.
  assert (Th' : taylor_of n h (fun_of (means c M) s)).
  { apply (PyDeriv.taylor_near n h (fun_of (means c' M') t)); auto. destruct E as (d & Hd & E). exists d. split; auto. intros x Hx. symmetry. auto. }
  split.
  - apply (TayProofs.expands_unique n g h (fun_of (means c M) s)); auto.
  - intros ->. apply (TayIdent.eq_of_expands m g h (fun_of (means c M) s)); try lia; (split; [auto|split; [lia|auto]]).
Qed.
