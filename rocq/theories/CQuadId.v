(** * Identities of the inverse functions with complex coefficients (proof file). *)

From Coq Require Import String Ascii Reals Lra Lia Psatz List ZArith Bool.
From Coquelicot Require Import Coquelicot.
From Verif Require Import Ops Syms SymsFacts Poly PolyFacts Sem Den Gdual GdualFacts Functions FunStruct Spec CoefFacts CoreProofs MiscProofs FunAlg ElemR UniFun Cplx CUni CFun CFun2 CTaylor CTayUnique CTayFun SpecCpx CTayProofs CTayIdent CQuad.
Import ListNotations.
Open Scope R_scope.

Lemma C2_neq0 : RtoC 2 <> RtoC 0.
Proof. apply RtoC_neq0. lra. Qed.
Lemma Cint z w a b : (a * b)%C = RtoC 1 -> (a * a * (RtoC 1 - z))%C = (RtoC 1 + z)%C ->
  w = (a - b)%C -> (z * (a + b))%C = w.
Proof.
  intros P Q ->. assert (X : (a * (RtoC 1 - z))%C = ((RtoC 1 + z) * b)%C).
  { rewrite <- Q. transitivity (a * (a * b) * (RtoC 1 - z))%C; [rewrite P|]; ring. }
  transitivity (a - b + ((RtoC 1 + z) * b - a * (RtoC 1 - z)))%C; [ring|]. rewrite X. ring.
Qed.
Lemma Chalf_sq w l : w = (l / RtoC 2)%C -> (Cexp w * Cexp w)%C = Cexp l.
Proof.
  intros ->. rewrite <- Cexp_add. f_equal. unfold Cdiv.
  transitivity (l * (RtoC 2 * / RtoC 2))%C; [replace (RtoC 2) with (RtoC 1 + RtoC 1)%C at 3 by (rewrite <- RtoC_plus; f_equal; lra); ring|].
  rewrite Cinv_r by apply C2_neq0. ring.
Qed.
Lemma Clogs a b : a <> RtoC 0 -> b <> RtoC 0 -> (Cexp (Clog a - Clog b) * b)%C = a.
Proof.
  intros A B. rewrite Cexp_sub, !Cexp_log by auto. unfold Cdiv. transitivity (a * (/ b * b))%C; [ring|]. rewrite Cinv_l by auto. ring.
Qed.
Lemma tanh_atanh_C z : (RtoC 1 + z)%C <> RtoC 0 -> (RtoC 1 - z)%C <> RtoC 0 ->
  let w := cvalq Qatanh z in Ccosh w <> RtoC 0 /\ (Csinh w / Ccosh w)%C = z.
Proof.
  intros A B w. assert (Q := Chalf_sq w _ eq_refl). pose proof (Clogs _ _ A B) as L. rewrite <- Q in L.
  pose proof (Cexp_neg w) as P.
  assert (S : (z * (Cexp w + Cexp (- w)))%C = (Cexp w - Cexp (- w))%C) by (apply Cint; auto).
  assert (Cc : (Cexp w + Cexp (- w))%C = (Ccosh w * RtoC 2)%C).
  { rewrite Cexp_pm, Cexp_mm. replace (RtoC 2) with (RtoC 1 + RtoC 1)%C by (rewrite <- RtoC_plus; f_equal; lra). ring. }
  assert (Cs : (Cexp w - Cexp (- w))%C = (Csinh w * RtoC 2)%C).
  { rewrite Cexp_pm, Cexp_mm. replace (RtoC 2) with (RtoC 1 + RtoC 1)%C by (rewrite <- RtoC_plus; f_equal; lra). ring. }
  assert (E : Csinh w = (z * Ccosh w)%C).
  { rewrite Cc, Cs in S. transitivity (Csinh w * RtoC 2 * / RtoC 2)%C; [|rewrite <- S].
    - rewrite <- Cmult_assoc, Cinv_r by apply C2_neq0. ring.
    - rewrite <- !Cmult_assoc, Cinv_r by apply C2_neq0. ring. }
  assert (N : Ccosh w <> RtoC 0).
  { intros N. pose proof (Ccosh2_sinh2 w) as I. rewrite E, N in I. apply (RtoC_neq0 1); [lra|]. rewrite <- I. ring. }
  split; auto. rewrite E. unfold Cdiv. rewrite <- Cmult_assoc, Cinv_r by auto. ring.
Qed.
Lemma tan_atan_C z : (RtoC 1 + Ci * z)%C <> RtoC 0 -> (RtoC 1 - Ci * z)%C <> RtoC 0 ->
  let w := cvalq Qatan z in Ccos w <> RtoC 0 /\ (Csin w / Ccos w)%C = z.
Proof.
  intros A B w. destruct (tanh_atanh_C (Ci * z)%C A B) as [N E].
  set (v := cvalq Qatanh (Ci * z)%C) in *.
  assert (W : v = (Ci * w)%C).
  { unfold v, w. cbn [cvalq]. unfold Cdiv.
    transitivity ((Ci * Ci) * (Clog (RtoC 1 - Ci * z) - Clog (RtoC 1 + Ci * z)) * / RtoC 2)%C; [rewrite Ci_sq|]; ring. }
  rewrite W in N, E. rewrite Ccosh_i in N, E. rewrite Csinh_i in E. split; auto.
  transitivity (- (Ci * Ci) * (Csin w / Ccos w))%C; [rewrite Ci_sq; ring|].
  transitivity (- Ci * (Ci * Csin w / Ccos w))%C; [unfold Cdiv; ring|]. rewrite E.
  transitivity (- (Ci * Ci) * z)%C; [ring|rewrite Ci_sq; ring].
Qed.

Lemma aff_near b u0 : Cmod b <= 1 -> (RtoC 1 + b * u0)%C <> RtoC 0 ->
  exists e, 0 < e /\ forall z, Cmod z <= e -> (RtoC 1 + b * (u0 + z))%C <> RtoC 0.
Proof.
  intros Hb N. destruct (neq0_near _ N) as (e & He & H). exists e. split; auto. intros z Hz.
  replace (RtoC 1 + b * (u0 + z))%C with (RtoC 1 + b * u0 + b * z)%C by ring. apply H.
  rewrite Cmod_mult. pose proof (Cmod_ge_0 z). nra.
Qed.
Lemma Cmod_Ci : Cmod Ci = 1.
Proof. unfold Cmod, Ci. cbn [fst snd]. replace (0 ^ 2 + 1 ^ 2) with 1 by ring. apply sqrt_1. Qed.
Lemma quad_near q d u : cexpands (get_order d) d u -> cdomq q (u ccenter) ->
  exists e, 0 < e /\ forall x, csmall x e ->
    match q with Qatanh => (RtoC 1 + u x)%C <> RtoC 0 /\ (RtoC 1 - u x)%C <> RtoC 0
               | Qatan => (RtoC 1 + Ci * u x)%C <> RtoC 0 /\ (RtoC 1 - Ci * u x)%C <> RtoC 0 end.
Proof.
  intros H D.
  assert (A : forall b, Cmod b <= 1 -> (RtoC 1 + b * u ccenter)%C <> RtoC 0 -> exists e, 0 < e /\ forall x, csmall x e -> (RtoC 1 + b * u x)%C <> RtoC 0).
  { intros b Hb N. apply (cnear _ d u (fun y => (RtoC 1 + b * y)%C <> RtoC 0) H). apply aff_near; auto. }
  assert (M1 : Cmod (RtoC 1) <= 1) by (rewrite Cmod_R, Rabs_R1; lra).
  assert (M2 : Cmod (- RtoC 1)%C <= 1) by (rewrite Cmod_opp; auto).
  assert (M3 : Cmod Ci <= 1) by (rewrite Cmod_Ci; lra).
  assert (M4 : Cmod (- Ci)%C <= 1) by (rewrite Cmod_opp; auto).
  assert (B : forall b, Cmod b <= 1 -> Cmod (- b)%C <= 1 -> (RtoC 1 + b * u ccenter)%C <> RtoC 0 -> (RtoC 1 - b * u ccenter)%C <> RtoC 0 ->
    exists e, 0 < e /\ forall x, csmall x e -> (RtoC 1 + b * u x)%C <> RtoC 0 /\ (RtoC 1 - b * u x)%C <> RtoC 0).
  { intros b L L' N N'. destruct (A b L N) as (e & He & X). destruct (A (- b)%C L') as (e' & He' & X').
    { replace (RtoC 1 + - b * u ccenter)%C with (RtoC 1 - b * u ccenter)%C by ring. auto. }
    exists (Rmin e e'). split; [apply Rmin_pos; auto|]. intros x Hx. split.
    - apply X. intros s. pose proof (Hx s). pose proof (Rmin_l e e'). lra.
    - replace (RtoC 1 - b * u x)%C with (RtoC 1 + - b * u x)%C by ring. apply X'. intros s. pose proof (Hx s). pose proof (Rmin_r e e'). lra. }
  destruct q; cbn [cdomq] in D; destruct D as [D1 D2]; apply slit_neq0 in D1; apply slit_neq0 in D2.
  - destruct (B (RtoC 1) M1 M2) as (e & He & X).
    + rewrite Cmult_1_l. auto.
    + rewrite Cmult_1_l. auto.
    + exists e. split; auto. intros x Hx. specialize (X x Hx). rewrite !Cmult_1_l in X. auto.
  - apply (B Ci M3 M4); auto.
Qed.

Lemma c_tanh_atanh d : valid d -> cdom Xatanh (constant_cf d) -> geqb (gtanh (gatanh d)) d = true.
Proof.
  intros V D. pose proof (cexpands_self d V) as E0. pose proof (cself_center d V) as C0. rewrite <- C0 in D.
  pose proof (cexpands_fun1 Xatanh _ d _ E0 D I) as H.
  assert (X := quad_near Qatanh d _ E0 D). destruct X as (e & He & X).
  assert (X0 : csmall ccenter e) by (intros s; unfold ccenter; rewrite Cmod_0; lra).
  assert (D2 : Ccosh (cval Xatanh (value d ccenter)) <> RtoC 0) by (apply (tanh_atanh_C (value d ccenter)); apply (X ccenter X0)).
  pose proof (cexpands_fun1 Xtanh _ _ _ H D2 I) as H2.
  pose proof (co1 d V Xatanh) as O. pose proof (run1_ord Ftanh _ (proj1 H)) as O2. cbn [run1 cfun1 cval] in *.
  apply (eq_of_cexpands (get_order d) _ _ (value d)); auto; [|lia].
  eapply cexpands_fun; [|exact H2]. exists e. split; auto. intros x Hx. destruct (X x Hx). apply (tanh_atanh_C (value d x)); auto.
Qed.
Lemma c_quad q d r : valid d -> (Z.of_nat (get_order d) < 2147483648)%Z ->
  (forall s, In s (psyms (gp d)) -> exists t, s = dsym t) -> cdomq q (constant_cf d) -> runD (quadD q) d = Ok r ->
  match q with
  | Qatanh => geqb r (gatanh d) = true /\ geqb (gtanh r) d = true
  | Qatan => geqb (gtan r) d = true
  end.
Proof.
  intros V B Hn D Er. pose proof (cexpands_self d V) as E0. pose proof (cself_center d V) as C0. rewrite <- C0 in D.
  destruct (quad_near q d _ E0 D) as (e & He & X).
  assert (X0 : csmall ccenter e) by (intros s; unfold ccenter; rewrite Cmod_0; lra).
  destruct (cexpands_quad _ d _ r E0 B Hn) as [Q1 Q2].
  pose proof (runD_ord (quadD q) d r V Er) as O.
  destruct q; cbn [quadD runD cdomq] in *; destruct D as [D1 D2].
  - specialize (Q1 D1 D2 Er).
    pose proof (cexpands_fun1 Xatanh _ d _ E0 (conj D1 D2) I) as H.
    assert (D3 : Ccosh (cvalq Qatanh (value d ccenter)) <> RtoC 0) by (apply (tanh_atanh_C (value d ccenter)); apply (X ccenter X0)).
    pose proof (cexpands_fun1 Xtanh _ _ _ Q1 D3 I) as H2.
    pose proof (co1 d V Xatanh) as O1. pose proof (run1_ord Ftanh _ (proj1 Q1)) as O2. cbn [run1 cfun1 cval] in *. unfold get_order in *.
    split.
    + apply (eq_of_cexpands (get_order d) _ _ _ Q1 H); unfold get_order; lia.
    + apply (eq_of_cexpands (get_order d) _ _ (value d)); auto; unfold get_order; try lia.
      eapply cexpands_fun; [|exact H2]. exists e. split; auto. intros x Hx. destruct (X x Hx). apply (tanh_atanh_C (value d x)); auto.
  - specialize (Q2 D1 D2 Er).
    assert (D3 : Ccos (cvalq Qatan (value d ccenter)) <> RtoC 0) by (apply (tan_atan_C (value d ccenter)); apply (X ccenter X0)).
    pose proof (cexpands_fun1 Xtan _ _ _ Q2 D3 I) as H2.
    pose proof (run1_ord Ftan _ (proj1 Q2)) as O2. cbn [run1 cfun1 cval] in *. unfold get_order in *.
    apply (eq_of_cexpands (get_order d) _ _ (value d)); auto; unfold get_order; try lia.
    eapply cexpands_fun; [|exact H2]. exists e. split; auto. intros x Hx. destruct (X x Hx). apply (tan_atan_C (value d x)); auto.
Qed.
