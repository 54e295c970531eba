(** * exp of an exact model of degree two (proof file) *)
From Coq Require Import String List Arith Bool ZArith Reals Permutation Lra Lia.
From Verif Require Import Ops Syms SymsFacts Poly PolyFacts Gdual GdualFacts Functions FunStruct Bounding SpecBounding BoundSamples Spec SpecTaylor CoefFacts CoreProofs CalcProofs ValueProofs MiscProofs ElemR FunAlg TayProofs Uni UniFun Interval TaylorModel TMFunctions SpecTM TMMaps TMArith TMMul Lagrange TMTaylor TMBounds TMPow TMMisc TMSamples TMFlat TMRefute TMExact TMRefute2 TMInst TMGlue.
From Verif Require Import Sem Den.
Import ListNotations.
Local Open Scope string_scope.
Local Open Scope list_scope.
Local Open Scope R_scope.

Lemma sdle_spow_m (l : sp R) m n : sdle m l -> sdle (m * n) (spow l n).
Proof.
  intros H. induction n; cbn [spow].
  - rewrite Nat.mul_0_r. unfold s1. apply (sdle_scon (K:=R) 0 1).
  - replace (m * S n)%nat with (m + m * n)%nat by lia. apply sdle_smul; auto.
Qed.
Lemma sdle_psum_m (a : nat -> R) m n l : sdle m l -> sdle (m * n) (psum a n l).
Proof.
  intros H. induction n; cbn [psum].
  - apply sdle_scon.
  - unfold sadd. apply Forall_app. split; [apply (sdle_mono (m * n)); auto; lia|]. apply sdle_scale. apply (sdle_spow_m l m (S n)); auto.
Qed.
Lemma psum_trunc_m (a : nat -> R) m n N l : vanish m l -> (n < m * S N)%nat -> forall M, (N <= M)%nat -> seqv (Some n) (psum a M l) (psum a N l).
Proof.
  intros Hv L M. induction M; intros H.
  - replace N with O by lia. reflexivity.
  - destruct (Nat.eq_dec N (S M)) as [->|Hne]; [reflexivity|]. cbn [psum]. rewrite IHM by lia.
    assert (Hz : seqv (Some n) (spow l (S M)) s0).
    { apply vanish_seqv. apply (vanish_le _ (S M * m)); [nia|]. apply vanish_pow; auto. }
    constructor. intros F HF. rewrite Lf_sadd.
    assert (E : seqv (Some n) (smul (scon (a (S M))) (spow l (S M))) s0).
    { rewrite Hz. constructor. intros G _. rewrite Lf_smul_scon, !Lf_s0. apply Rmult_0_r. }
    rewrite (seqv_elim E F HF). rewrite Lf_s0. apply Rplus_0_r.
Qed.
(** Only powers of a homogeneous polynomial that fit under the truncation order
    survive. *)
Lemma homog_value (d r : gdual R) a m N rho : valid d -> gwf r -> gsyms r = gsyms d -> gord r = gord d ->
  sdle m (ghat idR d) -> vanish m (ghat idR d) -> (m * N <= gord d)%nat -> (gord d < m * S N)%nat -> (1 <= m)%nat ->
  seqv (Some (gord d)) (gden idR r) (psum a (gord d) (ghat idR d)) ->
  value r rho = usum a N (value d rho - constant_cf d).
Proof.
  intros Hd Hr Hs Ho Hm Hv L1 L2 Lm E. assert (Wd : gwf d) by exact (valid_gwf d Hd).
  assert (ND : NoDup (gsyms d)) by (apply ssorted_NoDup, gsyms_sorted; auto).
  rewrite (value_seqv r (psum a N (ghat idR d)) (gsyms d) rho Hr ND).
  - rewrite Lf_psum. f_equal. unfold ghat. rewrite Lf_ssub, Lf_ev_con.
    rewrite (value_Lf d (gsyms d) rho Wd ND (incl_refl _)). rewrite <- (constant_cf_scc idR) by auto. reflexivity.
  - rewrite Hs. apply incl_refl.
  - apply (seqv_bounded (gord d)).
    + rewrite <- Ho. apply (den_sdle idR). apply (gwf_dle r Hr).
    + apply (sdle_mono (m * N)); auto. apply sdle_psum_m; auto.
    + rewrite E. apply (psum_trunc_m a m); auto. nia.
Qed.

(** The function x y on [0, 1] x [0, 1], exactly, at order n. *)
Definition xy_poly (n : nat) : gdual R := mkG (mkPoly ["dx"; "dy"] [([1; 1]%nat, 1)]) n.
Definition xy_model (n : nat) : taylor_model R :=
  mkTM (xy_poly n) n 2 (0, 0) [("x", 0); ("y", 0)] [("x", (0, 1)); ("y", (0, 1))].
Definition unit_square : SpecTM.point -> Prop := fun x => 0 <= x "x" <= 1 /\ 0 <= x "y" <= 1.
Section XY.
  Variable n : nat.
  Hypothesis Hn : (2 <= n)%nat.
  Lemma xy_valid : valid (xy_poly n).
  Proof.
    constructor; cbn [xy_poly gp psyms pterms gord].
    - repeat constructor.
    - intros t [<-|[]]; reflexivity.
    - cbn. repeat constructor; intros H; cbn in H; intuition discriminate.
    - intros t [<-|[]]; cbn; unfold Reqb; destruct (Req_EM_T _ _); auto; exfalso; lra.
    - intros t [<-|[]]; cbn; lia.
  Qed.
  Lemma xy_wf : well_formed (xy_model n).
  Proof.
    constructor; cbn [xy_model m_tpol m_order m_ndim m_exp m_domain]; try reflexivity; try exact xy_valid.
    - repeat constructor; cbn; intuition discriminate.
    - repeat constructor; cbn; intuition discriminate.
    - intros s. cbn. change "dx" with (dsym "x"). change "dy" with (dsym "y"). split; intros [E|[E|[]]]; try (subst; auto; fail); injection E as <-; auto.
    - intros s. cbn. change "dx" with (dsym "x"). change "dy" with (dsym "y"). split; intros [E|[E|[]]]; try (subst; auto; fail); injection E as <-; auto.
    - intros s c J. cbn. intros [E|[E|[]]] [F|[F|[]]]; injection E as <- <-; try discriminate F; injection F as <-; unfold within; cbn; lra.
  Qed.
  Lemma xy_value rho : value (xy_poly n) rho = rho "dx" * rho "dy".
  Proof. cbn. ring. Qed.
  Lemma xy_at x : value (m_tpol (xy_model n)) (displacement (m_exp (xy_model n)) x) = x "x" * x "y".
  Proof. cbn [xy_model m_tpol m_exp]. rewrite xy_value. unfold displacement, center_of. cbn. ring. Qed.
  Lemma xy_represents : represents unit_square (xy_model n) (fun x => x "x" * x "y").
  Proof.
    split; [exact xy_wf|]. intros x [Hx Hy]. split.
    - intros s J. cbn. intros [E|[E|[]]]; injection E as <- <-; unfold within; cbn; lra.
    - rewrite xy_at. unfold within. cbn. lra.
  Qed.
  Lemma xy_cf : constant_cf (xy_poly n) = 0.
  Proof. rewrite <- (value_zero _ xy_valid). rewrite xy_value. apply Rmult_0_l. Qed.
  Lemma xy_fbar : f_bar (xy_model n) = xy_poly n.
  Proof.
    unfold f_bar. cbn [xy_model m_tpol]. rewrite xy_cf. unfold gsub_gs, psub, padd, pneg, pconst, xy_poly. cbn. unfold Reqb.
    destruct (Req_EM_T 0 0); [reflexivity|contradiction].
  Qed.
  Lemma xy_F iter : permutes iter -> (Z.of_nat n < 4294967296)%Z -> f_bar_remainder_bounds iter (xy_model n) = Ok (0, 1).
  Proof.
    intros Hp Ho. unfold f_bar_remainder_bounds. rewrite xy_fbar. cbn [xy_model m_exp m_domain m_rem].
    set (ex := [("x", 0); ("y", 0)]). set (dom := [("x", (0, 1)); ("y", (0, 1))]).
    assert (D : forall t, In t (pterms (gp (xy_poly n))) -> (list_sum (fst t) <= 62)%nat) by (intros t [<-|[]]; cbn; lia).
    assert (N1 : NoDup (map fst dom)) by (cbn; repeat constructor; cbn; intuition discriminate).
    assert (N2 : NoDup (map fst ex)) by (cbn; repeat constructor; cbn; intuition discriminate).
    assert (L : forall s, In s ["x"; "y"] -> In (s, (0, 1)) dom /\ In (s, 0) ex) by (intros s [<-|[<-|[]]]; cbn; auto).
    destruct (linear_exact (xy_poly n) ["x"; "y"] ex dom (fun _ => (0, 1)) (fun _ => 0) iter) as (lo & hi & rho & rho' & E & I1 & I2 & E1 & E2); auto.
    - exact xy_valid.
    - intros t i [<-|[]]. destruct i as [|[|[|i]]]; cbn; lia.
    - intros; cbn; lra.
    - destruct (enclose_equal (xy_poly n) ["x"; "y"] ex dom (fun _ => (0, 1)) (fun _ => 0) iter) as (lo' & hi' & E' & B); auto.
      + exact xy_valid.
      + rewrite E in E'. injection E' as <- <-. rewrite E. cbn [rbind]. unfold iadd. cbn [fst snd]. f_equal.
        assert (B0 := B (fun _ => 0) (fun _ => 0) ltac:(intros; cbn; lra) ltac:(intros; cbn; lra)).
        assert (B1 := B (fun _ => 1) (fun _ => 1) ltac:(intros; cbn; lra) ltac:(intros; cbn; lra)). rewrite xy_value in B0, B1, E1, E2.
        assert (Q : forall r, inside (map dsym ["x"; "y"]) (map snd (iter (relative_box ["x"; "y"] (fun _ => (0, 1)) (fun _ => 0)))) r -> 0 <= r "dx" * r "dy" <= 1).
        { intros r H. set (bx := map snd (iter (relative_box ["x"; "y"] (fun _ => (0, 1)) (fun _ => 0)))) in H.
          assert (Pi : forall J, In J bx -> J = (0 - 0, 1 - 0)).
          { intros J HJ. assert (P := Permutation_map snd (Hp (relative_box ["x"; "y"] (fun _ => (0, 1)) (fun _ => 0)))).
            apply (Permutation_in _ P) in HJ. destruct HJ as [<-|[<-|[]]]; reflexivity. }
          clearbody bx. inversion H as [|a I0 la l0 H0 H']; subst. inversion H' as [|b J0 lb l1 H1 H'']; subst.
          rewrite (Pi I0 (or_introl eq_refl)) in H0. rewrite (Pi J0 (or_intror (or_introl eq_refl))) in H1. cbn [fst snd] in H0, H1.
          change (dsym "x") with "dx" in H0. change (dsym "y") with "dy" in H1. nra. }
        assert (Q1 := Q _ I1). assert (Q2 := Q _ I2). change (@kadd R OpsR) with Rplus. f_equal; lra.
  Qed.
End XY.

Lemma xy_ghat n : (2 <= n)%nat -> sdle 2 (ghat idR (xy_poly n)) /\ vanish 2 (ghat idR (xy_poly n)).
Proof.
  intros Hn. assert (C : scc (gden idR (xy_poly n)) = 0).
  { rewrite <- (constant_cf_scc idR) by (apply valid_gwf, xy_valid; auto). exact (xy_cf n Hn). }
  unfold ghat. rewrite C. split.
  - unfold gden, den, tden, ssub, sadd, sopp, scon. cbn. repeat constructor.
  - apply vanish_sub.
    + intros F HF. unfold gden, den, tden. cbn. rewrite HF by (cbn; lia). toR. ring.
    + intros F HF. rewrite Lf_scon. apply Rmult_0_l.
Qed.
(** e - (1 + 1 + ... + 1/N!) is at least 1/(N+1)! *)
Lemma e_tail N : usum (fun i => 1 / INR (fact i)) N 1 + / INR (fact (S N)) <= exp 1.
Proof.
  destruct (lagrange exp_d 0 1 N) as (th & Ht & E); [intros; apply exp_ds|].
  replace (exp_d 0 (0 + 1)) with (exp 1) in E by (unfold exp_d; f_equal; ring). rewrite E.
  rewrite (usum_ext _ (fun i => exp_d i 0 / INR (fact i))) by (intros; unfold exp_d; rewrite exp_0; reflexivity).
  assert (X : 1 <= exp_d (S N) (0 + th * 1)).
  { unfold exp_d. assert (Y := exp_ineq1_le (0 + th * 1)). lra. }
  assert (P := INR_fact_lt_0 (S N)). apply Rplus_le_compat_l. rewrite pow1.
  apply (Rmult_le_reg_r (INR (fact (S N)))); auto. unfold Rdiv. field_simplify; [|lra|lra]. lra.
Qed.
Lemma ipow_unit m : (1 <= m)%nat -> ipow (0, 1) m = (0, 1).
Proof.
  intros Hm. unfold ipow. cbn [fst snd]. rewrite !kpow_pow, pow1, pow_ne_zero by lia.
  destruct (Nat.even m); [|reflexivity]. replace (@kltb R OpsR 0 k0) with false; [reflexivity|]. symmetry. cbn. unfold Rltb. destruct (Rlt_dec 0 0) as [Q|_]; [lra|reflexivity].
Qed.
(** At every order from 3 on: the terms lost by truncating the powers of x y are
    not accounted for. *)
Lemma exp_xy_wrong {iv : IvFun R} iter n : permutes iter -> iv_sound iv -> snd (i_exp (0, 1)) <= 10 -> (3 <= n)%nat -> (Z.of_nat n <= 169)%Z ->
  exists T, represents unit_square (xy_model n) (fun x => x "x" * x "y") /\ m_rem (xy_model n) = (0, 0) /\
    tm_exp iter (xy_model n) = Ok T /\ ~ encloses unit_square T (fun x => exp (x "x" * x "y")).
Proof.
  intros Hp Hiv Hu Hn Hn'. assert (H2 : (2 <= n)%nat) by lia. assert (W := xy_wf n H2). assert (V := wf_poly _ W).
  assert (S := sto_exp _ _ _ (sto_self _ (valid_gwf _ V) (proj2 (proj1 (valid_iff _) V)))).
  set (r := imul (imul (ipt (e_exp (constant_cf (m_tpol (xy_model n))) * (k1 / kfact (n + 1)))%K) (ipow (0, 1) (n + 1))) (i_exp (imul (0, 1) unit_interval))).
  destruct (same_make (xy_model n) (gexp (m_tpol (xy_model n))) r W) as (T & ET & XT & _).
  { eapply valid_sto; exact S. } { exact (sto_sym _ _ _ S). }
  exists T. split; [apply xy_represents; auto|]. split; [reflexivity|]. split.
  - unfold tm_exp. rewrite (xy_F n H2 iter Hp) by lia. cbn [rbind]. rewrite factorial_fits_le by (cbn [xy_model m_tpol get_order xy_poly gord]; lia). exact ET.
  - intros C. destruct (C (fun _ => 1)) as [_ [_ Q]]; [unfold unit_square; lra|]. subst T. cbn [m_rem m_tpol m_exp] in Q.
    destruct (xy_ghat n H2) as [G1 G2]. set (N := (n / 2)%nat). assert (LN := Nat.div_mod n 2 ltac:(lia)). assert (LM := Nat.mod_upper_bound n 2 ltac:(lia)). fold N in LN.
    rewrite (homog_value (xy_poly n) (gexp (xy_poly n)) (fun i => exp_d i (constant_cf (xy_poly n)) / INR (fact i)) 2 N) in Q; auto; try apply S; try (cbn [xy_poly gord]; lia).
    2:{ rewrite (gexp_psum idR n (xy_poly n) (valid_gwf _ V) (le_n _)).
        rewrite (psum_ext _ (fun i => exp_d i (constant_cf (xy_poly n)) / INR (fact i))); [reflexivity|]. intros i _. rewrite kfct_R. reflexivity. }
    assert (A1 := xy_at n (fun _ => 1)). cbn [xy_model m_tpol m_exp] in A1. cbn [xy_model m_exp] in Q. rewrite A1, (xy_cf n H2) in Q.
    rewrite (usum_ext _ (fun i => 1 / INR (fact i))) in Q by (intros; unfold exp_d; rewrite exp_0; reflexivity).
    replace (1 * 1 - 0) with 1 in Q by ring. replace (1 * 1) with 1 in Q by ring. assert (E := e_tail N).
    assert (J : imul (0, 1) unit_interval = (0, 1)).
    { unfold unit_interval. change (@k0 R OpsR) with 0. change (@k1 R OpsR) with 1. rewrite imul_R.
      replace (0 * 0) with 0 by ring. replace (0 * 1) with 0 by ring. replace (1 * 0) with 0 by ring. replace (1 * 1) with 1 by ring.
      rewrite (Rmin_left 0 0), (Rmin_left 0 1), (Rmin_left 0 0), (Rmax_left 0 0), (Rmax_right 0 1), (Rmax_right 0 1) by lra. auto. }
    unfold r in Q. rewrite J, ipow_unit in Q by lia. cbn [xy_model m_tpol] in Q. rewrite (xy_cf n H2) in Q. change (@e_exp R ElemR 0) with (exp 0) in Q. rewrite exp_0, kfact_R in Q.
    assert (S1 := proj1 (s_exp _ Hiv (0, 1) 0 ltac:(unfold within; cbn; lra))). rewrite exp_0 in S1. set (U := i_exp (0, 1)) in *. clearbody U.
    assert (P1 := INR_fact_lt_0 (n + 1)). assert (P2 := INR_fact_lt_0 (Datatypes.S N)).
    assert (I1 : imul (ipt ((1 * (k1 / INR (fact (n + 1))))%K : R)) (0, 1) = (0, / INR (fact (n + 1)))).
    { unfold ipt. change (1 * (k1 / INR (fact (n + 1))))%K with (1 * (1 / INR (fact (n + 1)))). assert (P3 := Rinv_0_lt_compat _ P1). rewrite imul_R.
      replace (1 * (1 / INR (fact (n + 1))) * 0) with 0 by ring. replace (1 * (1 / INR (fact (n + 1))) * 1) with (/ INR (fact (n + 1))) by (field; lra).
      rewrite (Rmin_left 0 (/ _)), (Rmax_right 0 (/ _)), Rmin_left, Rmax_left by lra. auto. }
    match type of Q with _ <= snd (imul ?X U) => assert (I2 : X = (0, / INR (fact (n + 1)))) by exact I1; rewrite I2 in Q end.
    assert (P3 := Rinv_0_lt_compat _ P1).
    assert (B : snd (imul (0, / INR (fact (n + 1))) U) <= 10 * / INR (fact (n + 1))).
    { apply imul_below; cbn [fst snd]; nra. }
    assert (F : 12 * INR (fact (Datatypes.S N)) <= INR (fact (n + 1))).
    { replace 12 with (INR 12) by (cbn; lra). rewrite <- mult_INR. apply le_INR. rewrite Nat.add_1_r. rewrite (fact_simpl n).
      assert (L := fact_le (N + 2) n ltac:(lia)). replace (N + 2)%nat with (Datatypes.S (Datatypes.S N)) in L by lia. rewrite (fact_simpl (Datatypes.S N)) in L. 
      assert (0 < fact (Datatypes.S N))%nat by apply lt_O_fact. assert (1 <= N)%nat by lia. nia. }
    assert (G : 10 * / INR (fact (n + 1)) < / INR (fact (Datatypes.S N))).
    { apply (Rmult_lt_reg_r (INR (fact (n + 1)))); auto. apply (Rmult_lt_reg_r (INR (fact (Datatypes.S N)))); auto.
      replace (10 * / INR (fact (n + 1)) * INR (fact (n + 1)) * INR (fact (Datatypes.S N))) with (10 * INR (fact (Datatypes.S N))) by (field; lra).
      replace (/ INR (fact (Datatypes.S N)) * INR (fact (n + 1)) * INR (fact (Datatypes.S N))) with (INR (fact (n + 1))) by (field; lra). lra. }
    lra.
Qed.
Lemma exp_degree_two {iv : IvFun R} iter n : permutes iter -> iv_sound iv -> snd (i_exp (0, 1)) <= 10 -> (3 <= n)%nat -> (Z.of_nat n <= 169)%Z ->
  exists (D : SpecTM.point -> Prop) A f T, represents D A f /\ m_rem A = (0, 0) /\ get_order (m_tpol A) = n /\
    tm_exp iter A = Ok T /\ ~ encloses D T (fun x => exp (f x)).
Proof.
  intros Hp Hiv Hu Hn Hn'. destruct (exp_xy_wrong iter n Hp Hiv Hu Hn Hn') as (T & H1 & H2 & H3 & H4).
  exists unit_square, (xy_model n), (fun x => x "x" * x "y"), T. auto.
Qed.
Lemma degree_two_case : permutes in_order /\ iv_sound iv_std /\ snd (i_exp (IvFun:=iv_std) (0, 1)) <= 10.
Proof.
  destruct fun_case as (D & A & f & _ & _ & _ & _ & Hp & _ & Hs & _ & _). split; [exact Hp|]. split; [exact Hs|].
  cbn. assert (X := exp_le_3). lra.
Qed.
