(** * The quadratures atanh_d and atan_d with complex coefficients (proof file). *)

From Coq Require Import String Ascii Reals Lra Lia Psatz List ZArith Bool.
From Coquelicot Require Import Coquelicot.
From Verif Require Import Ops Syms SymsFacts Poly PolyFacts Sem Den Gdual GdualFacts Functions FunStruct Spec CoefFacts CoreProofs MiscProofs FunAlg CalcProofs QuadAlg ElemR UniFun Cplx CUni CFun CFun2 CTaylor CTayUnique CTayFun SpecCpx CTayProofs CTayIdent.
Import ListNotations.
Open Scope R_scope.

(** ** Complex coefficients *)
Notation gdC := (gden idC).
Section CQ.
  Add Ring sprN : (sp_ring_theory (K := C) None) (setoid (seqv_equiv None) (sp_ring_ext None)).

  Lemma T_transfer n (d r R : gdual C) F : gwf r -> gnz r -> (n <= gord d)%nat \/ gord d = 0%nat -> gord r = gord d \/ gord r = 0%nat ->
    gord R = gord d -> seqv (Some (gord d)) (gdC r) (gdC R) -> T idC n R F -> T idC n r F.
  Proof.
    intros Wr Zr Hn Or OR E [WR ZR _ HR].
    assert (Q : seqv None (gdC r) (gdC R)).
    { apply (seqv_bounded (gord d)); auto.
      - apply (den_sdle idC). apply (dle_mono (gord r)); [lia|apply Wr].
      - apply (den_sdle idC). rewrite <- OR. apply WR. }
    constructor; auto; [lia|].
    assert (H := tay_hval idC n r R Wr WR (seqv_full _ _ _ Q)). unfold tay in *.
    eapply bigO_ext; [|exact (bigO_add _ _ _ H HR)]. intros x. cbv beta. ring.
  Qed.
  Lemma quad_ord (f dg r : gdual C) V N g0 : (forall s, In s V -> dname s) -> sto V N f -> sto V N dg ->
    compose_from_derivative f dg g0 = Ok r -> gwf r /\ gnz r /\ (gord r = N \/ gord r = 0%nat).
  Proof.
    intros Hn Sf Sd E. destruct (compose_inv f dg g0 r (sto_gwf _ _ _ Sf) (sto_gwf _ _ _ Sd) E) as [W Z]. split; auto. split; auto.
    destruct V as [|s V].
    - right. rewrite compose_nil in E by apply Sf. inversion E. reflexivity.
    - left. apply (compose_sto (s :: V) N f dg g0 r); auto. discriminate.
  Qed.

  Lemma slit_neq0' z : slit z -> z <> RtoC 0.
  Proof. intros H ->. apply H. cbn. lra. Qed.

  Lemma T_atanh_dC n d f r : T idC n d f -> slit (RtoC 1 + f origin)%C -> slit (RtoC 1 - f origin)%C ->
    (Z.of_nat (gord d) < two31)%Z -> (forall s, In s (gsyms d) -> dname s) ->
    gatanh_d d = Ok r -> T idC n r (fun x => Catanh (f x)).
  Proof.
    intros H S1 S2 B Hn E. assert (E0 := T_at0 idC _ _ _ H). pose proof (T_sto idC _ _ _ H) as Sd. pose proof (T_wf _ _ _ _ H) as W.
    unfold gatanh_d in E.
    set (A := gadd_sg k1 d). set (Bb := gsub_sg k1 d). set (D := gsub_sg k1 (gmul d d)) in *.
    assert (SA : sto (gsyms d) (gord d) A) by (apply sto_add_sg; auto).
    assert (SB : sto (gsyms d) (gord d) Bb) by (apply sto_sub_sg; auto).
    assert (SD : sto (gsyms d) (gord d) D) by (apply sto_sub_sg, sto_mul; auto).
    assert (EA : seqv None (gdC A) (sadd s1 (smul (scon (RtoC 1)) (gdC d)))).
    { unfold A. rewrite (gden_add_sg idC) by auto. change (scon (RtoC 1)) with (s1 (K:=C)). change (scon (k1 (K:=C))) with (s1 (K:=C)). ring. }
    assert (EB : seqv None (gdC Bb) (ssub s1 (smul (scon (RtoC 1)) (gdC d)))).
    { unfold Bb. rewrite (gden_sub_sg idC) by auto. change (scon (RtoC 1)) with (s1 (K:=C)). change (scon (k1 (K:=C))) with (s1 (K:=C)). ring. }
    assert (CA : constant_cf A = (RtoC 1 + constant_cf d)%C).
    { rewrite <- !scc_gd by (auto; apply SA). rewrite (scc_eqv _ _ _ EA), scc_add, scc_mul. unfold s1. rewrite !scc_scon. cbn [kadd kmul k1 OpsC]. ring. }
    assert (CB : constant_cf Bb = (RtoC 1 - constant_cf d)%C).
    { rewrite <- !scc_gd by (auto; apply SB). rewrite (scc_eqv _ _ _ EB), scc_sub, scc_mul. unfold s1. rewrite !scc_scon. cbn [ksub kmul k1 OpsC]. ring. }
    rewrite E0 in S1, S2. cbv beta in S1, S2.
    destruct (quad_ord d (gdiv_sg k1 D) r (gsyms d) (gord d) _ Hn Sd (sto_div_sg _ _ _ _ SD) E) as (Wr & Zr & Or).
    apply (T_transfer n d r (gmul_sg (RtoC (1 / 2)) (gsub (glog A) (glog Bb)))); auto.
    - apply H.
    - apply (sto_ord (gsyms d)), sto_mul_sg, sto_sub; apply sto_log; auto.
    - apply (quad_logs (RtoC 1) (RtoC (1 / 2)) (e_atanh (constant_cf d)) d A Bb D r (gsyms d) (gord d)); auto.
      + rewrite CA. apply slit_neq0'; auto.
      + rewrite CB. apply slit_neq0'; auto.
      + unfold D. rewrite (gden_sub_sg idC), (gden_mul idC) by (auto using gmul_gwf; lia).
        apply seqv_full. rewrite EA, EB. change (scon (RtoC 1)) with (s1 (K:=C)). change (scon (k1 (K:=C))) with (s1 (K:=C)). ring.
      + cbn [kadd kmul OpsC k1]. rewrite <- RtoC_mult, <- RtoC_plus. f_equal. lra.
      + rewrite CA, CB. reflexivity.
    - apply (T_ext_all idC _ _ (fun x => RtoC (1 / 2) * (Clog (RtoC 1 + f x) - Clog (RtoC 1 - f x)))%C); [reflexivity|].
      assert (N1 : nocut (RtoC 1 + f origin)%C) by (apply slit_nocut; rewrite E0; auto).
      assert (N2 : nocut (RtoC 1 - f origin)%C) by (apply slit_nocut; rewrite E0; auto).
      exact (T_mul_sg idC _ (RtoC (1 / 2)) _ _ (T_sub idC _ _ _ _ _ (T_log idC _ _ _ (T_add_sg idC _ k1 _ _ H) N1)
        (T_log idC _ _ _ (T_sub_sg idC _ k1 _ _ H) N2))).
  Qed.

  Lemma T_atan_dC n d f r : T idC n d f -> slit (RtoC 1 + Ci * f origin)%C -> slit (RtoC 1 - Ci * f origin)%C ->
    (Z.of_nat (gord d) < two31)%Z -> (forall s, In s (gsyms d) -> dname s) ->
    gatan_d d = Ok r -> T idC n r (fun x => Catan (f x)).
  Proof.
    intros H S2 S1 B Hn E. assert (E0 := T_at0 idC _ _ _ H). pose proof (T_sto idC _ _ _ H) as Sd. pose proof (T_wf _ _ _ _ H) as W.
    unfold gatan_d in E.
    set (i := gmul_sg Ci d). set (A := gsub_sg k1 i). set (Bb := gadd_sg k1 i). set (D := gadd_sg k1 (gmul d d)) in *.
    assert (Si : sto (gsyms d) (gord d) i) by (apply sto_mul_sg; auto).
    assert (Wi := sto_gwf _ _ _ Si).
    assert (SA : sto (gsyms d) (gord d) A) by (apply sto_sub_sg; auto).
    assert (SB : sto (gsyms d) (gord d) Bb) by (apply sto_add_sg; auto).
    assert (SD : sto (gsyms d) (gord d) D) by (apply sto_add_sg, sto_mul; auto).
    assert (Nb : seqv None (scon (- Ci)%C) (sopp (scon Ci))) by exact (scon_opp None Ci).
    assert (EA : seqv None (gdC A) (sadd s1 (smul (scon (- Ci)%C) (gdC d)))).
    { unfold A, i. rewrite (gden_sub_sg idC), (gden_mul_sg idC) by auto. rewrite Nb. change (scon (k1 (K:=C))) with (s1 (K:=C)). ring. }
    assert (EB : seqv None (gdC Bb) (ssub s1 (smul (scon (- Ci)%C) (gdC d)))).
    { unfold Bb, i. rewrite (gden_add_sg idC), (gden_mul_sg idC) by auto. rewrite Nb. change (scon (k1 (K:=C))) with (s1 (K:=C)). ring. }
    assert (CA : constant_cf A = (RtoC 1 - Ci * constant_cf d)%C).
    { rewrite <- !scc_gd by (auto; apply SA). rewrite (scc_eqv _ _ _ EA), scc_add, scc_mul. unfold s1. rewrite !scc_scon. cbn [kadd kmul k1 OpsC]. ring. }
    assert (CB : constant_cf Bb = (RtoC 1 + Ci * constant_cf d)%C).
    { rewrite <- !scc_gd by (auto; apply SB). rewrite (scc_eqv _ _ _ EB), scc_sub, scc_mul. unfold s1. rewrite !scc_scon. cbn [ksub kmul k1 OpsC]. ring. }
    rewrite E0 in S1, S2. cbv beta in S1, S2.
    destruct (quad_ord d (gdiv_sg k1 D) r (gsyms d) (gord d) _ Hn Sd (sto_div_sg _ _ _ _ SD) E) as (Wr & Zr & Or).
    apply (T_transfer n d r (gmul_sg (Ci / RtoC 2)%C (gsub (glog A) (glog Bb)))); auto.
    - apply H.
    - apply (sto_ord (gsyms d)), sto_mul_sg, sto_sub; apply sto_log; auto.
    - apply (quad_logs (- Ci)%C (Ci / RtoC 2)%C (e_atan (constant_cf d)) d A Bb D r (gsyms d) (gord d)); auto.
      + rewrite CA. apply slit_neq0'; auto.
      + rewrite CB. apply slit_neq0'; auto.
      + unfold D. rewrite (gden_add_sg idC), (gden_mul idC) by (auto using gmul_gwf; lia).
        apply seqv_full. rewrite EA, EB, Nb. change (scon (k1 (K:=C))) with (s1 (K:=C)).
        assert (X : seqv None (smul (scon Ci) (scon Ci)) (sopp s1)).
        { assert (Y := scon_mul None Ci Ci). rewrite <- Y. cbn [kmul OpsC]. rewrite Ci_sq. exact (scon_opp None (RtoC 1)). }
        transitivity (ssub s1 (smul (smul (scon Ci) (scon Ci)) (smul (gdC d) (gdC d)))); [rewrite X|]; ring.
      + cbn [kadd kmul OpsC k1]. replace (RtoC 2) with (RtoC 1 + RtoC 1)%C by (rewrite <- RtoC_plus; f_equal; lra).
        transitivity (- (Ci * Ci))%C; [field; apply C11_neq0|rewrite Ci_sq; ring].
      + rewrite CA, CB. reflexivity.
    - apply (T_ext_all idC _ _ (fun x => Ci / RtoC 2 * (Clog (RtoC 1 - Ci * f x) - Clog (RtoC 1 + Ci * f x)))%C); [reflexivity|].
      assert (N1 : nocut (RtoC 1 - Ci * f origin)%C) by (apply slit_nocut; rewrite E0; auto).
      assert (N2 : nocut (RtoC 1 + Ci * f origin)%C) by (apply slit_nocut; rewrite E0; auto).
      exact (T_mul_sg idC _ (Ci / RtoC 2)%C _ _ (T_sub idC _ _ _ _ _ (T_log idC _ _ _ (T_sub_sg idC _ k1 _ _ (T_mul_sg idC _ Ci _ _ H)) N1)
        (T_log idC _ _ _ (T_add_sg idC _ k1 _ _ (T_mul_sg idC _ Ci _ _ H)) N2))).
  Qed.
End CQ.

Lemma cexpands_quad n d u r : cexpands n d u -> (Z.of_nat (get_order d) < 2147483648)%Z ->
  (forall s, In s (psyms (gp d)) -> exists t, s = dsym t) ->
  (slit (RtoC 1 + u ccenter)%C -> slit (RtoC 1 - u ccenter)%C -> gatanh_d d = Ok r ->
   cexpands n r (fun x => (Clog (RtoC 1 + u x) - Clog (RtoC 1 - u x)) / RtoC 2)%C) /\
  (slit (RtoC 1 + Ci * u ccenter)%C -> slit (RtoC 1 - Ci * u ccenter)%C -> gatan_d d = Ok r ->
   cexpands n r (fun x => Ci * (Clog (RtoC 1 - Ci * u x) - Clog (RtoC 1 + Ci * u x)) / RtoC 2)%C).
Proof.
  intros H B Hn. apply cexpands_T in H. split; intros S1 S2 E; apply cexpands_T.
  - apply (T_ext_all idC _ _ (fun x => Catanh (u x))); [|apply (T_atanh_dC n d u r); auto].
    intros x. unfold Catanh. replace (RtoC (1 / 2)) with (/ RtoC 2)%C.
    + unfold Cdiv. ring.
    + rewrite <- RtoC_inv by lra. f_equal. field.
  - apply (T_ext_all idC _ _ (fun x => Catan (u x))); [|apply (T_atan_dC n d u r); auto].
    intros x. unfold Catan, Cdiv. ring.
Qed.
