(** * Consequences of the expansions: identities, expressions, refutations (proof file). *)

From Coq Require Import String Ascii Reals Lra Lia Psatz List ZArith Bool.
From Verif Require Import Ops Syms SymsFacts Poly PolyFacts Sem Den Gdual GdualFacts Functions FunStruct Spec CoefFacts CoreProofs ValueProofs MiscProofs FunAlg ElemR Uni UniFun UniFun2 Taylor TayUnique TayFun TayQuad SpecTaylor TayProofs.
Import ListNotations.
Open Scope R_scope.

(** ** Equality of gduals from a common expansion *)
Lemma eq_of_expands n a b f : expands n a f -> expands n b f -> (get_order a <= n)%nat -> (get_order b <= n)%nat ->
  geqb a b = true.
Proof.
  intros Ha Hb La Lb. assert (Va := proj1 Ha). assert (Vb := proj1 Hb).
  apply geqb_same; auto. intros W k HW Hk.
  destruct (le_lt_dec (list_sum k) n) as [L|L].
  - apply (expands_unique n a b f); auto; [apply Ha|apply Hb].
  - rewrite !coef_above by (first [apply valid_iff; assumption | auto; unfold get_order in *; lia]). reflexivity.
Qed.

Lemma expands_self d : valid d -> expands (get_order d) d (value d).
Proof.
  intros V. split; auto. split; auto. exists 0, 1. split; [lra|]. split; [lra|]. intros x r _ _.
  rewrite Rminus_eq_0, Rabs_R0. lra.
Qed.
Lemma self_center d : valid d -> value d center = constant_cf d.
Proof. intros V. exact (expands_at _ _ _ (expands_self d V)). Qed.
Lemma near_self n d f (P : R -> Prop) : expands n d f -> (exists e, 0 < e /\ forall y, Rabs (y - f center) <= e -> P y) ->
  exists e, 0 < e /\ forall x, small x e -> P (f x).
Proof. intros H E. apply expands_T in H. exact (T_nearP idR n d f P H E). Qed.
Lemma pos_near p : 0 < p -> exists e, 0 < e /\ forall y, Rabs (y - p) <= e -> 0 < y.
Proof. intros H. exists (p / 2). split; [lra|]. intros y Hy. revert Hy. unfold Rabs. destruct (Rcase_abs _); lra. Qed.

Lemma ord_mul (a b : gdual R) : get_order (gmul a b) = Nat.max (get_order a) (get_order b).
Proof. reflexivity. Qed.
Ltac ords := rewrite ?ord_mul; unfold get_order in *; cbn [gord gadd gsub gmul gconst gadd_sg gadd_gs gsub_sg gsub_gs] in *; try lia.
Ltac orun := repeat match goal with |- context [gord (?F ?d)] =>
  first [ rewrite (run1_ord Fsqrt d : gord (gsqrt d) = _) by auto | rewrite (run1_ord Fcbrt d : gord (gcbrt d) = _) by auto ] end.

Section Ident.
  Variable d : gdual R.
  Hypothesis V : valid d.
  Let N := get_order d.
  Let E0 := expands_self d V.
  Let C0 := self_center d V.
  Lemma o1 f : get_order (run1 f d) = N.
  Proof. apply run1_ord; auto. Qed.

  Lemma sqrt_sqr : 0 < constant_cf d -> geqb (gmul (gsqrt d) (gsqrt d)) d = true.
  Proof.
    intros P. rewrite <- C0 in P. pose proof (o1 Fsqrt) as O. cbn [run1] in O.
    assert (H := expands_run1 Fsqrt N d (value d) E0 P I). cbn [run1 real1] in H.
    apply (eq_of_expands N _ _ (value d)); auto; [|rewrite ord_mul; lia].
    destruct (expands_arith N _ _ _ _ H H) as (_ & _ & M & _).
    eapply expands_fun; [|exact M].
    destruct (near_self N d (value d) (fun y => 0 < y) E0 (pos_near _ P)) as (e & He & B).
    exists e. split; auto. intros x Hx. apply sqrt_sqrt. specialize (B x Hx). lra.
  Qed.
  Lemma cbrt_R_cube x : x <> 0 -> cbrt_R x * cbrt_R x * cbrt_R x = x.
  Proof.
    intros H. assert (G : forall y, 0 < y -> Rpower y (1 / 3) * Rpower y (1 / 3) * Rpower y (1 / 3) = y).
    { intros y Hy. rewrite <- !Rpower_plus. replace (1 / 3 + 1 / 3 + 1 / 3) with 1 by field. apply Rpower_1; auto. }
    unfold cbrt_R. destruct (Rlt_dec 0 x); [apply G; auto|]. destruct (Rlt_dec x 0); [|lra].
    specialize (G (- x) ltac:(lra)). set (c := Rpower (- x) (1 / 3)) in *. nra.
  Qed.
  Lemma cbrt_cube : constant_cf d <> 0 -> geqb (gmul (gmul (gcbrt d) (gcbrt d)) (gcbrt d)) d = true.
  Proof.
    intros P. rewrite <- C0 in P. pose proof (o1 Fcbrt) as O. cbn [run1] in O.
    assert (H := expands_run1 Fcbrt N d (value d) E0 P I). cbn [run1 real1] in H.
    apply (eq_of_expands N _ _ (value d)); auto; [|rewrite !ord_mul; lia].
    destruct (expands_arith N _ _ _ _ H H) as (_ & _ & M & _).
    destruct (expands_arith N _ _ _ _ M H) as (_ & _ & M' & _).
    eapply expands_fun; [|exact M'].
    destruct (near_self N d (value d) (fun y => y <> 0) E0) as (e & He & B).
    { exists (Rabs (value d center) / 2). assert (0 < Rabs (value d center)) by (apply Rabs_pos_lt; auto).
      split; [lra|]. intros y Hy Z. subst y. rewrite Rminus_0_l, Rabs_Ropp in Hy. lra. }
    exists e. split; auto. intros x Hx. apply cbrt_R_cube. auto.
  Qed.
  Lemma sin_cos_one : (Z.of_nat (get_order d) <= 65536)%Z ->
    geqb (gadd (gmul (gsin d) (gsin d)) (gmul (gcos d) (gcos d))) (gconst 1) = true.
  Proof.
    intros L. pose proof (o1 Fsin) as O1. pose proof (o1 Fcos) as O2. cbn [run1] in *.
    assert (H1 := expands_run1 Fsin N d (value d) E0 I L). assert (H2 := expands_run1 Fcos N d (value d) E0 I L).
    cbn [run1 real1] in *.
    apply (eq_of_expands N _ _ (fun _ => 1)); auto.
    - destruct (expands_arith N _ _ _ _ H1 H1) as (_ & _ & M1 & _). destruct (expands_arith N _ _ _ _ H2 H2) as (_ & _ & M2 & _).
      destruct (expands_arith N _ _ _ _ M1 M2) as (S & _). eapply expands_fun; [|exact S].
      exists 1. split; [lra|]. intros x _. cbv beta. apply sin2_cos2.
    - apply expands_const.
    - unfold get_order in *. cbn [gadd gmul gord]. lia.
    - unfold get_order. cbn. lia.
  Qed.
  Lemma cosh_sinh_one : geqb (gsub (gmul (gcosh d) (gcosh d)) (gmul (gsinh d) (gsinh d))) (gconst 1) = true.
  Proof.
    pose proof (o1 Fsinh) as O1. pose proof (o1 Fcosh) as O2. cbn [run1] in *.
    assert (H1 := expands_run1 Fsinh N d (value d) E0 I I). assert (H2 := expands_run1 Fcosh N d (value d) E0 I I).
    cbn [run1 real1] in *.
    apply (eq_of_expands N _ _ (fun _ => 1)); auto.
    - destruct (expands_arith N _ _ _ _ H1 H1) as (_ & _ & M1 & _). destruct (expands_arith N _ _ _ _ H2 H2) as (_ & _ & M2 & _).
      destruct (expands_arith N _ _ _ _ M2 M1) as (_ & S & _). eapply expands_fun; [|exact S].
      exists 1. split; [lra|]. intros x _. cbv beta. unfold cosh, sinh.
      assert (X : exp (value d x) * exp (- value d x) = 1) by (rewrite <- exp_plus, Rplus_opp_r; apply exp_0). nra.
    - apply expands_const.
    - unfold get_order in *. cbn [gsub gmul gord]. lia.
    - unfold get_order. cbn. lia.
  Qed.
  Lemma exp_log : 0 < constant_cf d -> geqb (gexp (glog d)) d = true.
  Proof.
    intros P. rewrite <- C0 in P. pose proof (o1 Flog) as O. cbn [run1] in O.
    assert (H := expands_run1 Flog N d (value d) E0 P I). cbn [run1 real1] in H.
    assert (Vl := proj1 H). pose proof (run1_ord Fexp (glog d) Vl) as O2. cbn [run1] in O2.
    assert (H2 := expands_run1 Fexp N _ _ H I I). cbn [run1 real1] in H2.
    apply (eq_of_expands N _ _ (value d)); auto; [|lia].
    eapply expands_fun; [|exact H2].
    destruct (near_self N d (value d) (fun y => 0 < y) E0 (pos_near _ P)) as (e & He & B).
    exists e. split; auto. intros x Hx. apply exp_ln. auto.
  Qed.
  Lemma log_exp : geqb (glog (gexp d)) d = true.
  Proof.
    pose proof (o1 Fexp) as O. cbn [run1] in O.
    assert (H := expands_run1 Fexp N d (value d) E0 I I). cbn [run1 real1] in H.
    assert (Vl := proj1 H). pose proof (run1_ord Flog (gexp d) Vl) as O2. cbn [run1] in O2.
    assert (H2 := expands_run1 Flog N _ _ H (exp_pos _) I). cbn [run1 real1] in H2.
    apply (eq_of_expands N _ _ (value d)); auto; [|lia].
    eapply expands_fun; [|exact H2]. exists 1. split; [lra|]. intros x Hx. apply ln_exp.
  Qed.

  (** The overloads of pow agree. *)
  Lemma pow_overloads z : ((z <= 0)%Z -> constant_cf d <> 0) -> geqb (gpow_real d (IZR z)) (gpow_int d z) = true.
  Proof.
    intros P. rewrite <- C0 in P. destruct (ord_pow d V) as (O1 & O2 & _).
    assert (H1 : expands N (gpow_real d (IZR z)) (fun x => rpow (value d x) (IZR z))).
    { apply expands_pow_real; auto. destruct (Z_lt_le_dec 0 z) as [L|L].
      - right. right. exists (Z.to_nat (z - 1)). rewrite INR_IZR_INZ. f_equal. lia.
      - destruct (Rtotal_order (value d center) 0) as [|[|]]; [right; left; split; eauto|exfalso; apply P; auto|left; auto]. }
    assert (H2 : expands N (gpow_int d z) (fun x => powerRZ (value d x) z)) by (apply expands_pow_int; auto; intros; apply P; lia).
    apply (eq_of_expands N _ _ (fun x => powerRZ (value d x) z)); auto; [|rewrite O1; auto|rewrite O2; auto].
    eapply expands_fun; [|exact H1]. exists 1. split; [lra|]. intros x _. cbv beta.
    unfold rpow. rewrite Int_part_IZR.
    destruct (Rlt_dec 0 (value d x)); [symmetry; apply powerRZ_Rpower; auto|].
    destruct (Req_EM_T (IZR z) (IZR z)); congruence.
  Qed.
  Lemma exp_add e : valid e -> get_order e = get_order d -> geqb (gexp (gadd d e)) (gmul (gexp d) (gexp e)) = true.
  Proof.
    intros Ve Q. assert (E1 := expands_self e Ve). rewrite Q in E1.
    destruct (expands_arith N _ _ _ _ E0 E1) as (A & _). assert (Va := proj1 A).
    pose proof (run1_ord Fexp _ Va) as Oa. pose proof (o1 Fexp) as O. pose proof (run1_ord Fexp e Ve) as Oe. cbn [run1] in *.
    assert (H := expands_run1 Fexp N d (value d) E0 I I). assert (H1 := expands_run1 Fexp N e (value e) E1 I I).
    assert (H2 := expands_run1 Fexp N _ _ A I I). cbn [run1 real1] in *.
    destruct (expands_arith N _ _ _ _ H H1) as (_ & _ & M & _).
    apply (eq_of_expands N _ _ (fun x => exp (value d x) * exp (value e x))); auto.
    - eapply expands_fun; [|exact H2]. exists 1. split; [lra|]. intros x _. apply exp_plus.
    - rewrite Oa. unfold get_order in *. cbn [gadd gord]. lia.
    - rewrite ord_mul. unfold N. lia.
  Qed.
  Lemma tan_quot : (Z.of_nat (get_order d) <= 65536)%Z -> cos (constant_cf d) <> 0 -> geqb (gtan d) (gdiv (gsin d) (gcos d)) = true.
  Proof.
    intros L P. rewrite <- C0 in P. pose proof (o1 Ftan) as O. pose proof (o1 Ftanq) as O'. cbn [run1] in *.
    assert (H := expands_run1 Ftan N d (value d) E0 P I). assert (H' := expands_run1 Ftanq N d (value d) E0 P L).
    change (gdiv (gsin d) (gcos d)) with (gtan_quad d).
    apply (eq_of_expands N _ _ (fun x => tan (value d x))); auto; unfold N in *; lia.
  Qed.
  Lemma tanh_quot : geqb (gtanh d) (gdiv (gsinh d) (gcosh d)) = true.
  Proof.
    pose proof (o1 Ftanh) as O. pose proof (o1 Ftanhq) as O'. cbn [run1] in *.
    assert (H := expands_run1 Ftanh N d (value d) E0 I I). assert (H' := expands_run1 Ftanhq N d (value d) E0 I I).
    change (gdiv (gsinh d) (gcosh d)) with (gtanh_quad d).
    apply (eq_of_expands N _ _ (fun x => tanh (value d x))); auto; unfold N in *; lia.
  Qed.
  (** The *_d functions agree with the series versions. *)
  Lemma quad_same fd f g : In (fd, f) [(Datanh, Fatanh); (Datan, Fatan); (Dasin, Fasin); (Dasinh, Fasinh); (Dacos, Facos); (Dacosh, Facosh)] ->
    (forall s, In s (psyms (gp d)) -> exists t, s = dsym t) ->
    (Z.of_nat (get_order d) < 2147483648)%Z -> fits1 f (get_order d) -> domD fd (constant_cf d) ->
    runD fd d = Ok g -> geqb g (run1 f d) = true.
  Proof.
    intros Hin Hn L F D E. rewrite <- C0 in D.
    assert (D1 : dom1 f (value d center)) by (simpl in Hin; intuition; match goal with X : (_, _) = (_, _) |- _ => inversion X; subst end; exact D || exact I).
    assert (H := expands_runD fd N d (value d) g E0 D L Hn E). assert (H' := expands_run1 f N d (value d) E0 D1 F).
    pose proof (runD_ord fd d g V E) as O. pose proof (o1 f) as O'.
    apply (eq_of_expands N _ _ (fun x => realD fd (value d x))); auto; [|unfold N in *; lia].
    simpl in Hin; intuition; match goal with X : (_, _) = (_, _) |- _ => inversion X; subst end; exact H'.
  Qed.
End Ident.

(** sin and cos, sinh and cosh computed together. *)
Lemma pairs_same (d : gdual R) : gsin_and_cos d = (gsin d, gcos d) /\ gsinh_and_cosh d = (gsinh d, gcosh d).
Proof. split; reflexivity. Qed.

(** atan at a point with value 0 is right at every order. *)
Lemma expands_atan0 n d u : expands n d u -> (get_order d <= 30)%nat \/ u center = 0 -> expands n (gatan d) (fun x => atan (u x)).
Proof. intros H D. apply expands_T in H. apply expands_T. exact (T_atan idR n d u H D). Qed.

(** abs *)
Lemma abs_spec (d : gdual R) : (0 <= constant_cf d -> gabs d = d) /\ (constant_cf d < 0 -> gabs d = gneg d).
Proof.
  unfold gabs. cbn [kltb keqb k0 OpsR]. unfold Rltb, Reqb. split; intros H.
  - destruct (Rlt_dec _ _); [reflexivity|]. destruct (Req_EM_T _ _); [reflexivity|]. exfalso. lra.
  - destruct (Rlt_dec _ _); [exfalso; lra|]. destruct (Req_EM_T _ _); [exfalso; lra|]. reflexivity.
Qed.

(** ** Bernoulli table *)
Lemma ks_in_range order k : In k (ks order) -> (k < length (bn (K := R) order))%nat.
Proof. unfold ks, bn. rewrite map_length, seq_length, in_seq. lia. Qed.

(** ** Expressions evaluate *)
Definition goods (g : gdual R) : Prop := forall s, In s (gsyms g) -> good_name s.
Lemma goods_sto V n g : (forall s, In s V -> good_name s) -> sto V n g -> goods g.
Proof. intros H [_ _ _ S] s Hs. apply H. rewrite <- S. exact Hs. Qed.
Lemma goods_weak V n g : (forall s, In s V -> good_name s) -> weak V n g -> goods g.
Proof. intros H [S|S]; [eapply goods_sto; [|exact S]; contradiction|eapply goods_sto; eauto]. Qed.
Lemma goods_union a b : goods a -> goods b -> forall s, In s (sunion (gsyms a) (gsyms b)) -> good_name s.
Proof. intros Ha Hb s Hs. apply sunion_In in Hs. destruct Hs; auto. Qed.
Lemma calc_ok point order e : names_ok order e -> exists g, calc point order e = Ok g /\ reach g /\ goods g.
Proof.
  induction e; intros Hn; cbn [names_ok] in Hn; cbn [calc];
    repeat match goal with Hh : _ /\ _ |- _ => destruct Hh end;
    repeat match goal with
    | IH : names_ok _ ?a -> _, Hh : names_ok _ ?a |- _ =>
        let q := fresh "q" in let E := fresh "E" in let A := fresh "RE" in let B := fresh "GO" in
        destruct (IH Hh) as (q & E & A & B); rewrite E; cbn [rbind]; clear IH Hh E;
        let S := fresh "ST" in pose proof (sto_valid _ (reach_valid neg_nz_R _ A)) as S
    end.
  - eexists. split; [reflexivity|]. split; [apply reach_const|]. intros s Hs. rewrite gsyms_gconst in Hs. contradiction.
  - destruct Hn as [(c & r & -> & Hc) Ho]. pose proof (gvar_spec (point (String c r)) (String c r) (order (String c r))) as S.
    destruct (gvar _ _ _) as [g|x] eqn:E.
    + exists g. split; auto. split; [eapply reach_var; eauto|].
      destruct S as (_ & _ & _ & S & V). intros s Hs.
      pose proof (reach_names neg_nz_R g (reach_var _ _ _ g E)) as [_ M]. rewrite S in M. unfold gsyms in Hs.
      rewrite <- M in Hs. destruct Hs as [<-|[]]. exists c, r. auto.
    + exfalso. destruct x; auto; [destruct S as [S|[r' S]]; [lia|inversion S; auto]|discriminate].
  - eexists. split; [reflexivity|]. split; [apply reach_add; auto|]. eapply goods_sto; [|apply sto_add2; eauto]. apply goods_union; auto.
  - eexists. split; [reflexivity|]. split; [apply reach_sub; auto|]. eapply goods_sto; [|apply sto_sub2; eauto]. apply goods_union; auto.
  - eexists. split; [reflexivity|]. split; [apply reach_mul; auto|]. eapply goods_sto; [|apply sto_mul2; eauto]. apply goods_union; auto.
  - eexists. split; [reflexivity|]. split; [apply reach_div; auto|]. eapply goods_sto; [|apply sto_div2; eauto]. apply goods_union; auto.
  - eexists. split; [reflexivity|]. split; [apply reach_neg; auto|]. exact GO.
  - eexists. split; [reflexivity|]. split; [apply reach_add_sg; auto|]. eapply goods_sto; [exact GO|]. apply sto_add_sg; eauto.
  - eexists. split; [reflexivity|]. split; [apply reach_add_gs; auto|]. eapply goods_sto; [exact GO|]. apply sto_add_gs; eauto.
  - eexists. split; [reflexivity|]. split; [apply reach_sub_sg; auto|]. eapply goods_sto; [exact GO|]. apply sto_sub_sg; eauto.
  - eexists. split; [reflexivity|]. split; [apply reach_sub_gs; auto|]. eapply goods_sto; [exact GO|]. apply sto_sub_gs; eauto.
  - eexists. split; [reflexivity|]. split; [apply reach_mul_sg; auto|]. eapply goods_sto; [exact GO|]. apply sto_mul_sg; eauto.
  - eexists. split; [reflexivity|]. split; [apply reach_mul_gs; auto|]. eapply goods_sto; [exact GO|]. apply sto_mul_gs; eauto.
  - eexists. split; [reflexivity|]. split; [apply reach_div_sg; auto|]. eapply goods_sto; [exact GO|]. apply sto_div_sg; eauto.
  - eexists. split; [reflexivity|]. split; [apply reach_div_gs; auto|]. eapply goods_sto; [exact GO|]. apply sto_div_gs; eauto.
  - eexists. split; [reflexivity|]. split; [apply reach_fun1; auto|]. assert (Va := reach_valid neg_nz_R _ RE).
    destruct (series_atan f) eqn:Ef.
    + apply (goods_weak (gsyms q) (gord q)); auto. destruct f; try discriminate; cbn [run1].
      * apply weak_atan; auto.
      * apply weak_atanh; auto.
      * apply weak_asin; auto.
      * apply weak_acos; auto.
    + apply (goods_sto (gsyms q) (gord q)); auto. apply run1_sto; auto; [exact neg_nz_R|congruence].
  - assert (Va := reach_valid neg_nz_R _ RE). destruct (runD_ok f q Va GO) as [g Eg].
    assert (Rg : reach g) by (eapply reach_funD; eauto). exists g. split; auto. split; auto.
    destruct (gsyms q) as [|s0 l] eqn:Es.
    + assert (Hc : forall dg v0, compose_from_derivative q dg v0 = Ok (gconst v0)) by (intros; apply compose_nil; auto).
      intros s Hs. exfalso. destruct f; cbn [runD] in Eg;
        try (unfold gatanh_d, gatan_d, gasin_d, gasinh_d, gacos_d, gacosh_d, gerf in Eg; cbv zeta in Eg; rewrite Hc in Eg; inversion Eg; subst g; rewrite gsyms_gconst in Hs; contradiction).
      unfold gerfc, gerf in Eg. cbv zeta in Eg. rewrite Hc in Eg. cbn [rbind] in Eg. inversion Eg; subst g.
      rewrite gsyms_gsub_sg, gsyms_gconst in Hs. contradiction.
    + assert (Ne : psyms (gp q) <> []) by (unfold gsyms in Es; rewrite Es; discriminate).
      destruct (runD_sto f q g Va (reach_dnames neg_nz_R q RE) Ne Eg) as [S _].
      pose proof (reach_names neg_nz_R g Rg) as [_ M]. pose proof (reach_names neg_nz_R q RE) as [_ M'].
      intros s Hs. apply GO. unfold gsyms in *. rewrite <- M in Hs. rewrite S, M' in Hs. exact Hs.
  - eexists. split; [reflexivity|]. split; [apply reach_pow; auto|]. eapply goods_sto; [|apply sto_pow; eauto]. apply goods_union; auto.
  - eexists. split; [reflexivity|]. split; [apply reach_pow_sg; auto|]. unfold gpow_sg. destruct (Nat.eqb_spec (gdegree q) 0).
    + intros s Hs. rewrite gsyms_gconst in Hs. contradiction.
    + apply (goods_sto (gsyms q) (gord q)); [exact GO|]. auto with sto.
  - eexists. split; [reflexivity|]. split; [apply reach_pow_real; auto|]. eapply goods_sto; [exact GO|]. apply sto_pow_real; eauto.
  - eexists. split; [reflexivity|]. split; [apply reach_pow_int; auto|]. eapply goods_sto; [exact GO|]. apply sto_pow_int; eauto.
Qed.

(** The quadrature for any function with a continuous derivative. *)
Lemma expands_compose n d dg u c r F F' : expands n d u ->
  expands (get_order d) dg (fun x => F' (value d x)) -> get_order dg = get_order d -> psyms (gp dg) = psyms (gp d) ->
  (Z.of_nat (get_order d) < 2147483648)%Z -> (forall s, In s (psyms (gp d)) -> exists t, s = dsym t) ->
  (exists e, 0 < e /\ forall y, Rabs (y - u center) <= e -> derivable_pt_lim F y (F' y)) ->
  continuity_pt F' (u center) -> c = F (u center) ->
  compose_from_derivative d dg c = Ok r -> expands n r (fun x => F (u x)).
Proof.
  intros H Hg O Sy L N (e & He & D) C -> E. apply expands_T in H.
  assert (Vg := proj1 Hg). apply valid_iff in Vg. destruct Vg as [Wg Ng].
  apply expands_T in Hg. apply expands_T.
  apply (T_quad idR n d u dg (F (u center)) r F F'); auto.
  - apply (T_ext idR _ _ (fun x => F' (value d x))); auto. exists 1. split; [lra|]. intros x _.
    f_equal. symmetry. apply (hval_value d). apply H.
  - constructor; auto.
  - exists e. split; auto. intros y Hy. apply Coquelicot.Derive.is_derive_Reals. auto.
  - apply Coquelicot.Hierarchy.continuity_pt_filterlim. exact C.
Qed.

(** Programs compute Taylor expansions. *)
Lemma program_taylor point order M n e : (forall s, (n <= order s <= M)%nat) -> names_ok order e -> fits e M -> smooth e point ->
  exists g, calc point order e = Ok g /\ valid g /\ (get_order g <= M)%nat /\
    taylor_of n g (fun x => real e (fun s => point s + x (dsym s))).
Proof.
  intros HM Hn F Sm. destruct (calc_ok point order e Hn) as (g & E & Rg & _). exists g. split; auto.
  destruct (calc_inv point order M n HM e g E F Sm) as ((V & _ & T) & _ & O). split; auto.
Qed.

(** ** atan beyond order 30 *)
Lemma uexp_self c p n : uexp (fun y => usum c n (y - p)) p n c.
Proof.
  exists 0, 1. split; [lra|]. split; [lra|]. intros x _. replace (p + x - p) with x by ring.
  rewrite Rminus_eq_0, Rabs_R0. lra.
Qed.
Lemma atan_wrong_T n d f : expands n d f -> expands n (gatan d) (fun x => usum (atanc (f center)) (gord d) (f x - f center)).
Proof.
  intros H. assert (E := expands_at _ _ _ H). apply expands_T in H. apply expands_T. pose proof H as [W Z O Ht].
  assert (S : sto [] 0 (gatan d) /\ gord d = 0%nat \/ sto (gsyms d) (gord d) (gatan d)).
  { destruct (gatan_weak d W Z) as [X|X]; auto. destruct (Nat.eq_dec (gord d) 0); auto.
    right. apply gatan_sto; auto. }
  apply (T_comp idR n d (gatan d) f (fun y => usum (atanc (f center)) (gord d) (y - f center)) (atanc (f center))); auto.
  - destruct S as [[[]]|[]]; auto.
  - destruct S as [[[]]|[]]; auto.
  - destruct S as [[[]]|[]]; auto.
  - apply uexp_self.
  - change (f center) with (f (fun _ => 0)) in *. rewrite E. apply (gatan_psum idR); auto. simpl. nra.
Qed.
Lemma uexp_atan_true p n : uexp atan p (S n) (fun i => match i with O => atan p | S j => (-1) ^ j * zB p (S j) / (INR (S j) * (1 + p * p) ^ S j) end).
Proof.
  apply (uexp_int atan (fun x => / (1 + x * x))).
  - exists 1. split; [lra|]. intros x _. replace ((p + x) * (p + x)) with ((p + x) ^ 2) by ring.
    apply Coquelicot.Derive.is_derive_Reals, derivable_pt_lim_atan.
  - apply (uexp_ext _ _ _ (fun i => (-1) ^ i * zB p (S i) / (1 + p * p) ^ S i)); [|apply uexp_atan_deriv].
    intros i Hi. field. split; [apply pow_nonzero; nra|apply not_0_INR; lia].
  - reflexivity.
Qed.
Fixpoint zABZ (p : Z) (k : nat) : Z * Z :=
  match k with O => (1, 0)%Z | S m => let '(a, b) := zABZ p m in (p * a - b, a + p * b)%Z end.
Lemma zAB_IZR p k : zA (IZR p) k = IZR (fst (zABZ p k)) /\ zB (IZR p) k = IZR (snd (zABZ p k)).
Proof.
  induction k as [|k [A B]]; [split; reflexivity|]. cbn [zA zB zABZ]. rewrite A, B. destruct (zABZ p k) as [a b]. cbn [fst snd].
  rewrite minus_IZR, plus_IZR, !mult_IZR. auto.
Qed.
Definition atan_oddZ (p0 : Z) (k : nat) : Z :=
  let '(binom, _, _) :=
    fold_left (fun '(binom, f0, cf_i) j => ((binom + (ubinomial k (2 * j) * cf_i) * f0), (f0 * (p0 * p0)), (- cf_i))%Z)
              (seq 1 (k / 2)) (1, p0 * p0, -1)%Z in
  binom.
Lemma atan_odd_IZR p k : atan_odd (IZR p) k = IZR (atan_oddZ p k).
Proof.
  unfold atan_odd, atan_oddZ. set (F := fun '(binom, f0, cf_i) j => _). set (F' := fun '(binom, f0, cf_i) j => _).
  assert (G : forall l a b c, fold_left F l (IZR a, IZR b, IZR c) = (let '(a, b, c) := fold_left F' l (a, b, c) in (IZR a, IZR b, IZR c))).
  { induction l as [|j l IH]; intros a b c; [reflexivity|]. cbn [fold_left].
    change (F' (a, b, c) j) with ((a + (ubinomial k (2 * j) * c) * b)%Z, (b * (p * p))%Z, (- c)%Z). rewrite <- IH. f_equal. unfold F.
    cbn [kadd kmul kopp kofZ OpsR]. rewrite opp_IZR, plus_IZR, !mult_IZR. reflexivity. }
  change (k1, kmul (IZR p) (IZR p), kopp k1) with (IZR 1, IZR p * IZR p, - (1))%R. rewrite <- mult_IZR, <- opp_IZR.
  rewrite G. destruct (fold_left F' _ _) as [[? ?] ?]. reflexivity.
Qed.
Lemma bigO_line n F G (p : R) s c : (exists C d, 0 < d /\ 0 <= C /\ forall x r, small x r -> r <= d -> Rabs (F (p + x s) - G (p + x s)) <= C * r ^ S n) ->
  uexp G p n c -> uexp F p n c.
Proof.
  intros (C & d & Hd & HC & H) (C' & d' & Hd' & HC' & H'). exists (C + C'), (Rmin d d').
  split; [apply Rmin_pos; auto|]. split; [lra|]. intros t Ht.
  assert (L1 : Rabs t <= d) by (eapply Rle_trans; [exact Ht|apply Rmin_l]).
  assert (L2 : Rabs t <= d') by (eapply Rle_trans; [exact Ht|apply Rmin_r]).
  specialize (H (fun _ => t) (Rabs t) (fun _ => Rle_refl _) L1). specialize (H' t L2). cbv beta in H.
  replace (F (p + t) - usum c n t) with ((F (p + t) - G (p + t)) + (G (p + t) - usum c n t)) by ring.
  eapply Rle_trans; [apply Rabs_triang|]. lra.
Qed.

Lemma atan_refuted : exists d : gdual R, gvar 1 "x"%string 31 = Ok d /\
  ~ taylor_of 31 (gatan d) (fun x => atan (1 + x (dsym "x"%string))).
Proof.
  destruct (gvar 1 "x"%string 31) as [d|] eqn:E.
  2:{ pose proof (gvar_spec 1 "x"%string 31) as S. rewrite E in S. exfalso. destruct e; auto; [|discriminate].
      destruct S as [S|[r S]]; [lia|discriminate]. }
  exists d. split; auto. intros Ht.
  pose proof (expands_var 31 31 1 "x"%string d (le_n _) E) as H.
  assert (Og : gord d = 31%nat) by (pose proof (gvar_spec 1 "x"%string 31) as S; rewrite E in S; destruct S as (_ & _ & O & _); exact O).
  pose proof (atan_wrong_T 31 d _ H) as W. rewrite Og in W. unfold center in W. rewrite Rplus_0_r in W.
  destruct W as (_ & _ & W).
  assert (U : uexp atan 1 31 (atanc 1)).
  { apply (bigO_line 31 atan (fun y => usum (atanc 1) 31 (y - 1)) 1 (dsym "x"%string)); [|apply uexp_self].
    destruct W as (C & e & He & HC & B). destruct Ht as (C' & e' & He' & HC' & B').
    exists (C + C'), (Rmin e e'). split; [apply Rmin_pos; auto|]. split; [lra|]. intros x r Hx Hr.
    specialize (B x r Hx (Rle_trans _ _ _ Hr (Rmin_l _ _))). specialize (B' x r Hx (Rle_trans _ _ _ Hr (Rmin_r _ _))).
    cbv beta in *.
    set (u := usum _ _ _) in *. set (v := value (gatan d) x) in *. set (a := atan _) in *.
    replace (a - u) with ((a - v) - (u - v)) by ring. eapply Rle_trans; [apply Rabs_triang|]. rewrite Rabs_Ropp. lra. }
  pose proof (uexp_unique atan 1 31 _ _ U (uexp_atan_true 1 30) 31 (le_n _)) as Q.
  revert Q. cbn [atanc]. toR. intros Q.
  change (Nat.odd 31) with true in Q. cbv iota in Q. change (31 / 2)%nat with 15%nat in Q.
  rewrite (atan_odd_IZR 1) in Q. destruct (zAB_IZR 1 31) as [_ ZB]. rewrite ZB in Q.
  replace (snd (zABZ 1 31)) with (-32768)%Z in Q by (vm_compute; reflexivity).
  set (w := atan_oddZ 1 31) in Q. vm_compute in w. subst w.
  assert (P1 : (-1) ^ 15 = -1) by (simpl; ring). assert (P2 : (-1) ^ 30 = 1) by (simpl; ring).
  rewrite P1, P2 in Q. assert (N31 : INR 31 <> 0) by (apply not_0_INR; lia).
  assert (N2 : (1 + 1 * 1) ^ 31 <> 0) by (apply pow_nonzero; lra).
  apply (f_equal (fun z => z * (INR 31 * (1 + 1 * 1) ^ 31))) in Q.
  unfold Rdiv in Q. rewrite !Rmult_assoc, !(Rmult_comm (/ _)), !Rinv_r in Q by (apply Rmult_integral_contrapositive; auto).
  lra.
Qed.

(** ** Concrete cases *)
Lemma var_ok v s n : (exists c r, s = String c r /\ c <> "d"%char) -> (n < 1000)%nat -> exists g : gdual R, gvar v s n = Ok g.
Proof.
  intros (c & r & -> & Hc) L. pose proof (gvar_spec v (String c r) n) as S.
  destruct (gvar v (String c r) n) as [g|x]; [eauto|exfalso].
  destruct x; auto; [destruct S as [S|[r' S]]; [lia|inversion S; auto]|discriminate].
Qed.
(** (a + dx) (1 + dy) at order 3 *)
Lemma sample a : exists d, expands 3 d (fun x => (a + x "dx"%string) * (1 + x "dy"%string)) /\ reach d /\
  get_order d = 3%nat /\ get_symbol_set d = ["x"; "y"]%string /\ constant_cf d = a.
Proof.
  destruct (var_ok a "x"%string 3) as [X EX]; [eexists; eexists; split; [reflexivity|discriminate]|lia|].
  destruct (var_ok 1 "y"%string 3) as [Y EY]; [eexists; eexists; split; [reflexivity|discriminate]|lia|].
  pose proof (expands_var 3 3 a "x"%string X (le_n _) EX) as HX.
  pose proof (expands_var 3 3 1 "y"%string Y (le_n _) EY) as HY.
  destruct (expands_arith 3 _ _ _ _ HX HY) as (_ & _ & M & _).
  pose proof (gvar_spec a "x"%string 3) as SX. rewrite EX in SX. destruct SX as (_ & _ & OX & NX & _).
  pose proof (gvar_spec 1 "y"%string 3) as SY. rewrite EY in SY. destruct SY as (_ & _ & OY & NY & _).
  exists (gmul X Y). split; [exact M|]. split; [apply reach_mul; eapply reach_var; eauto|].
  split; [rewrite ord_mul, OX, OY; reflexivity|]. split.
  - unfold get_symbol_set in *.
    pose proof (reach_names neg_nz_R X (reach_var _ _ _ X EX)) as [_ MX]. unfold get_symbol_set in MX. rewrite NX in MX.
    pose proof (reach_names neg_nz_R Y (reach_var _ _ _ Y EY)) as [_ MY]. unfold get_symbol_set in MY. rewrite NY in MY.
    change (psyms (gp (gmul X Y))) with (sunion (psyms (gp X)) (psyms (gp Y))). rewrite <- MX, <- MY. reflexivity.
  - rewrite <- (expands_at _ _ _ M). unfold center. ring.
Qed.
