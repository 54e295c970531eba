(** * The polynomial parts of the operations on Taylor models (proof file)

    Whatever the remainder, the polynomial of the result holds the Taylor
    expansion of the function computed. *)
From Coq Require Import String List Arith Bool ZArith Lia Reals Lra.
From Verif Require Import Ops Syms SymsFacts Poly PolyFacts Gdual GdualFacts Functions FunStruct Spec CoefFacts CoreProofs ValueProofs ElemR SpecTaylor Taylor TayFun TayProofs TayIdent TaySubs Interval TaylorModel TMFunctions TMTaylor SpecTM TMMul TMSamples TMInst TMGlue.
Import ListNotations.
Open Scope string_scope.
Open Scope list_scope.
Open Scope R_scope.

Lemma powerRZ_pos_pow r z : (0 <= z)%Z -> powerRZ r z = r ^ Z.to_nat z.
Proof. destruct z; intros H; [reflexivity|reflexivity|lia]. Qed.
Lemma powerRZ_neg_pow r z : (z < 0)%Z -> powerRZ r z = / r ^ Z.to_nat (- z).
Proof. destruct z; intros H; [lia|lia|reflexivity]. Qed.

Lemma Rabs_sqr_sqrt a : Rabs a = sqrt (a * a).
Proof. symmetry. apply sqrt_Rsqr_abs. Qed.
Section Poly.
  Context {iv : IvFun R}.
  Variable iter : list (string * (R * R)) -> list (string * (R * R)).
  Notation pol t n f := (expands n (m_tpol t) f) (only parsing).

  Lemma make_poly (p : gdual R) r ex dm T : tm_make p r ex dm = Ok T -> m_tpol T = p.
  Proof. unfold tm_make. destruct (check_input_validity _); cbn [rbind]; [|discriminate]. intros E. injection E as <-. reflexivity. Qed.
  Lemma trimmed_poly (p : gdual R) r t T : trimmed p r t = Ok T -> m_tpol T = p.
  Proof. unfold trimmed. destruct (trim_map _ _); cbn [rbind]; [|discriminate]. destruct (trim_map _ _); cbn [rbind]; [|discriminate]. apply make_poly. Qed.
  Lemma rbind_Ok {A B} (a : res A) (k : A -> res B) b : rbind a k = Ok b -> exists x, a = Ok x /\ k x = Ok b.
  Proof. destruct a; cbn; [eauto|discriminate]. Qed.

  Lemma same_expands n (a b : gdual R) f : valid a -> ((n <= get_order a)%nat \/ get_order a = 0%nat) -> (forall x, value a x = value b x) -> expands n b f -> expands n a f.
  Proof.
    intros V O E (_ & _ & C & d & Hd & HC & B). split; auto. split; auto. exists C, d. split; auto. split; auto. intros x r Hx Hr. rewrite E. auto.
  Qed.
  Lemma uadd_fits a b : (Z.of_nat a + Z.of_nat b < 4294967285)%Z -> uadd a b = (a + b)%nat.
  Proof. intros H. unfold uadd, two32. rewrite Z.mod_small by lia. lia. Qed.

  Lemma mul_poly n A B T f g : tm_mul iter A B = Ok T -> (1 <= get_order (m_tpol A) + get_order (m_tpol B))%nat ->
    (Z.of_nat (get_order (m_tpol A)) + Z.of_nat (get_order (m_tpol B)) < 4294967285)%Z -> pol A n f -> pol B n g ->
    pol T n (fun x => f x * g x) /\ (get_order (m_tpol T) <= Nat.max (get_order (m_tpol A)) (get_order (m_tpol B)))%nat.
  Proof.
    intros E O1 O2 HA HB. assert (VA := proj1 HA). assert (VB := proj1 HB).
    destruct (expands_arith n _ _ _ _ HA HB) as (_ & _ & HM & _).
    unfold tm_mul in E. destruct (zero_check (m_tpol A) VA) as (z & Ez & ZA). destruct (zero_check (m_tpol B) VB) as (z' & Ez' & ZB).
    change (@k0 R OpsR) with 0 in E. rewrite Ez in Ez'. injection Ez' as <-. rewrite Ez in E. cbn [rbind] in E.
    destruct (geqb (m_tpol A) z || geqb (m_tpol B) z) eqn:EZ.
    - injection E as <-. cbn [m_tpol tm_const]. split; [|cbn; lia].
      assert (V0 : valid (gconst (0 : R))) by apply (expands_const 0 0).
      apply (same_expands n _ (gmul (m_tpol A) (m_tpol B))); [exact V0|right; reflexivity| |exact HM].
      apply value_eq_iff; auto; [apply HM|]. apply geqb_same; auto; [apply HM|]. intros W k HW Hk.
      rewrite (zero_const W k), coef_mul_all by auto. destruct (Nat.leb _ _); auto.
      apply orb_true_iff in EZ.
      assert (S0 : forall (g : gdual R) W k, pterms (gp g) = [] -> coef g W k = 0) by (intros g0 W' k' Hg; unfold coef; rewrite Hg; reflexivity).
      unfold sum_list. generalize (splits k). intros l. induction l as [|ij l IH]; [reflexivity|]. cbn [fold_right]. rewrite <- IH.
      destruct EZ as [EZ|EZ]; [apply ZA in EZ|apply ZB in EZ]; rewrite (S0 _ W _ EZ); cbn; ring.
    - apply rbind_Ok in E. destruct E as (ce & _ & E). apply rbind_Ok in E. destruct E as (cd & _ & E).
      rewrite uadd_fits in E by auto.
      set (N := (get_order (m_tpol A) + get_order (m_tpol B))%nat) in *.
      destruct (increased_spec (m_tpol A) N VA) as (qa & Ea & Vqa & Oqa & Sa & _); [auto|unfold N, get_order; lia|unfold N; lia|].
      destruct (increased_spec (m_tpol B) N VB) as (qb & Eb & Vqb & Oqb & Sb & _); [auto|unfold N, get_order; lia|unfold N; lia|].
      rewrite Ea, Eb in E. cbn [rbind] in E.
      assert (VM : valid (gmul qa qb)) by (apply (valid_mul qa qb); auto).
      assert (OM : gord (gmul qa qb) = N) by (cbn [gmul gord]; lia).
      destruct (agreeable_spec (gmul qa qb) (Nat.max (get_order (m_tpol A)) (get_order (m_tpol B))) VM) as (a & Ha & Va & Oa & _ & Ca); [rewrite OM; unfold N; lia|].
      rewrite Ha in E. cbn [rbind] in E.
      apply rbind_Ok in E. destruct E as (ne & _ & E). apply rbind_Ok in E. destruct E as (nd & _ & E). apply rbind_Ok in E. destruct E as (be & _ & E).
      apply rbind_Ok in E. destruct E as (b1 & _ & E). apply rbind_Ok in E. destruct E as (b2 & _ & E). apply make_poly in E. rewrite E.
      split; [|unfold get_order in *; lia].
      apply (same_expands n _ (gmul (m_tpol A) (m_tpol B))); [exact Va| | |exact HM].
      { destruct HA as (_ & HA & _). destruct HB as (_ & HB & _). unfold get_order in *. lia. }
      apply value_eq_iff; auto; [apply HM|]. apply geqb_same; auto; [apply HM|]. intros W k HW Hk.
      rewrite Ca, (coef_mul_all (m_tpol A) (m_tpol B)) by auto. unfold get_order. destruct (Nat.leb _ _); auto.
      apply (coef_product (m_tpol A) (m_tpol B) qa qb W k); auto. unfold N, get_order in *. lia.
  Qed.

  Notation ord t := (get_order (m_tpol t)) (only parsing).
  Lemma scalar_poly n A f c : pol A n f ->
    (forall T, tm_add_sg c A = Ok T -> pol T n (fun x => c + f x) /\ ord T = ord A) /\
    (forall T, tm_add_gs A c = Ok T -> pol T n (fun x => f x + c) /\ ord T = ord A) /\
    (forall T, tm_sub_sg c A = Ok T -> pol T n (fun x => c - f x) /\ ord T = ord A) /\
    (forall T, tm_sub_gs A c = Ok T -> pol T n (fun x => f x - c) /\ ord T = ord A) /\
    (forall T, tm_mul_sg c A = Ok T -> pol T n (fun x => c * f x) /\ ord T = ord A) /\
    (forall T, tm_mul_gs A c = Ok T -> pol T n (fun x => f x * c) /\ ord T = ord A) /\
    (forall T, tm_neg A = Ok T -> pol T n (fun x => - f x) /\ ord T = ord A).
  Proof.
    intros H. destruct (expands_scalar n _ _ c H) as (H1 & H2 & H3 & H4 & H5 & H6 & _). destruct (expands_scalar n _ _ 0 H) as (_ & _ & H3' & _).
    repeat apply conj; intros T E; apply make_poly in E; rewrite E; (split; [|unfold get_order; cbn; lia]); auto.
    apply (expands_fun n _ (fun x => 0 - f x)); [exists 1; split; [lra|intros; ring]|exact H3'].
  Qed.
  Lemma add_poly n A B T f g : tm_add A B = Ok T -> pol A n f -> pol B n g -> pol T n (fun x => f x + g x) /\ ord T = Nat.max (ord A) (ord B).
  Proof.
    intros E HA HB. unfold tm_add in E. apply rbind_Ok in E. destruct E as (ce & _ & E). apply rbind_Ok in E. destruct E as (cd & _ & E).
    apply rbind_Ok in E. destruct E as (ne & _ & E). apply rbind_Ok in E. destruct E as (nd & _ & E). apply make_poly in E. rewrite E. split; [apply expands_arith; auto|reflexivity].
  Qed.
  Lemma sub_poly n A B T f g : tm_sub A B = Ok T -> pol A n f -> pol B n g -> pol T n (fun x => f x - g x) /\ ord T = Nat.max (ord A) (ord B).
  Proof.
    intros E HA HB. unfold tm_sub in E. apply rbind_Ok in E. destruct E as (ce & _ & E). apply rbind_Ok in E. destruct E as (cd & _ & E).
    apply rbind_Ok in E. destruct E as (ne & _ & E). apply rbind_Ok in E. destruct E as (nd & _ & E). apply make_poly in E. rewrite E. split; [apply expands_arith; auto|reflexivity].
  Qed.
  Lemma div_gs_poly n A T f c : tm_div_gs A c = Ok T -> pol A n f -> pol T n (fun x => f x / c).
  Proof. intros E H. unfold tm_div_gs in E. apply rbind_Ok in E. destruct E as (r & _ & E). apply make_poly in E. rewrite E. apply (expands_scalar n _ _ c H). Qed.
  Lemma div_sg_poly n A T f c : tm_div_sg iter c A = Ok T -> pol A n f -> f center <> 0 -> pol T n (fun x => c / f x) /\ ord T = ord A.
  Proof.
    intros E H H0. unfold tm_div_sg in E. apply rbind_Ok in E. destruct E as (b & _ & E). destruct (zero_in _); [discriminate|].
    apply rbind_Ok in E. destruct E as (F & _ & E). apply rbind_Ok in E. destruct E as (Fc & _ & E). apply rbind_Ok in E. destruct E as (le & _ & E). apply rbind_Ok in E. destruct E as (ta & _ & E).
    apply make_poly in E. rewrite E. split; [apply (expands_scalar n _ _ c H); auto|]. unfold get_order. assert (V := proj1 (valid_iff _) (proj1 H)). destruct V as [W N].
    apply (sto_ord _ _ _ (sto_div_sg _ _ c _ (sto_self _ W N))).
  Qed.
  Lemma div_poly n A B T f g : tm_div iter A B = Ok T -> (1 <= ord A + ord B)%nat -> (Z.of_nat (ord A) + Z.of_nat (ord B) < 4294967285)%Z ->
    pol A n f -> pol B n g -> g center <> 0 -> pol T n (fun x => f x / g x) /\ (ord T <= Nat.max (ord A) (ord B))%nat.
  Proof.
    intros E O1 O2 HA HB H0. unfold tm_div in E. apply rbind_Ok in E. destruct E as (r & Er & E). apply (div_sg_poly n _ _ g) in Er; auto. destruct Er as [Hr Or].
    apply (mul_poly n _ _ _ f (fun x => 1 / g x)) in E; auto; try (rewrite Or; auto). destruct E as [E1 E2]. split; [|rewrite Or in E2; auto].
    apply (expands_fun n _ (fun x => f x * (1 / g x))); [exists 1; split; [lra|intros; unfold Rdiv; ring]|auto].
  Qed.
  Lemma pow_poly n A T f (z : Z) : tm_pow_int iter A z = Ok T -> (1 <= ord A)%nat -> (2 * Z.of_nat (ord A) < 4294967285)%Z ->
    pol A n f -> ((z < 0)%Z -> f center <> 0) -> pol T n (fun x => powerRZ (f x) z) /\ (ord T <= ord A)%nat.
  Proof.
    intros E O1 O2 HA H0. unfold tm_pow_int in E.
    destruct (Z.eqb_spec z 0) as [Z0|N0]; [subst z; injection E as <-; split; [apply (expands_const n 1)|cbn; lia]|].
    destruct (Z.eqb_spec z 1) as [Z1|N1].
    { subst z. injection E as <-. split; [|lia]. apply (expands_fun n _ f); auto. exists 1. split; [lra|]. intros. rewrite powerRZ_1. reflexivity. }
    destruct (Z.ltb_spec 1 z) as [L|L].
    - assert (G : forall l m P, pol P n (fun x => f x ^ m) -> (ord P <= ord A)%nat -> forall R, 
        fold_left (fun acc (_ : nat) => rbind acc (fun product => tm_mul iter product A)) l (Ok P) = Ok R -> pol R n (fun x => f x ^ (m + length l)) /\ (ord R <= ord A)%nat).
      { induction l as [|i l IH]; intros m P HP OP R ER; cbn [fold_left length] in *; [injection ER as <-; rewrite Nat.add_0_r; auto|].
        cbn [rbind] in ER. destruct (tm_mul iter P A) as [Q|x] eqn:EQ.
        - apply (mul_poly n _ _ _ (fun x => f x ^ m) f) in EQ; auto; [|lia|lia]. destruct EQ as [HQ OQ].
          replace (m + S (length l))%nat with (S m + length l)%nat by lia. apply (IH (S m) Q); auto; [|lia].
          apply (expands_fun n _ (fun x => f x ^ m * f x)); auto. exists 1. split; [lra|]. intros. cbn. ring.
        - exfalso. clear - ER. induction l; cbn in ER; [discriminate|auto]. }
      destruct (tm_mul_sg 1%K A) as [P|] eqn:EP.
      + assert (X := proj1 (proj2 (proj2 (proj2 (proj2 (scalar_poly n A f 1 HA))))) P EP). destruct X as [X1 X2].
        apply (G _ 1%nat) in E; [|apply (expands_fun n _ (fun x => 1 * f x)); [exists 1; split; [lra|intros; cbn; ring]|auto]|lia].
        rewrite seq_length in E. replace (1 + (Z.to_nat z - 1))%nat with (Z.to_nat z) in E by lia. destruct E as [E1 E2]. split; auto.
        apply (expands_fun n _ _ _ (ex_intro _ 1 (conj Rlt_0_1 (fun x _ => eq_sym (powerRZ_pos_pow (f x) z ltac:(lia))))) E1).
      + exfalso. clear - E. induction (seq 1 (Z.to_nat z - 1)); cbn in E; [discriminate|auto].
    - assert (F0 : f center <> 0) by (apply H0; lia).
      assert (G : forall l m P, pol P n (fun x => / f x ^ m) -> (ord P <= ord A)%nat -> forall R, 
        fold_left (fun acc (_ : nat) => rbind acc (fun product => rbind (tm_mul_gs product 1%K) (fun p => tm_div iter p A))) l (Ok P) = Ok R -> pol R n (fun x => / f x ^ (m + length l)) /\ (ord R <= ord A)%nat).
      { induction l as [|i l IH]; intros m P HP OP R ER; cbn [fold_left length] in *; [injection ER as <-; rewrite Nat.add_0_r; auto|].
        cbn [rbind] in ER. destruct (tm_mul_gs P 1%K) as [P'|x] eqn:EP'; cbn [rbind] in ER.
        2:{ exfalso. clear - ER. induction l; cbn in ER; [discriminate|auto]. }
        assert (X := proj1 (proj2 (proj2 (proj2 (proj2 (proj2 (scalar_poly n P _ 1 HP)))))) P' EP'). cbv beta in X. destruct X as [X1 X2].
        destruct (tm_div iter P' A) as [Q|x] eqn:EQ.
        - apply (div_poly n _ _ _ (fun x => / f x ^ m * 1) f) in EQ; auto; [|lia|lia]. destruct EQ as [HQ OQ].
          replace (m + S (length l))%nat with (S m + length l)%nat by lia. apply (IH (S m) Q); auto; [|lia].
          apply (expands_fun n _ (fun x => / f x ^ m * 1 / f x)); auto. exists 1. split; [lra|]. intros. cbn. unfold Rdiv. rewrite Rinv_mult. ring.
        - exfalso. clear - ER. induction l; cbn in ER; [discriminate|auto]. }
      destruct (tm_div_sg iter 1%K A) as [P|] eqn:EP.
      + apply (div_sg_poly n _ _ f) in EP; auto. destruct EP as [X1 X2].
        apply (G _ 1%nat) in E; [|apply (expands_fun n _ (fun x => 1 / f x)); [exists 1; split; [lra|intros; cbn; unfold Rdiv; rewrite Rmult_1_r; ring]|auto]|lia].
        rewrite seq_length in E. replace (1 + (Z.to_nat (- z) - 1))%nat with (Z.to_nat (- z)) in E by lia. destruct E as [E1 E2]. split; auto.
        apply (expands_fun n _ _ _ (ex_intro _ 1 (conj Rlt_0_1 (fun x _ => eq_sym (powerRZ_neg_pow (f x) z ltac:(lia))))) E1).
      + exfalso. clear - E. induction (seq 0 (Z.to_nat (- z) - 1)); cbn in E; [discriminate|auto].
  Qed.

  (** ** The functions *)
  Ltac step E := let x := fresh "x" in let Ex := fresh "Ex" in apply rbind_Ok in E; destruct E as (x & Ex & E).
  Lemma sin_poly n A T f : tm_sin iter A = Ok T -> pol A n f -> pol T n (fun x => sin (f x)) /\ ord T = ord A.
  Proof.
    intros E H. unfold tm_sin in E. step E. apply factorial_fits_Ok in E. destruct E as [E L]. apply make_poly in E. rewrite E. split; [apply (expands_run1 Fsin); auto; try exact Logic.I; cbn [fits1]; unfold get_order in *; lia|].
    destruct (proj1 (valid_iff _) (proj1 H)) as [W N]. apply (sto_ord _ _ _ (gsin_sto _ W N)).
  Qed.
  Lemma cos_poly n A T f : tm_cos iter A = Ok T -> pol A n f -> pol T n (fun x => cos (f x)) /\ ord T = ord A.
  Proof.
    intros E H. unfold tm_cos in E. step E. apply factorial_fits_Ok in E. destruct E as [E L]. apply make_poly in E. rewrite E. split; [apply (expands_run1 Fcos); auto; try exact Logic.I; cbn [fits1]; unfold get_order in *; lia|].
    destruct (proj1 (valid_iff _) (proj1 H)) as [W N]. apply (sto_ord _ _ _ (gcos_sto _ W N)).
  Qed.
  Lemma sinh_poly n A T f : tm_sinh iter A = Ok T -> pol A n f -> pol T n (fun x => sinh (f x)) /\ ord T = ord A.
  Proof.
    intros E H. unfold tm_sinh in E. step E. apply factorial_fits_Ok in E. destruct E as [E _]. apply make_poly in E. rewrite E. split; [apply (expands_run1 Fsinh); auto; exact I|].
    destruct (proj1 (valid_iff _) (proj1 H)) as [W N]. apply (sto_ord _ _ _ (gsinh_sto _ W N)).
  Qed.
  Lemma cosh_poly n A T f : tm_cosh iter A = Ok T -> pol A n f -> pol T n (fun x => cosh (f x)) /\ ord T = ord A.
  Proof.
    intros E H. unfold tm_cosh in E. step E. apply factorial_fits_Ok in E. destruct E as [E _]. apply make_poly in E. rewrite E. split; [apply (expands_run1 Fcosh); auto; exact I|].
    destruct (proj1 (valid_iff _) (proj1 H)) as [W N]. apply (sto_ord _ _ _ (gcosh_sto _ W N)).
  Qed.
  Lemma log_poly n A T f : tm_log iter A = Ok T -> pol A n f -> 0 < f center -> pol T n (fun x => ln (f x)).
  Proof.
    intros E H H0. unfold tm_log in E. step E. destruct (negb _); [discriminate|]. step E. step E. step E. step E. apply make_poly in E. rewrite E.
    apply (expands_run1 Flog); auto. exact I.
  Qed.
  Lemma half_R : (1 / kofZ 2)%K = / 2 :> R.
  Proof. cbn. lra. Qed.
  Lemma sqrt_poly n A T f : tm_sqrt iter A = Ok T -> pol A n f -> 0 < f center -> pol T n (fun x => sqrt (f x)).
  Proof.
    intros E H H0. unfold tm_sqrt in E. step E. step E. destruct (negb _); [discriminate|]. step E. apply factorial_fits_Ok in E. destruct E as [E _]. step E. step E. apply trimmed_poly in E. rewrite E.
    assert (P : expands n (gpow_real (m_tpol A) (/ 2)) (fun x => rpow (f x) (/ 2))) by (apply expands_pow_real; auto; left; auto).
    apply (expands_fun n _ (fun x => rpow (f x) (/ 2))).
    - apply expands_T in H. destruct (T_near idR n _ f (f center / 2) H) as (d & Hd & Hp); [lra|]. exists d. split; auto. intros y Hy. specialize (Hp y Hy).
      change (f origin) with (f center) in Hp. assert (Y := Rle_abs (- (f y - f center))). rewrite Rabs_Ropp in Y. assert (P0 : 0 < f y) by lra.
      unfold rpow. destruct (Rlt_dec 0 (f y)); [|lra]. apply Rpower_sqrt. auto.
    - rewrite half_R. exact P.
  Qed.

  Lemma expands_same n (g : gdual R) f f' : (forall x, f x = f' x) -> expands n g f -> expands n g f'.
  Proof. intros H. apply expands_fun. exists 1. split; [lra|auto]. Qed.
  Lemma pow2 r : powerRZ r 2 = r * r.
  Proof. unfold powerRZ. change (Pos.to_nat 2) with 2%nat. ring. Qed.
  Theorem functions_poly F n A T f : tm_apply iter F A = Ok T -> (1 <= ord A)%nat -> (2 * Z.of_nat (ord A) < 4294967285)%Z ->
    tm_fits F (ord A) -> pol A n f -> dom1 F (f center) -> pol T n (fun x => real1 F (f x)).
  Proof.
    intros E O1 O2 L H D. destruct F; cbn [tm_apply tm_fits dom1 real1] in *; try discriminate.
    - unfold tm_exp in E. step E. apply factorial_fits_Ok in E. destruct E as [E _]. apply make_poly in E. rewrite E. apply (expands_run1 Fexp); auto; exact I.
    - eapply log_poly; eauto.
    - eapply sqrt_poly; eauto.
    - eapply sin_poly; eauto.
    - eapply cos_poly; eauto.
    - unfold tm_tan in E. step E. step E. apply (sin_poly n _ _ f) in Ex; auto. destruct Ex as [S1 S2]. apply (cos_poly n _ _ f) in Ex0; auto. destruct Ex0 as [C1 C2].
      apply (div_poly n _ _ _ (fun x => sin (f x)) (fun x => cos (f x))) in E; auto; try (rewrite S2, C2; lia). apply E.
    - eapply sinh_poly; eauto.
    - eapply cosh_poly; eauto.
    - unfold tm_tanh in E. step E. step E. apply (sinh_poly n _ _ f) in Ex; auto. destruct Ex as [S1 S2]. apply (cosh_poly n _ _ f) in Ex0; auto. destruct Ex0 as [C1 C2].
      apply (div_poly n _ _ _ (fun x => sinh (f x)) (fun x => cosh (f x))) in E; auto; try (rewrite S2, C2; lia); [apply E|].
      apply Rgt_not_eq. unfold cosh. assert (X := exp_pos (f center)). assert (Y := exp_pos (- f center)). lra.
    - unfold tm_atan in E. step E. step E. step E. step E. step E. apply make_poly in E. rewrite E. apply (expands_run1 Fatan); auto.
    - unfold tm_atanh in E. step E. step E. step E. step E.
      destruct (scalar_poly n A f 1 H) as (H1 & _ & H3 & _). apply H1 in Ex. apply H3 in Ex0. destruct Ex as [P1 P2], Ex0 as [Q1 Q2].
      apply (div_poly n _ _ _ (fun x => 1 + f x) (fun x => 1 - f x)) in Ex1; auto; try (rewrite P2, Q2; lia); [|lra]. destruct Ex1 as [R1 _].
      apply (log_poly n _ _ (fun x => (1 + f x) / (1 - f x))) in Ex2; auto; [|apply Rdiv_lt_0_compat; lra].
      apply (proj1 (proj2 (proj2 (proj2 (proj2 (scalar_poly n _ _ _ Ex2))))) T) in E. destruct E as [E _].
      apply (expands_same n _ _ _ (fun x => f_equal2 Rmult half_R eq_refl) E).
    - unfold tm_asin in E. step E. destruct (negb _); [discriminate|]. do 8 step E. apply factorial_fits_Ok in E. destruct E as [E _]. apply make_poly in E. rewrite E. apply (expands_run1 Fasin); auto.
    - unfold tm_acos in E. step E. unfold tm_asin in Ex. step Ex. destruct (negb _); [discriminate|]. do 8 step Ex. apply factorial_fits_Ok in Ex. destruct Ex as [Ex _]. apply make_poly in Ex.
      assert (P : pol x n (fun x => asin (f x))) by (rewrite Ex; apply (expands_run1 Fasin); auto).
      destruct (scalar_poly n x _ (PI / 2) P) as (_ & _ & H3 & _). apply H3 in E. destruct E as [E _]. apply (expands_fun n _ (fun x => PI / 2 - asin (f x))); [|exact E].
      assert (H' := H). apply expands_T in H'. destruct (T_near idR n _ f (Rmin (1 - f center) (1 + f center)) H') as (d & Hd & Hp); [apply Rmin_pos; lra|].
      exists d. split; auto. intros y Hy. specialize (Hp y Hy). change (f origin) with (f center) in Hp.
      assert (X1 := Rmin_l (1 - f center) (1 + f center)). assert (X2 := Rmin_r (1 - f center) (1 + f center)).
      assert (Y1 := Rle_abs (f y - f center)). assert (Y2 := Rle_abs (- (f y - f center))). rewrite Rabs_Ropp in Y2.
      symmetry. apply acos_asin. lra.
    - unfold tm_asinh in E. step E. step E. step E. step E. apply (pow_poly n _ _ f) in Ex; auto; [|lia]. destruct Ex as [P _].
      destruct (scalar_poly n _ _ 1 P) as (_ & H2 & _). apply H2 in Ex0. destruct Ex0 as [Q _]. apply (expands_same n _ _ (fun x => 1 + f x * f x)) in Q; [|intros y; rewrite pow2; ring].
      assert (S0 : forall y, 0 < 1 + f y * f y) by (intros y; assert (X := Rle_0_sqr (f y)); unfold Rsqr in X; lra).
      apply (sqrt_poly n _ _ (fun x => 1 + f x * f x)) in Ex1; auto. apply (add_poly n _ _ _ f (fun x => sqrt (1 + f x * f x))) in Ex2; auto. destruct Ex2 as [R _].
      apply (log_poly n _ _ (fun x => f x + sqrt (1 + f x * f x))) in E; auto. assert (X := sqrt_lt_1 (f center * f center) (1 + f center * f center)).
      assert (Y := Rle_0_sqr (f center)). unfold Rsqr in Y. assert (Z := X Y ltac:(lra) ltac:(lra)). rewrite <- (Rabs_sqr_sqrt (f center)) in Z.
      assert (W := Rle_abs (- f center)). rewrite Rabs_Ropp in W. lra.
    - unfold tm_acosh in E. step E. step E. destruct (negb _); [discriminate|]. step E. step E. step E. apply (pow_poly n _ _ f) in Ex; auto; [|lia]. destruct Ex as [P _].
      destruct (scalar_poly n _ _ 1 P) as (_ & _ & _ & H2 & _). apply H2 in Ex1. destruct Ex1 as [Q _]. apply (expands_same n _ _ (fun x => f x * f x - 1)) in Q; [|intros y; rewrite pow2; ring].
      apply (sqrt_poly n _ _ (fun x => f x * f x - 1)) in Ex2; auto; [|nra]. apply (add_poly n _ _ _ f (fun x => sqrt (f x * f x - 1))) in Ex3; auto. destruct Ex3 as [R _].
      apply (log_poly n _ _ (fun x => f x + sqrt (f x * f x - 1))) in E; auto. assert (X := sqrt_pos (f center * f center - 1)). lra.
    - unfold tm_abs in E. apply make_poly in E. rewrite E. apply expands_abs; auto.
  Qed.
End Poly.
Lemma inv_sqrt_poly {iv : IvFun R} iter n A T f : tm_inv_sqrt iter A = Ok T -> expands n (m_tpol A) f -> 0 < f center -> expands n (m_tpol T) (fun x => / sqrt (f x)).
Proof.
  intros E H H0. unfold tm_inv_sqrt in E. apply rbind_Ok in E. destruct E as (F & _ & E). apply rbind_Ok in E. destruct E as (b & _ & E). destruct (negb _); [discriminate|].
  apply rbind_Ok in E. destruct E as (kh & _ & E). apply factorial_fits_Ok in E. destruct E as [E _]. apply rbind_Ok in E. destruct E as (q & _ & E). apply rbind_Ok in E. destruct E as (tr & _ & E). apply trimmed_poly in E. rewrite E.
  assert (P : expands n (gpow_real (m_tpol A) (- / 2)) (fun x => rpow (f x) (- / 2))) by (apply expands_pow_real; auto; left; auto).
  apply (expands_fun n _ (fun x => rpow (f x) (- / 2))).
  - apply expands_T in H. destruct (T_near idR n _ f (f center / 2) H) as (d & Hd & Hp); [lra|]. exists d. split; auto. intros y Hy. specialize (Hp y Hy).
    change (f origin) with (f center) in Hp. assert (Y := Rle_abs (- (f y - f center))). rewrite Rabs_Ropp in Y. assert (P0 : 0 < f y) by lra.
    unfold rpow. destruct (Rlt_dec 0 (f y)); [|lra]. rewrite Rpower_Ropp. f_equal. apply Rpower_sqrt. auto.
  - change (@kopp R OpsR) with Ropp. rewrite half_R. exact P.
Qed.
Lemma var_expands : expands 3 (m_tpol (var 3 2 (0, 0) (1, 3))) (fun x => 2 + x "dx").
Proof.
  assert (W : well_formed (var 3 2 (0, 0) (1, 3))) by (apply wf_var; try lra; try lia; unfold within; cbn; lra).
  split; [apply W|]. split; [left; cbn; lia|]. exists 0, 1. split; [lra|]. split; [lra|]. intros x r Hx Hr.
  replace (_ - _) with 0; [rewrite Rabs_R0; lra|]. cbn. unfold Rdiv. ring.
Qed.
Lemma poly_case : exists (iv : IvFun R) iter A T f, tm_apply (iv:=iv) iter Fexp A = Ok T /\ (1 <= get_order (m_tpol A))%nat /\ (2 * Z.of_nat (get_order (m_tpol A)) < 4294967285)%Z /\
  tm_fits Fexp (get_order (m_tpol A)) /\ expands 3 (m_tpol A) f /\ dom1 Fexp (f center) /\ f center <> 0 /\ f (fun _ => 1) <> f center.
Proof.
  set (A := var 3 2 (0, 0) (1, 3)). assert (RA : represents (on (1, 3)) A (fun x => x "x")) by (apply var_represents; try lra; try lia; unfold within; cbn; lra).
  destruct (entire_functions (iv:=iv_std) in_order A _ _ RA) as [[T [E _]] _].
  - apply var_simple.
  - cbn. lia.
  - apply in_order_permutes.
  - apply in_order_ordered.
  - apply iv_std_sound.
  - exists iv_std, in_order, A, T, (fun x => 2 + x "dx"). split; [exact E|]. split; [cbn; lia|]. split; [cbn; lia|]. split; [exact I|]. split; [exact var_expands|].
    split; [exact I|]. unfold center. cbn. split; lra.
Qed.
Lemma mul_case : exists iter A T f, tm_mul iter A A = Ok T /\ (1 <= get_order (m_tpol A) + get_order (m_tpol A))%nat /\
  (Z.of_nat (get_order (m_tpol A)) + Z.of_nat (get_order (m_tpol A)) < 4294967285)%Z /\ expands 3 (m_tpol A) f /\ f center <> 0.
Proof.
  set (A := var 3 2 (0, 0) (1, 3)). assert (RA : represents (on (1, 3)) A (fun x => x "x")) by (apply var_represents; try lra; try lia; unfold within; cbn; lra).
  destruct (tm_mul_run in_order A A) as (T & _ & _ & _ & E & _).
  - exact (proj1 RA).
  - exact (proj1 RA).
  - apply same_centers_refl, RA.
  - apply close_domains_refl, RA.
  - discriminate.
  - discriminate.
  - cbn. lia.
  - apply in_order_permutes.
  - apply in_order_ordered.
  - exists in_order, A, T, (fun x => 2 + x "dx"). split; [exact E|]. split; [cbn; lia|]. split; [cbn; lia|]. split; [exact var_expands|]. unfold center. cbn. lra.
Qed.
Lemma add_sub_poly n A B T f g : expands n (m_tpol A) f -> expands n (m_tpol B) g ->
  (tm_add A B = Ok T -> expands n (m_tpol T) (fun x => f x + g x) /\ get_order (m_tpol T) = Nat.max (get_order (m_tpol A)) (get_order (m_tpol B))) /\
  (tm_sub A B = Ok T -> expands n (m_tpol T) (fun x => f x - g x) /\ get_order (m_tpol T) = Nat.max (get_order (m_tpol A)) (get_order (m_tpol B))).
Proof. intros HA HB. split; intros E; [exact (add_poly n A B T f g E HA HB)|exact (sub_poly n A B T f g E HA HB)]. Qed.
Lemma div_scalar_poly iter n A T f c : expands n (m_tpol A) f ->
  (tm_div_gs A c = Ok T -> expands n (m_tpol T) (fun x => f x / c)) /\
  (tm_div_sg iter c A = Ok T -> f center <> 0 -> expands n (m_tpol T) (fun x => c / f x) /\ get_order (m_tpol T) = get_order (m_tpol A)).
Proof. intros H. split; intros E; [exact (div_gs_poly n A T f c E H)|intros H0; exact (div_sg_poly iter n A T f c E H H0)]. Qed.
