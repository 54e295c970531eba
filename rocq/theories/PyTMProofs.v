(** * Python expressions over Taylor models (proof file for C52): polynomials. *)
From Coq Require Import String Ascii Reals Lra Lia List ZArith Bool FunctionalExtensionality.
From Verif Require Import Ops Syms SymsFacts Poly PolyFacts Gdual GdualFacts Functions FunStruct Spec CoefFacts CoreProofs ValueProofs MiscProofs ElemR Uni UniFun UniFun2 SpecTaylor Taylor TayFun TayProofs TayIdent Interval TaylorModel TMFunctions TMTaylor SpecTM TMArith TMMul TMPow TMMisc TMInst TMGlue TMPoly PyFun SpecPy PyFunProofs PyTM SpecPyTM.
Import ListNotations.
Open Scope R_scope.
Local Open Scope string_scope.

Definition vanishes (g : gdual R) : Prop := forall x, value g x = 0.

Lemma vanishes_flat n g f : expands n g f -> vanishes g -> flat n f.
Proof.
  intros (_ & _ & C & d & Hd & HC & B) Z. exists C, d. split; auto. split; auto. intros x r Hx Hr.
  specialize (B x r Hx Hr). rewrite Z, Rminus_0_r in B. exact B.
Qed.
Lemma vanishes_terms g : valid g -> vanishes g -> pterms (gp g) = [].
Proof.
  intros V Z. destruct (zero_check g V) as (z & Ez & H). apply H. 
  assert (Vz : valid z) by (pose proof (gvar_spec (0 : R) "irrelevant" 0) as G; rewrite Ez in G; apply G).
  apply value_eq_iff; auto. intros rho. rewrite Z. rewrite (gvar_value (0 : R) "irrelevant" 0 z rho Ez). cbn. lra.
Qed.
Lemma terms_vanish (g : gdual R) : pterms (gp g) = [] -> vanishes g.
Proof. intros E x. unfold value. rewrite E. reflexivity. Qed.

Section Poly.
  Context {iv : IvFun R}.
  Variable iter : list (string * (R * R)) -> list (string * (R * R)).
  Notation ord t := (get_order (m_tpol t)) (only parsing).
  Notation pol t n f := (expands n (m_tpol t) f) (only parsing).

  Lemma mul_order A B T : valid (m_tpol A) -> valid (m_tpol B) -> tm_mul iter A B = Ok T ->
    (1 <= ord A + ord B)%nat -> (Z.of_nat (ord A) + Z.of_nat (ord B) < 4294967285)%Z ->
    ord T = Nat.max (ord A) (ord B) \/ vanishes (m_tpol T).
  Proof.
    intros VA VB E O1 O2. unfold tm_mul in E.
    destruct (zero_check (m_tpol A) VA) as (z & Ez & ZA). destruct (zero_check (m_tpol B) VB) as (z' & Ez' & ZB).
    change (@k0 R OpsR) with 0 in E. rewrite Ez in Ez'. injection Ez' as <-. rewrite Ez in E. cbn [rbind] in E.
    destruct (geqb (m_tpol A) z || geqb (m_tpol B) z) eqn:EZ.
    - injection E as <-. right. intros x. cbn [m_tpol tm_const]. apply value_const.
    - left. apply rbind_Ok in E. destruct E as (ce & _ & E). apply rbind_Ok in E. destruct E as (cd & _ & E).
      rewrite uadd_fits in E by auto.
      set (N := (ord A + ord B)%nat) in *.
      destruct (increased_spec (m_tpol A) N VA) as (qa & Ea & Vqa & Oqa & Sa & _); [auto|unfold N, get_order; lia|unfold N; lia|].
      destruct (increased_spec (m_tpol B) N VB) as (qb & Eb & Vqb & Oqb & Sb & _); [auto|unfold N, get_order; lia|unfold N; lia|].
      rewrite Ea, Eb in E. cbn [rbind] in E.
      assert (VM : valid (gmul qa qb)) by (apply (valid_mul qa qb); auto).
      assert (OM : gord (gmul qa qb) = N) by (cbn [gmul gord]; lia).
      destruct (agreeable_spec (gmul qa qb) (Nat.max (ord A) (ord B)) VM) as (a & Ha & Va & Oa & _ & Ca); [rewrite OM; unfold N; lia|].
      rewrite Ha in E. cbn [rbind] in E.
      apply rbind_Ok in E. destruct E as (ne & _ & E). apply rbind_Ok in E. destruct E as (nd & _ & E). apply rbind_Ok in E. destruct E as (be & _ & E).
      apply rbind_Ok in E. destruct E as (b1 & _ & E). apply rbind_Ok in E. destruct E as (b2 & _ & E). apply make_poly in E. rewrite E. exact Oa.
  Qed.
  Lemma mul_zero A B T : valid (m_tpol A) -> valid (m_tpol B) -> tm_mul iter A B = Ok T -> vanishes (m_tpol A) -> vanishes (m_tpol T).
  Proof.
    intros VA VB E Z. unfold tm_mul in E. destruct (zero_check (m_tpol A) VA) as (z & Ez & ZA).
    change (@k0 R OpsR) with 0 in E. rewrite Ez in E. cbn [rbind] in E.
    rewrite (proj2 ZA (vanishes_terms _ VA Z)) in E. injection E as <-. intros x. apply value_const.
  Qed.

  (** [or0 A T]: the order of A is kept, or the polynomial is zero *)
  Definition or0 (A T : taylor_model R) : Prop := ord T = ord A \/ vanishes (m_tpol T).

  Lemma div_order n A B T f g : pol A n f -> pol B n g -> g center <> 0 -> tm_div iter A B = Ok T ->
    (1 <= ord A + ord B)%nat -> (Z.of_nat (ord A) + Z.of_nat (ord B) < 4294967285)%Z ->
    ord T = Nat.max (ord A) (ord B) \/ vanishes (m_tpol T).
  Proof.
    intros HA HB H0 E O1 O2. unfold tm_div in E. apply rbind_Ok in E. destruct E as (r & Er & E).
    apply (div_sg_poly iter n _ _ g) in Er; auto. destruct Er as [Hr Or].
    apply mul_order in E; [|apply HA|apply Hr|rewrite Or; auto|rewrite Or; auto]. rewrite Or in E. exact E.
  Qed.
  Lemma div_zero n A B T f g : pol A n f -> pol B n g -> g center <> 0 -> tm_div iter A B = Ok T -> vanishes (m_tpol A) -> vanishes (m_tpol T).
  Proof.
    intros HA HB H0 E Z. unfold tm_div in E. apply rbind_Ok in E. destruct E as (r & Er & E).
    apply (div_sg_poly iter n _ _ g) in Er; auto. eapply mul_zero; [apply HA|apply Er|exact E|exact Z].
  Qed.

  Lemma pow_order n A T f (z : Z) : tm_pow_int iter A z = Ok T -> (1 <= ord A)%nat -> (2 * Z.of_nat (ord A) < 4294967285)%Z ->
    pol A n f -> (z <> 0)%Z -> ((z < 0)%Z -> f center <> 0) -> or0 A T.
  Proof.
    intros E O1 O2 HA Z0 H0. unfold tm_pow_int in E.
    destruct (Z.eqb_spec z 0) as [Z1|N0]; [contradiction|].
    destruct (Z.eqb_spec z 1) as [Z1|N1]; [injection E as <-; left; auto|].
    destruct (Z.ltb_spec 1 z) as [L|L].
    - assert (G : forall l m P, pol P n (fun x => f x ^ m) -> (ord P <= ord A)%nat -> or0 A P -> forall R, 
        fold_left (fun acc (_ : nat) => rbind acc (fun product => tm_mul iter product A)) l (Ok P) = Ok R -> or0 A R).
      { induction l as [|i l IH]; intros m P HP OP ZP R ER; cbn [fold_left] in *; [injection ER as <-; auto|].
        cbn [rbind] in ER. destruct (tm_mul iter P A) as [Q|x] eqn:EQ.
        - assert (EQ' := EQ). apply (mul_poly iter n _ _ _ (fun x => f x ^ m) f) in EQ'; auto; [|lia|lia]. destruct EQ' as [HQ OQ].
          apply (IH (S m) Q); auto; [|lia|].
          + apply (expands_fun n _ (fun x => f x ^ m * f x)); auto. exists 1. split; [lra|]. intros. cbn. ring.
          + destruct ZP as [ZP|ZP].
            * destruct (mul_order P A Q) as [X|X]; [apply HP|apply HA|auto|lia|lia|left; lia|right; auto].
            * right. apply (mul_zero P A Q); auto; [apply HP|apply HA].
        - exfalso. clear - ER. induction l; cbn in ER; [discriminate|auto]. }
      destruct (tm_mul_sg 1%K A) as [P|] eqn:EP.
      + assert (X := proj1 (proj2 (proj2 (proj2 (proj2 (scalar_poly n A f 1 HA))))) P EP). destruct X as [X1 X2].
        apply (G _ 1%nat) in E; [exact E|apply (expands_fun n _ (fun x => 1 * f x)); [exists 1; split; [lra|intros; cbn; ring]|auto]|lia|left; auto].
      + exfalso. clear - E. induction (seq 1 (Z.to_nat z - 1)); cbn in E; [discriminate|auto].
    - assert (F0 : f center <> 0) by (apply H0; lia).
      assert (G : forall l m P, pol P n (fun x => / f x ^ m) -> (ord P <= ord A)%nat -> or0 A P -> forall R, 
        fold_left (fun acc (_ : nat) => rbind acc (fun product => rbind (tm_mul_gs product 1%K) (fun p => tm_div iter p A))) l (Ok P) = Ok R -> or0 A R).
      { induction l as [|i l IH]; intros m P HP OP ZP R ER; cbn [fold_left] in *; [injection ER as <-; auto|].
        cbn [rbind] in ER. destruct (tm_mul_gs P 1%K) as [P'|x] eqn:EP'; cbn [rbind] in ER.
        2:{ exfalso. clear - ER. induction l; cbn in ER; [discriminate|auto]. }
        assert (X := proj1 (proj2 (proj2 (proj2 (proj2 (proj2 (scalar_poly n P _ 1 HP)))))) P' EP'). cbv beta in X. destruct X as [X1 X2].
        destruct (tm_div iter P' A) as [Q|x] eqn:EQ.
        - assert (EQ' := EQ). apply (div_poly iter n _ _ _ (fun x => / f x ^ m * 1) f) in EQ'; auto; [|lia|lia]. destruct EQ' as [HQ OQ].
          apply (IH (S m) Q); auto; [|lia|].
          + apply (expands_fun n _ (fun x => / f x ^ m * 1 / f x)); auto. exists 1. split; [lra|]. intros. cbn. unfold Rdiv. rewrite Rinv_mult. ring.
          + destruct ZP as [ZP|ZP].
            * destruct (div_order n P' A Q _ _ X1 HA F0 EQ) as [X|X]; [lia|lia|left; lia|right; auto].
            * right. apply (div_zero n P' A Q _ _ X1 HA F0 EQ).
              apply make_poly in EP'. rewrite EP'. intros x. rewrite value_mul_gs by apply HP. rewrite ZP. cbn. ring.
        - exfalso. clear - ER. induction l; cbn in ER; [discriminate|auto]. }
      destruct (tm_div_sg iter 1%K A) as [P|] eqn:EP.
      + apply (div_sg_poly iter n _ _ f) in EP; auto. destruct EP as [X1 X2].
        apply (G _ 1%nat) in E; [exact E|apply (expands_fun n _ (fun x => 1 / f x)); [exists 1; split; [lra|intros; cbn; unfold Rdiv; rewrite Rmult_1_r; ring]|auto]|lia|left; auto].
      + exfalso. clear - E. induction (seq 0 (Z.to_nat (- z) - 1)); cbn in E; [discriminate|auto].
  Qed.

  Ltac step E := let x := fresh "x" in let Ex := fresh "Ex" in apply rbind_Ok in E; destruct E as (x & Ex & E).
  Lemma sqrt_order A T : tm_sqrt iter A = Ok T -> valid (m_tpol A) -> ord T = ord A.
  Proof.
    intros E V. unfold tm_sqrt in E. step E. step E. destruct (negb _); [discriminate|]. step E. apply factorial_fits_Ok in E. destruct E as [E _]. step E. step E. apply trimmed_poly in E. rewrite E.
    destruct (ord_pow (m_tpol A) V) as (O & _). apply O.
  Qed.
  Lemma inv_sqrt_order A T : tm_inv_sqrt iter A = Ok T -> valid (m_tpol A) -> ord T = ord A.
  Proof.
    intros E V. unfold tm_inv_sqrt in E. step E. step E. destruct (negb _); [discriminate|]. step E. apply factorial_fits_Ok in E. destruct E as [E _]. step E. step E. apply trimmed_poly in E. rewrite E.
    destruct (ord_pow (m_tpol A) V) as (O & _). apply O.
  Qed.
  Lemma log_order A T : tm_log iter A = Ok T -> valid (m_tpol A) -> ord T = ord A.
  Proof.
    intros E V. unfold tm_log in E. step E. destruct (negb _); [discriminate|]. step E. step E. step E. step E. apply make_poly in E. rewrite E.
    apply (run1_ord Flog); auto.
  Qed.

  Lemma functions_order F n A T f : tm_apply iter F A = Ok T -> (1 <= ord A)%nat -> (2 * Z.of_nat (ord A) < 4294967285)%Z ->
    pol A n f -> dom1 F (f center) -> or0 A T.
  Proof.
    intros E O1 O2 H D. assert (V := proj1 H). destruct F; cbn [tm_apply dom1] in *; try discriminate.
    - left. unfold tm_exp in E. step E. apply factorial_fits_Ok in E. destruct E as [E _]. apply make_poly in E. rewrite E. apply (run1_ord Fexp); auto.
    - left. apply log_order; auto.
    - left. apply sqrt_order; auto.
    - left. apply (sin_poly iter n _ _ f); auto.
    - left. apply (cos_poly iter n _ _ f); auto.
    - unfold tm_tan in E. step E. step E. apply (sin_poly iter n _ _ f) in Ex; auto. destruct Ex as [S1 S2]. apply (cos_poly iter n _ _ f) in Ex0; auto. destruct Ex0 as [C1 C2].
      destruct (div_order n _ _ _ _ _ S1 C1 D E) as [X|X]; [lia|lia|left; lia|right; auto].
    - left. apply (sinh_poly iter n _ _ f); auto.
    - left. apply (cosh_poly iter n _ _ f); auto.
    - unfold tm_tanh in E. step E. step E. apply (sinh_poly iter n _ _ f) in Ex; auto. destruct Ex as [S1 S2]. apply (cosh_poly iter n _ _ f) in Ex0; auto. destruct Ex0 as [C1 C2].
      assert (HC : cosh (f center) <> 0) by (apply Rgt_not_eq; unfold cosh; assert (X := exp_pos (f center)); assert (Y := exp_pos (- f center)); lra).
      destruct (div_order n _ _ _ _ _ S1 C1 HC E) as [X|X]; [lia|lia|left; lia|right; auto].
    - left. unfold tm_atan in E. step E. step E. step E. step E. step E. apply make_poly in E. rewrite E. apply (run1_ord Fatan); auto.
    - left. unfold tm_atanh in E. step E. step E. step E. step E.
      destruct (scalar_poly n A f 1 H) as (H1 & _ & H3 & _). apply H1 in Ex. apply H3 in Ex0. destruct Ex as [P1 P2], Ex0 as [Q1 Q2].
      assert (D0 : 1 - f center <> 0) by lra.
      assert (Oq : ord x1 = Nat.max (ord x) (ord x0) \/ vanishes (m_tpol x1)) by (apply (div_order n x x0 x1 _ _ P1 Q1 D0 Ex1); lia).
      apply (div_poly iter n _ _ _ (fun x => 1 + f x) (fun x => 1 - f x)) in Ex1; auto; try (rewrite P2, Q2; lia). destruct Ex1 as [R1 _].
      destruct Oq as [Oq|Oq].
      2:{ exfalso. pose proof (expands_at _ _ _ R1) as X. cbv beta in X. rewrite <- (value_zero _ (proj1 R1)) in X. rewrite Oq in X.
          apply Rmult_integral in X. destruct X as [X|X]; [lra|]. exact (Rinv_neq_0_compat _ D0 X). }
      assert (Ol := log_order _ _ Ex2 (proj1 R1)).
      apply (log_poly iter n _ _ (fun x => (1 + f x) / (1 - f x))) in Ex2; auto; [|apply Rdiv_lt_0_compat; lra].
      apply (proj1 (proj2 (proj2 (proj2 (proj2 (scalar_poly n _ _ _ Ex2))))) T) in E. lia.
    - left. unfold tm_asin in E. step E. destruct (negb _); [discriminate|]. do 8 step E. apply factorial_fits_Ok in E. destruct E as [E _]. apply make_poly in E. rewrite E. apply (run1_ord Fasin); auto.
    - left. unfold tm_acos in E. step E. unfold tm_asin in Ex. step Ex. destruct (negb _); [discriminate|]. do 8 step Ex. apply factorial_fits_Ok in Ex. destruct Ex as [Ex _]. apply make_poly in Ex.
      apply make_poly in E. rewrite E. transitivity (ord x); [|rewrite Ex; apply (run1_ord Fasin); auto].
      destruct (ord_unary (m_tpol x) (e_pi / kofZ 2)%K) as (_ & _ & O & _); auto. rewrite Ex. apply (run1_valid neg_nz_R Fasin); auto.
    - left. unfold tm_asinh in E. step E. step E. step E. step E. assert (OP := Ex). apply (pow_poly iter n _ _ f) in OP; auto; [|lia]. destruct OP as [P OP].
      destruct (scalar_poly n _ _ 1 P) as (_ & H2 & _). apply H2 in Ex0. destruct Ex0 as [Q OQ].
      assert (OR := sqrt_order _ _ Ex1 (proj1 Q)).
      assert (S0 : forall y, 0 < powerRZ (f y) 2 + 1) by (intros y; rewrite pow2; assert (X := Rle_0_sqr (f y)); unfold Rsqr in X; lra).
      apply (sqrt_poly iter n _ _ (fun x => powerRZ (f x) 2 + 1)) in Ex1; auto. destruct (add_poly n _ _ _ _ _ Ex2 H Ex1) as [R OA].
      rewrite (log_order _ _ E (proj1 R)), OA. lia.
    - left. unfold tm_acosh in E. step E. step E. destruct (negb _); [discriminate|]. step E. step E. step E. assert (OP := Ex). apply (pow_poly iter n _ _ f) in OP; auto; [|lia]. destruct OP as [P OP].
      destruct (scalar_poly n _ _ 1 P) as (_ & _ & _ & H2 & _). apply H2 in Ex1. destruct Ex1 as [Q OQ].
      assert (OR := sqrt_order _ _ Ex2 (proj1 Q)).
      apply (sqrt_poly iter n _ _ (fun x => powerRZ (f x) 2 - 1)) in Ex2; auto; [|rewrite pow2; nra]. destruct (add_poly n _ _ _ _ _ Ex3 H Ex2) as [R OA].
      rewrite (log_order _ _ E (proj1 R)), OA. lia.
    - left. unfold tm_abs in E. apply make_poly in E. rewrite E. apply (run1_ord Fabs); auto.
  Qed.
End Poly.

(** ** Powers with a floating point exponent *)
Lemma rpow_IZR x z : rpow x (IZR z) = powerRZ x z.
Proof.
  unfold rpow. destruct (Rlt_dec 0 x) as [P|P]; [symmetry; apply powerRZ_Rpower; auto|].
  rewrite Int_part_IZR. destruct (Req_EM_T _ _); auto. contradiction.
Qed.
Section Pow.
  Context {iv : IvFun R}.
  Variable iter : list (string * (R * R)) -> list (string * (R * R)).
  Notation ord t := (get_order (m_tpol t)) (only parsing).
  Notation pol t n f := (expands n (m_tpol t) f) (only parsing).

  Lemma int_power n A T f (z : Z) : tm_pow_int iter A z = Ok T -> (1 <= ord A)%nat -> (2 * Z.of_nat (ord A) < 4294967285)%Z ->
    pol A n f -> z <> 0%Z -> dompow (f center) (IZR z) -> pol T n (fun x => rpow (f x) (IZR z)) /\ or0 A T.
  Proof.
    intros E O1 O2 HA Z0 D.
    assert (H0 : (z < 0)%Z -> f center <> 0).
    { intros L. destruct D as [D|[[D _]|(k & D)]]; try lra. exfalso. rewrite INR_IZR_INZ in D. apply eq_IZR in D. lia. }
    split; [|eapply pow_order; eauto].
    apply (expands_fun n _ (fun x => powerRZ (f x) z)); [exists 1; split; [lra|]; intros; symmetry; apply rpow_IZR|].
    apply (pow_poly iter n A T f z); auto.
  Qed.
  Lemma half_power n A T f (z : Z) : tm_pow iter A (IZR z / 2) = Ok T -> (1 <= ord A)%nat -> (2 * Z.of_nat (ord A) < 4294967285)%Z ->
    pol A n f -> z <> 0%Z -> dompow (f center) (IZR z / 2) -> pol T n (fun x => rpow (f x) (IZR z / 2)) /\ or0 A T.
  Proof.
    intros E O1 O2 HA Z0 D.
    assert (EF : exists F, f_bar_remainder_bounds iter A = Ok F).
    { unfold tm_pow in E. apply rbind_Ok in E. destruct E as (F & EF & _). eauto. }
    destruct EF as (F & EF). destruct (Z.Even_or_Odd z) as [(k & Hk)|(k & Hk)].
    - replace (IZR z / 2) with (IZR k) in * by (rewrite Hk, mult_IZR; lra).
      rewrite (proj1 (pow_dispatch iter A F EF k)) in E. apply (int_power n); auto. lia.
    - assert (P : 0 < f center).
      { destruct D as [D|[[_ (j & D)]|(j & D)]]; auto; exfalso; [|rewrite INR_IZR_INZ in D; revert D; generalize (Z.of_nat (S j)); intros j' D].
        - assert (X : IZR z = IZR (2 * j)) by (rewrite mult_IZR; lra). apply eq_IZR in X. lia.
        - assert (X : IZR z = IZR (2 * j')) by (rewrite mult_IZR; lra). apply eq_IZR in X. lia. }
      assert (NP : exists d, 0 < d /\ forall x, small x d -> 0 < f x) by (apply (near_self n _ f (fun y => 0 < y) HA); apply pos_near; auto).
      destruct NP as (d & Hd & NP).
      destruct (Z.eq_dec k 0) as [K0|K0]; [|destruct (Z.eq_dec k (-1)) as [K1|K1]].
      + assert (Hz : z = 1%Z) by lia. clear Hk. subst z. unfold tm_pow in E. rewrite EF in E. cbn [rbind] in E.
        assert (Q : ((1 / 2)%R =? 1 / kofZ 2)%K = true) by (apply Reqb_true; reflexivity). rewrite Q in E. split; [|left; apply (sqrt_order iter); auto; apply HA].
        apply (expands_fun n _ (fun x => sqrt (f x))); [|apply (sqrt_poly iter n A T f); auto].
        exists d. split; auto. intros x Hx. rewrite rpow_pos by auto. rewrite <- Rpower_sqrt by auto. f_equal. lra.
      + assert (Hz : z = (-1)%Z) by lia. clear Hk. subst z. unfold tm_pow in E. rewrite EF in E. cbn [rbind] in E.
        assert (Q : ((-1 / 2)%R =? 1 / kofZ 2)%K = false) by (apply Reqb_false; cbn; lra). rewrite Q in E.
        assert (Q' : ((-1 / 2)%R =? - (1 / kofZ 2))%K = true) by (apply Reqb_true; cbn; lra). rewrite Q' in E. split; [|left; apply (inv_sqrt_order iter); auto; apply HA].
        apply (expands_fun n _ (fun x => / sqrt (f x))); [|apply (inv_sqrt_poly iter n A T f); auto].
        exists d. split; auto. intros x Hx. rewrite rpow_pos by auto. rewrite <- Rpower_sqrt, <- Rpower_Ropp by auto. f_equal. lra.
      + replace (IZR z / 2) with (IZR k + 1 / 2) in * by (rewrite Hk, plus_IZR, mult_IZR; lra).
        rewrite (proj2 (pow_dispatch iter A F EF k)) in E by auto. apply rbind_Ok in E. destruct E as (p & Ep & E).
        assert (Op := Ep). apply (pow_order iter n A p f) in Op; auto; [|lia|intros; lra].
        apply (pow_poly iter n A p f) in Ep; auto; [|intros; lra]. destruct Ep as [Hp _].
        assert (PP : forall y, 0 < y -> 0 < powerRZ y (2 * k + 1)) by (intros; apply powerRZ_lt; auto).
        split.
        * apply (expands_fun n _ (fun x => sqrt (powerRZ (f x) (2 * k + 1)))); [|apply (sqrt_poly iter n p T (fun x => powerRZ (f x) (2 * k + 1))); auto].
          exists d. split; auto. intros x Hx. rewrite rpow_pos by auto. rewrite <- Rpower_sqrt, powerRZ_Rpower, Rpower_mult by auto.
          f_equal. rewrite plus_IZR, mult_IZR. lra.
        * left. rewrite (sqrt_order iter p T E (proj1 Hp)). destruct Op as [Op|Op]; auto. exfalso.
          pose proof (expands_at _ _ _ Hp) as X. cbv beta in X. rewrite <- (value_zero _ (proj1 Hp)), Op in X.
          specialize (PP (f center) P). lra.
  Qed.
End Pow.

(** ** Expressions *)
Section Run.
  Context {iv : IvFun R}.
  Variable iter : list (string * (R * R)) -> list (string * (R * R)).
  Variables (M n : nat).
  Hypothesis HM : (2 * Z.of_nat M < 4294967285)%Z.
  Notation ord t := (get_order (m_tpol t)) (only parsing).
  Definition okt (t : taylor_model R) (f : (string -> R) -> R) : Prop := expands n (m_tpol t) f /\ (1 <= ord t <= M)%nat.

  Variables (tm : string -> bool) (env : string -> tval R) (S : string -> taylor_model R) (point : string -> R).
  Hypothesis HE : models_hold tm env S point.
  Hypothesis HI : forall s, tm s = true -> valid (m_tpol (S s)) /\ (1 <= ord (S s) <= M)%nat /\ (n <= ord (S s))%nat.
  Let y := inputs tm (fun s => m_tpol (S s)) point.
  Let p0 := y center.

  Definition num_okt (e : pyexpr R) : Prop :=
    (exists v, tp_eval iter env e = Ok (TNum v) /\ number_of v = Some (py_real e p0)) /\ forall x, py_real e (y x) = py_real e p0.
  Definition tm_okt (e : pyexpr R) : Prop :=
    forall v, tp_eval iter env e = Ok v -> exists t, v = TModel t /\ okt t (fun x => py_real e (y x)).

  Lemma okt_fun t f f' : (forall x, f x = f' x) -> okt t f -> okt t f'.
  Proof. intros E (X & Y). split; auto. apply (expands_fun n _ f); auto. exists 1. split; [lra|auto]. Qed.
  Lemma okt_or0 A T f g : okt A f -> expands n (m_tpol T) g -> or0 A T -> ~ flat n g -> okt T g.
  Proof.
    intros (_ & O) X [Y|Y] N; [split; auto; lia|]. exfalso. apply N. exact (vanishes_flat n _ _ X Y).
  Qed.
  Lemma okt_same A T f g : okt A f -> expands n (m_tpol T) g -> ord T = ord A -> okt T g.
  Proof. intros (_ & O) X Y. split; auto. lia. Qed.
  Lemma okt_max A B T f g h : okt A f -> okt B g -> expands n (m_tpol T) h -> ord T = Nat.max (ord A) (ord B) \/ vanishes (m_tpol T) -> ~ flat n h -> okt T h.
  Proof.
    intros (_ & O) (_ & O') X [Y|Y] N; [split; auto; lia|]. exfalso. apply N. exact (vanishes_flat n _ _ X Y).
  Qed.

  Lemma okt_call F A T f : okt A f -> tm_run iter F A = Ok T -> dom1 F (f center) -> tm_fits F M -> ~ flat n (fun x => real1 F (f x)) ->
    okt T (fun x => real1 F (f x)).
  Proof.
    intros OA E D L N. assert (OA' := OA). destruct OA' as (X & O).
    assert (L' : tm_fits F (ord A)) by (destruct F; cbn in *; auto; lia).
    assert (E' : tm_apply iter F A = Ok T) by (rewrite <- E; destruct F; reflexivity).
    apply (okt_or0 A T f); auto; [eapply functions_poly; eauto; lia|eapply functions_order; eauto; lia].
  Qed.

  Definition tmatches (m : mathfun) (F : fun1) : Prop :=
    (forall x, mf_val m x = real1 F x) /\ (forall p, mf_dom m p -> dom1 F p) /\ (forall k, mf_upto m k -> tm_fits F k).
  Ltac tfinish := intros [= <-]; intros F HF; vm_compute in HF; first [discriminate HF|injection HF as <-;
    unfold tmatches; cbn; unfold anywhere, any_order, int_order; repeat split; auto; intros; try (f_equal; ring); try lra; tauto].
  Lemma tm_module_math name m : lookup name math_table = Some m -> forall F, lookup name tm_module_table = Some F -> tmatches m F.
  Proof.
    unfold math_table. rewrite !lookup_cons.
    repeat match goal with |- (if String.eqb name ?s then _ else _) = _ -> _ =>
      destruct (String.eqb name s) eqn:?; [one; solve [tfinish]|] end.
    intros H0; discriminate H0.
  Qed.
  Lemma tm_method_math name m : lookup (plain_name name) math_table = Some m -> forall F, lookup name tm_method_table = Some F -> tmatches m F.
  Proof.
    unfold plain_name, numpy_names. rewrite !lookup_cons.
    repeat match goal with |- lookup (match (if String.eqb name ?s then _ else _) with _ => _ end) _ = _ -> _ =>
      destruct (String.eqb name s) eqn:?; [one; cbn; solve [tfinish]|] end.
    cbn. unfold math_table. rewrite !lookup_cons.
    repeat match goal with |- (if String.eqb name ?s then _ else _) = _ -> _ =>
      destruct (String.eqb name s) eqn:?; [one; solve [tfinish]|] end.
    intros H0; discriminate H0.
  Qed.

  Lemma bin_numbers op a b : tp_bin iter op (TNum a) (TNum b) = number (py_bin op a b).
  Proof. destruct a; reflexivity. Qed.
  Lemma bin_models op A B f g v : okt A f -> okt B g -> tp_bin iter op (TModel A) (TModel B) = Ok v ->
    match op with BDiv => g center <> 0 | _ => True end ->
    ~ flat n (fun x => match op with BAdd => f x + g x | BSub => f x - g x | BMul => f x * g x | BDiv => f x / g x | BPow => rpow (f x) (g x) end) ->
    exists t, v = TModel t /\
      okt t (fun x => match op with BAdd => f x + g x | BSub => f x - g x | BMul => f x * g x | BDiv => f x / g x | BPow => rpow (f x) (g x) end).
  Proof.
    intros HA HB E D N. assert (X := HA). destruct X as (XA & OA). assert (X := HB). destruct X as (XB & OB).
    destruct op; cbn in E; try discriminate; unfold model in E; apply rbind_Ok in E; destruct E as (T & E & [= <-]); exists T; split; auto.
    - destruct (add_poly n _ _ _ _ _ E XA XB) as [X O]. apply (okt_max A B T f g); auto.
    - destruct (sub_poly n _ _ _ _ _ E XA XB) as [X O]. apply (okt_max A B T f g); auto.
    - destruct (mul_poly iter n A B T f g E) as [X O]; auto; try lia. apply (okt_max A B T f g); auto.
      apply (mul_order iter A B T); auto; [apply XA|apply XB|lia|lia].
    - destruct (div_poly iter n A B T f g E) as [X O]; auto; try lia. apply (okt_max A B T f g); auto.
      apply (div_order iter n A B T f g); auto; lia.
  Qed.
  Lemma bin_number_left op r w B g v : number_of r = Some w -> okt B g -> tp_bin iter op (TNum r) (TModel B) = Ok v ->
    match op with BDiv => g center <> 0 | _ => True end ->
    exists t, v = TModel t /\
      okt t (fun x => match op with BAdd => w + g x | BSub => w - g x | BMul => w * g x | BDiv => w / g x | BPow => rpow w (g x) end).
  Proof.
    intros Hr HB E D. assert (X := HB). destruct X as (XB & OB). pose proof (as_double_number _ _ Hr) as Dv.
    assert (E' : match op with BAdd => model (tm_add_sg w B) | BSub => model (tm_sub_sg w B) | BMul => model (tm_mul_sg w B)
        | BDiv => model (tm_div_sg iter w B) | BPow => Throw OtherException end = Ok v).
    { rewrite <- E, <- Dv. destruct r; [reflexivity|reflexivity|discriminate]. }
    destruct (scalar_poly n B g w XB) as (H1 & _ & H3 & _ & H5 & _).
    destruct op; try discriminate; unfold model in E'; apply rbind_Ok in E'; destruct E' as (T & ET & [= <-]); exists T; split; auto.
    - destruct (H1 T ET) as [X O]. apply (okt_same B T g); auto.
    - destruct (H3 T ET) as [X O]. apply (okt_same B T g); auto.
    - destruct (H5 T ET) as [X O]. apply (okt_same B T g); auto.
    - destruct (div_sg_poly iter n B T g w ET XB D) as [X O]. apply (okt_same B T g); auto.
  Qed.
  Lemma bin_number_right op r w A f v : number_of r = Some w -> okt A f -> tp_bin iter op (TModel A) (TNum r) = Ok v ->
    match op with BPow => dompow (f center) w /\ exists z : Z, z <> 0%Z /\ w = IZR z / 2 | _ => True end ->
    ~ flat n (fun x => match op with BAdd => f x + w | BSub => f x - w | BMul => f x * w | BDiv => f x / w | BPow => rpow (f x) w end) ->
    exists t, v = TModel t /\
      okt t (fun x => match op with BAdd => f x + w | BSub => f x - w | BMul => f x * w | BDiv => f x / w | BPow => rpow (f x) w end).
  Proof.
    intros Hr HA E D N. assert (X := HA). destruct X as (XA & OA). pose proof (as_double_number _ _ Hr) as Dv.
    assert (E' : match op with BAdd => model (tm_add_gs A w) | BSub => model (tm_sub_gs A w) | BMul => model (tm_mul_gs A w)
        | BDiv => model (tm_div_gs A w) | BPow => model (tp_pow iter A r) end = Ok v).
    { rewrite <- E, <- Dv. destruct r; [reflexivity|reflexivity|discriminate]. }
    destruct (scalar_poly n A f w XA) as (_ & H1 & _ & H3 & _ & H5 & _).
    destruct op; try discriminate; unfold model in E'; apply rbind_Ok in E'; destruct E' as (T & ET & [= <-]); exists T; split; auto.
    - destruct (H1 T ET) as [X O]. apply (okt_same A T f); auto.
    - destruct (H3 T ET) as [X O]. apply (okt_same A T f); auto.
    - destruct (H5 T ET) as [X O]. apply (okt_same A T f); auto.
    - apply (okt_same A T f); auto; [apply (div_gs_poly n A T f w ET XA)|].
      unfold tm_div_gs in ET. apply rbind_Ok in ET. destruct ET as (q & _ & ET). apply make_poly in ET. rewrite ET.
      destruct (ord_unary (m_tpol A) w) as (_ & _ & _ & _ & _ & _ & _ & O & _); [apply XA|]. exact O.
    - destruct D as (D & z & Z0 & Hz).
      assert (HP : forall T, tm_pow iter A w = Ok T -> expands n (m_tpol T) (fun x => rpow (f x) w) /\ or0 A T).
      { intros T' ET'. rewrite Hz in *. apply (half_power iter n A T' f z); auto; lia. }
      destruct (number_cases _ _ Hr) as [(k & -> & ->)| ->]; cbn in ET.
      + destruct (_ && _)%bool.
        * destruct (int_power iter n A T f k ET) as [X O]; auto; try lia; [|apply (okt_or0 A T f); auto].
          intros K. subst k. apply Z0. apply eq_IZR. lra.
        * destruct (HP T ET) as [X O]. apply (okt_or0 A T f); auto.
      + destruct (HP T ET) as [X O]. apply (okt_or0 A T f); auto.
  Qed.

  Lemma eval_okt e : py_smooth tm e p0 M -> proper tm n y e -> if is_number tm e then num_okt e else tm_okt e.
  Proof.
    induction e as [z|x|s|op a IHa b IHb|a IHa|a IHa|f a IHa|f a IHa]; cbn [is_number py_smooth proper]; intros Sm [NF Pr].
    - split; [exists (VInt z); auto|auto].
    - split; [exists (VFloat x); auto|auto].
    - specialize (HE s). destruct (tm s) eqn:E; cbn.
      + intros v Hv. cbn in Hv. rewrite HE in Hv. injection Hv as <-. exists (S s). split; auto. destruct (HI s E) as (V & O1 & O2).
        split; auto. split; auto. split; auto. exists 0, 1. split; [lra|]. split; [lra|]. intros x r _ _. cbn. unfold y, inputs. rewrite E.
        rewrite Rminus_eq_0, Rabs_R0. lra.
      + split; [exists (VFloat (point s)); cbn; rewrite HE; unfold p0, y, inputs; rewrite E; auto|].
        intros x. cbn. unfold p0, y, inputs. rewrite E. reflexivity.
    - destruct Sm as (Sa & Sb & D). destruct Pr as (Pa & Pb & Px). specialize (IHa Sa Pa). specialize (IHb Sb Pb).
      destruct (is_number tm a) eqn:Na, (is_number tm b) eqn:Nb; cbn [andb] in *.
      + destruct IHa as ((v & Ev & Nv) & Ca), IHb as ((w & Ew & Nw) & Cb).
        pose proof (num_bin op v w _ _ Nv Nw D) as H. split; [|intros x; destruct op; cbn; rewrite Ca, Cb; reflexivity].
        destruct H as (u & Eu & Nu). exists u. cbn [tp_eval]. rewrite Ev, Ew. cbn [rbind]. rewrite bin_numbers, Eu, Nu. split; [reflexivity|].
        destruct op; reflexivity.
      + destruct IHa as ((v & Ev & Nv) & Ca). intros u Hu. cbn [tp_eval] in Hu. rewrite Ev in Hu. cbn [rbind] in Hu.
        apply rbind_Ok in Hu. destruct Hu as (w & Ew & Hu). destruct (IHb w Ew) as (B & -> & HB).
        destruct (bin_number_left op v _ B _ u Nv HB Hu) as (t & -> & Ht); [destruct op; auto|].
        exists t. split; auto. eapply okt_fun; [|exact Ht]. intros x. destruct op; cbn; rewrite ?Ca; reflexivity.
      + destruct IHb as ((v & Ev & Nv) & Cb). intros u Hu. cbn [tp_eval] in Hu.
        apply rbind_Ok in Hu. destruct Hu as (w & Ew & Hu). rewrite Ev in Hu. cbn [rbind] in Hu. destruct (IHa w Ew) as (A & -> & HA).
        destruct (bin_number_right op v _ A _ u Nv HA Hu) as (t & -> & Ht).
        * destruct op; auto.
        * intros (C & d & Hd & HC & F). apply NF; auto. exists C, d. split; auto. split; auto. intros x r Hx Hr. specialize (F x r Hx Hr).
          destruct op; cbn; rewrite Cb; exact F.
        * exists t. split; auto. eapply okt_fun; [|exact Ht]. intros x. destruct op; cbn; rewrite ?Cb; reflexivity.
      + intros u Hu. cbn [tp_eval] in Hu. apply rbind_Ok in Hu. destruct Hu as (v & Ev & Hu). apply rbind_Ok in Hu. destruct Hu as (w & Ew & Hu).
        destruct (IHa v Ev) as (A & -> & HA). destruct (IHb w Ew) as (B & -> & HB).
        destruct (bin_models op A B _ _ u HA HB Hu) as (t & -> & Ht).
        * destruct op; auto.
        * destruct op; exact (NF eq_refl).
        * exists t. split; [reflexivity|exact Ht].
    - specialize (IHa Sm Pr). destruct (is_number tm a) eqn:Na.
      + destruct IHa as ((v & Ev & Nv) & Ca). split; [|intros x; cbn; rewrite Ca; auto].
        exists (py_neg v). cbn. rewrite Ev. split; [reflexivity|].
        destruct (number_cases _ _ Nv) as [(z & -> & ->)| ->]; cbn; auto. rewrite opp_IZR. auto.
      + intros u Hu. cbn [tp_eval] in Hu. apply rbind_Ok in Hu. destruct Hu as (v & Ev & Hu). destruct (IHa v Ev) as (A & -> & HA).
        cbn in Hu. unfold model in Hu. apply rbind_Ok in Hu. destruct Hu as (T & ET & [= <-]). exists T. split; auto.
        assert (X := HA). destruct X as (XA & _). destruct (scalar_poly n A _ 0 XA) as (_ & _ & _ & _ & _ & _ & H). destruct (H T ET) as [X O].
        apply (okt_same A T _ _ HA X O).
    - specialize (IHa Sm Pr). destruct (is_number tm a) eqn:Na.
      + destruct IHa as ((v & Ev & Nv) & Ca). split; [|intros x; cbn; rewrite Ca; auto].
        exists v. cbn. rewrite Ev. split; [destruct v; [reflexivity|reflexivity|discriminate]|exact Nv].
      + intros u Hu. cbn [tp_eval] in Hu. apply rbind_Ok in Hu. destruct Hu as (v & Ev & Hu). destruct (IHa v Ev) as (A & -> & HA). discriminate.
    - destruct Sm as [Sa D]. specialize (IHa Sa Pr). unfold math_ok in D.
      destruct (lookup f math_table) as [m|] eqn:Em; [|contradiction]. destruct D as [D U].
      assert (MV : forall x, math_fun f x = mf_val m x) by (intros; unfold math_fun; rewrite Em; auto).
      destruct (is_number tm a).
      + destruct (module_math f m Em) as (h & Eh & Mh).
        destruct IHa as ((v & Ev & Nv) & Ca). split; [|intros x; cbn; rewrite Ca; auto].
        exists (VFloat (std_fun h (as_double v))). cbn. rewrite Ev. cbn. unfold py_call. rewrite Eh.
        rewrite (as_double_number _ _ Nv), std_real, MV, (proj1 Mh).
        split; [destruct v; [reflexivity|reflexivity|discriminate]|reflexivity].
      + intros u Hu. cbn [tp_eval] in Hu. apply rbind_Ok in Hu. destruct Hu as (v & Ev & Hu). destruct (IHa v Ev) as (A & -> & HA).
        cbn [tp_call] in Hu. destruct (lookup f tm_module_table) as [F|] eqn:EF; [|discriminate]. destruct (tm_module_math f m Em F EF) as (MR & MD & MU).
        unfold model in Hu. apply rbind_Ok in Hu. destruct Hu as (T & ET & [= <-]). exists T. split; auto.
        assert (EQ : forall x, real1 F (py_real a (y x)) = py_real (ECall f a) (y x)) by (intros; cbn; rewrite MV, MR; auto).
        apply (okt_fun T _ _ EQ). apply (okt_call F A T); auto. specialize (NF eq_refl). intros (C & d & Hd & HC & B). apply NF.
        exists C, d. split; auto. split; auto. intros x r Hx Hr. rewrite <- EQ. auto.
    - destruct Sm as (Sa & D & NA). specialize (IHa Sa Pr). unfold math_ok in D. rewrite NA in *.
      destruct (lookup (plain_name f) math_table) as [m|] eqn:Em; [|contradiction]. destruct D as [D U].
      assert (MV : forall x, math_fun (plain_name f) x = mf_val m x) by (intros; unfold math_fun; rewrite Em; auto).
      intros u Hu. cbn [tp_eval] in Hu. apply rbind_Ok in Hu. destruct Hu as (v & Ev & Hu). destruct (IHa v Ev) as (A & -> & HA).
      cbn [tp_method] in Hu. destruct (lookup f tm_method_table) as [F|] eqn:EF; [|discriminate]. destruct (tm_method_math f m Em F EF) as (MR & MD & MU).
      unfold model in Hu. apply rbind_Ok in Hu. destruct Hu as (T & ET & [= <-]). exists T. split; auto.
      assert (EQ : forall x, real1 F (py_real a (y x)) = py_real (EMethod f a) (y x)) by (intros; cbn; rewrite MV, MR; auto).
      apply (okt_fun T _ _ EQ). apply (okt_call F A T); auto. specialize (NF eq_refl). intros (C & d & Hd & HC & B). apply NF.
      exists C, d. split; auto. split; auto. intros x r Hx Hr. rewrite <- EQ. auto.
  Qed.
End Run.
