(** * Products with a zero polynomial, quotients and integer powers *)
From Coq Require Import String List Arith Bool ZArith Reals Permutation Lra Lia.
From Verif Require Import Ops Syms SymsFacts Poly PolyFacts Gdual GdualFacts Functions Spec CoefFacts CoreProofs CalcProofs ValueProofs MiscProofs FunStruct MapProofs Interval TaylorModel TMFunctions SpecTM TMMaps TMArith TMMul TMTaylor.
From Verif Require Import ElemR FunAlg.
Import ListNotations.
Local Open Scope R_scope.

Lemma make_fields (p : gdual R) r ex dom T : tm_make p r ex dom = Ok T -> T = mkTM p (get_order p) (get_symbol_set_size p) r ex dom.
Proof. unfold tm_make. destruct (check_input_validity _); cbn [rbind]; [|discriminate]. intros E. injection E as <-. reflexivity. Qed.

(** ** Zero polynomials *)
Lemma value_zero_terms (g : gdual R) rho : ~ nonzero g -> value g rho = 0.
Proof. unfold nonzero, value. intros H. destruct (pterms (gp g)) as [|t l]; [reflexivity|]. exfalso. apply H. discriminate. Qed.
Lemma wf_tm_const c : well_formed (tm_const c).
Proof.
  constructor; cbn; auto; try constructor; try tauto; try apply valid_const.
Qed.
Lemma tm_mul_zero iter A B : well_formed A -> well_formed B -> ~ nonzero (m_tpol A) \/ ~ nonzero (m_tpol B) -> tm_mul iter A B = Ok (tm_const 0).
Proof.
  intros WA WB H. destruct (zero_check (m_tpol A) (wf_poly _ WA)) as (z & Ez & Za). destruct (zero_check (m_tpol B) (wf_poly _ WB)) as (z' & Ez' & Zb).
  rewrite Ez in Ez'. injection Ez' as <-. unfold tm_mul. change (@k0 R OpsR) with 0. rewrite Ez. cbn [rbind].
  assert (X : geqb (m_tpol A) z || geqb (m_tpol B) z = true).
  { apply orb_true_iff. unfold nonzero in H. destruct H as [H|H]; [left; apply Za|right; apply Zb]; destruct (pterms _); auto; exfalso; apply H; discriminate. }
  rewrite X. reflexivity.
Qed.
Lemma zero_represents (D : point -> Prop) (h : point -> R) : (forall x, D x -> h x = 0) -> represents D (tm_const 0) h.
Proof.
  intros H. split; [apply wf_tm_const|]. intros x Hx. split; [intros s I []|]. cbn [tm_const m_rem m_tpol m_exp].
  rewrite value_const, H by auto. unfold within. cbn. lra.
Qed.
Lemma tm_mul_zero_ok iter A B (D : point -> Prop) f g : represents D A f -> represents D B g ->
  (~ nonzero (m_tpol A) /\ m_rem A = (0, 0)) \/ (~ nonzero (m_tpol B) /\ m_rem B = (0, 0)) ->
  exists T, tm_mul iter A B = Ok T /\ represents D T (fun x => f x * g x).
Proof.
  intros [WA HA] [WB HB] H. exists (tm_const 0). split; [apply tm_mul_zero; tauto|]. apply zero_represents. intros x Hx.
  destruct H as [[Z E]|[Z E]].
  - destruct (HA x Hx) as [_ X]. rewrite E, value_zero_terms in X by auto. unfold within in X. cbn in X. replace (f x) with 0 by lra. ring.
  - destruct (HB x Hx) as [_ X]. rewrite E, value_zero_terms in X by auto. unfold within in X. cbn in X. replace (g x) with 0 by lra. ring.
Qed.
(** all the rest of the product of zero with a model is lost *)
Lemma tm_mul_zero_only iter A B (D : point -> Prop) f g : well_formed A -> well_formed B -> ~ nonzero (m_tpol A) \/ ~ nonzero (m_tpol B) ->
  (exists T, tm_mul iter A B = Ok T /\ represents D T (fun x => f x * g x)) <-> (forall x, D x -> f x * g x = 0).
Proof.
  intros WA WB H. rewrite (tm_mul_zero iter A B WA WB H). split.
  - intros (T & E & _ & HT) x Hx. injection E as <-. destruct (HT x Hx) as [_ X]. cbn [tm_const m_rem m_tpol m_exp] in X. rewrite value_const in X.
    unfold within in X. cbn in X. lra.
  - intros Z. exists (tm_const 0). split; auto. apply zero_represents. auto.
Qed.

(** ** Transport along equal polynomials *)
Lemma nonzero_value (a b : gdual R) : valid a -> valid b -> (forall rho, value a rho = value b rho) -> nonzero a -> nonzero b.
Proof.
  unfold nonzero. intros Va Vb E Na Nb. destruct (zero_check a Va) as (z & Ez & Za). destruct (zero_check b Vb) as (z' & Ez' & Zb).
  rewrite Ez in Ez'. injection Ez' as <-. apply Na, Za. assert (Vz : valid z).
  { assert (G := gvar_spec (0 : R) "irrelevant" 0). rewrite Ez in G. apply G. }
  apply value_eq_iff; auto. intros rho. rewrite E. revert rho. apply value_eq_iff; auto. apply Zb. auto.
Qed.
Lemma truncation_value (a a' b : gdual R) : valid a -> valid a' -> (forall rho, value a rho = value a' rho) -> get_order a = get_order a' ->
  truncation_seen a b -> truncation_seen a' b.
Proof.
  intros Va Va' E O H. assert (C : forall W k, NoDup W -> length k = length W -> product_coef a b W k = product_coef a' b W k).
  { intros W k HW Hk. unfold product_coef. apply sum_list_ext. intros [i j] Hij. destruct (splits_sum k i j Hij) as (_ & Li & _). cbn [fst snd].
    rewrite (value_coef a a' W i (valid_gwf _ Va) (valid_gwf _ Va') E HW) by congruence. reflexivity. }
  destruct H as [H|(W & k & HW & Hk & L & Q)]; [left|right].
  - intros W k HW Hk L. rewrite <- C by auto. apply H; auto. rewrite O. auto.
  - exists W, k. rewrite <- C, <- O by auto. auto.
Qed.

(** ** Quotients *)
Lemma div_fields iter v A T : tm_div_sg iter v A = Ok T -> well_formed A ->
  get_order (m_tpol T) = get_order (m_tpol A) /\ m_exp T = m_exp A /\ m_domain T = m_domain A /\ psyms (gp (m_tpol T)) = psyms (gp (m_tpol A)).
Proof.
  unfold tm_div_sg. intros E W. destruct (tm_bounds iter A); cbn [rbind] in E; [|discriminate]. destruct (zero_in _); [discriminate|].
  destruct (f_bar_remainder_bounds iter A); cbn [rbind] in E; [|discriminate]. do 3 (destruct (idiv _ _); cbn [rbind] in E; [|discriminate]).
  apply make_fields in E. subst T. cbn [m_tpol m_exp m_domain]. assert (V := wf_poly _ W).
  assert (S := sto_div_sg _ _ v _ (sto_self _ (valid_gwf _ V) (proj2 (proj1 (valid_iff _) V)))). split; [exact (sto_ord _ _ _ S)|]. split; auto. split; auto.
  exact (sto_sym _ _ _ S).
Qed.
Lemma variables_syms A B : psyms (gp (m_tpol A)) = psyms (gp (m_tpol B)) -> variables A = variables B.
Proof. unfold variables. intros ->. auto. Qed.
Lemma tm_div_ok iter A B D f g r : represents D A f -> represents D B g -> simple B -> tm_div_sg iter 1 B = Ok r ->
  same_centers A B -> close_domains A B -> nonzero (m_tpol A) -> nonzero (m_tpol r) -> (1 <= get_order (m_tpol A) + get_order (m_tpol B) <= 62)%nat ->
  truncation_seen (m_tpol A) (m_tpol r) -> permutes iter -> ordered_on iter (variables A ++ variables B) ->
  exists T, tm_div iter A B = Ok T /\ represents D T (fun x => f x / g x).
Proof.
  intros RA RB SB E SC CD NA NR O TS Hp Hi. destruct (div_fields iter 1 B r E (proj1 RB)) as (F1 & F2 & F3 & F4).
  assert (RR : represents D r (fun x => / g x)).
  { apply (tm_div_sg_ok iter B D g RB); auto; [lia|]. apply (ordered_incl _ _ (variables A ++ variables B)); auto. apply incl_appr, incl_refl. }
  unfold tm_div. change (k1 : R) with 1. rewrite E. cbn [rbind].
  apply (tm_mul_ok iter A r D f (fun x => / g x)); auto.
  - intros s c c'. rewrite F2. apply SC.
  - intros s I J. rewrite F3. apply CD.
  - rewrite F1. auto.
  - rewrite (variables_syms r B F4). auto.
Qed.

(** ** Repeated multiplication by one model *)
Record comes_from (P B : taylor_model R) : Prop := mkFrom {
  cf_order : get_order (m_tpol P) = get_order (m_tpol B);
  cf_exp : forall s c, In (s, c) (m_exp P) -> In (s, c) (m_exp B);
  cf_dom : forall s I, In (s, I) (m_domain P) -> In (s, I) (m_domain B);
  cf_syms : forall s, In s (psyms (gp (m_tpol P))) -> In s (psyms (gp (m_tpol B)))
}.
Section Chain.
  Variables (iter : list (string * (R * R)) -> list (string * (R * R))) (B : taylor_model R) (D : point -> Prop) (g : point -> R).
  Hypothesis RB : represents D B g.
  Hypothesis NB : nonzero (m_tpol B).
  Hypothesis OB : (1 <= get_order (m_tpol B) <= 31)%nat.
  Hypothesis Hp : permutes iter.
  Hypothesis Hi : ordered_on iter (variables B).
  (** what is done to the product before each multiplication *)
  Variable pre : taylor_model R -> res (taylor_model R).
  Hypothesis Hpre : forall P h, represents D P h -> comes_from P B -> exists P', pre P = Ok P' /\ represents D P' h /\ comes_from P' B /\
    (forall rho, value (m_tpol P') rho = value (m_tpol P) rho).
  Variables (start : res (taylor_model R)) (h : point -> R) (first : nat).
  Definition chain (n : nat) : res (taylor_model R) :=
    fold_left (fun acc (_ : nat) => p <- acc;; q <- pre p;; tm_mul iter q B) (seq first n) start.
  Lemma chain_S n : chain (S n) = (p <- chain n;; q <- pre p;; tm_mul iter q B).
  Proof. unfold chain. rewrite seq_S, fold_left_app. reflexivity. Qed.
  Lemma chain_ok n : (exists P, start = Ok P /\ represents D P h /\ comes_from P B) ->
    (forall j P, (j < n)%nat -> chain j = Ok P -> nonzero (m_tpol P) /\ truncation_seen (m_tpol P) (m_tpol B)) ->
    exists T, chain n = Ok T /\ represents D T (fun x => h x * g x ^ n) /\ comes_from T B.
  Proof.
    intros (P0 & E0 & R0 & C0). induction n as [|n IH]; intros H.
    - exists P0. split; [exact E0|]. split; auto. destruct R0 as [W0 X0]. split; auto. intros x Hx. cbn [pow]. rewrite Rmult_1_r. apply X0; auto.
    - destruct IH as (P & EP & RP & CP); [intros; apply (H j); auto|]. rewrite chain_S, EP. cbn [rbind].
      destruct (H n P ltac:(lia) EP) as [NP TP]. destruct (Hpre P _ RP CP) as (Q & EQ & RQ & CQ & VQ). rewrite EQ. cbn [rbind].
      assert (VP : valid (m_tpol P)) by apply RP. assert (VQ' : valid (m_tpol Q)) by apply RQ.
      assert (W := proj1 RB). destruct (tm_mul_full iter Q B D (fun x => h x * g x ^ n) g) as (T & ET & RT & [OT XT DT ST]); auto.
      + intros s c c' X Y. apply (cf_exp _ _ CQ) in X. apply (distinct_In s c c' (m_exp B)); auto. apply W.
      + intros s I J X Y. apply (cf_dom _ _ CQ) in X. rewrite (distinct_In s I J (m_domain B) (wf_dom _ W) X Y). unfold close. rewrite !Rminus_diag_eq, Rabs_R0 by auto. lra.
      + apply (nonzero_value (m_tpol P)); auto.
      + rewrite (cf_order _ _ CQ). lia.
      + apply (truncation_value (m_tpol P)); auto. rewrite (cf_order _ _ CQ), (cf_order _ _ CP). auto.
      + apply (ordered_incl _ _ (variables B)); auto. apply incl_app; [|apply incl_refl]. intros s X. unfold variables in *. apply in_map_iff in X.
        destruct X as (u & <- & X). apply in_map. apply (cf_syms _ _ CQ); auto.
      + exists T. split; auto. split.
        * destruct RT as [WT HT]. split; auto. intros x Hx. cbn [pow]. replace (h x * (g x * g x ^ n)) with (h x * g x ^ n * g x) by ring. apply HT; auto.
        * constructor.
          -- rewrite OT, (cf_order _ _ CQ). lia.
          -- intros s c X. apply XT in X. destruct X as [X|X]; auto. apply (cf_exp _ _ CQ); auto.
          -- intros s c X. apply DT in X. destruct X as [X|X]; auto. apply (cf_dom _ _ CQ); auto.
          -- intros s X. apply ST in X. destruct X as [X|X]; auto. apply (cf_syms _ _ CQ); auto.
  Qed.
End Chain.

Lemma scaled_once D P h B : represents D P h -> comes_from P B ->
  (exists P', tm_mul_sg 1 P = Ok P' /\ represents D P' h /\ comes_from P' B /\ (forall rho, value (m_tpol P') rho = value (m_tpol P) rho)) /\
  (exists P', tm_mul_gs P 1 = Ok P' /\ represents D P' h /\ comes_from P' B /\ (forall rho, value (m_tpol P') rho = value (m_tpol P) rho)).
Proof.
  intros RP [C1 C2 C3 C4]. assert (V : valid (m_tpol P)) by apply RP. assert (Wf := valid_gwf _ V).
  assert (S0 := sto_self _ Wf (proj2 (proj1 (valid_iff _) V))). split.
  - destruct (tm_mul_sg_ok P D h RP 1) as (T & E & WT & HT). exists T. split; auto. split.
    { split; auto. intros x Hx. destruct (HT x Hx) as [X Y]. rewrite Rmult_1_l in Y. auto. }
    apply make_fields in E. subst T. cbn [m_tpol]. split.
    + assert (S1 := sto_mul_sg _ _ 1 _ S0). constructor; cbn [m_tpol m_exp m_domain]; [|exact C2|exact C3|].
      * rewrite <- C1. exact (sto_ord _ _ _ S1).
      * intros s X. apply C4. change (In s (gsyms (m_tpol P))). rewrite <- (sto_sym _ _ _ S1). exact X.
    + intros rho. rewrite value_mul_sg by auto. cbn. ring.
  - destruct (tm_mul_gs_ok P D h RP 1) as (T & E & WT & HT). exists T. split; auto. split.
    { split; auto. intros x Hx. destruct (HT x Hx) as [X Y]. rewrite Rmult_1_r in Y. auto. }
    apply make_fields in E. subst T. cbn [m_tpol]. split.
    + assert (S1 := sto_mul_gs _ _ 1 _ S0). constructor; cbn [m_tpol m_exp m_domain]; [|exact C2|exact C3|].
      * rewrite <- C1. exact (sto_ord _ _ _ S1).
      * intros s X. apply C4. change (In s (gsyms (m_tpol P))). rewrite <- (sto_sym _ _ _ S1). exact X.
    + intros rho. rewrite value_mul_gs by auto. cbn. ring.
Qed.
Lemma from_self B : comes_from B B.
Proof. constructor; auto. Qed.

Section PowInt.
  Variables (iter : list (string * (R * R)) -> list (string * (R * R))) (A : taylor_model R) (D : point -> Prop) (f : point -> R).
  Hypothesis RA : represents D A f.
  Hypothesis Hp : permutes iter.
  Hypothesis Hi : ordered_on iter (variables A).
  Hypothesis OA : (1 <= get_order (m_tpol A) <= 31)%nat.

  Lemma pow_one : tm_pow_int iter A 1 = Ok A.
  Proof. reflexivity. Qed.
  Lemma pow_chain n : (2 <= n)%nat -> tm_pow_int iter A (Z.of_nat n) = chain iter A (fun P => Ok P) (tm_mul_sg 1 A) 1 (n - 1).
  Proof.
    intros H. unfold tm_pow_int. destruct (Z.eqb_spec (Z.of_nat n) 0); [lia|]. destruct (Z.eqb_spec (Z.of_nat n) 1); [lia|].
    destruct (Z.ltb_spec 1 (Z.of_nat n)); [|lia]. rewrite Nat2Z.id. unfold chain. apply fl_ext. intros [y|y] z; reflexivity.
  Qed.
  Lemma tm_pow_pos_ok n : (2 <= n)%nat -> nonzero (m_tpol A) -> truncation_seen (m_tpol A) (m_tpol A) ->
    (forall j P, (2 <= j < n)%nat -> tm_pow_int iter A (Z.of_nat j) = Ok P -> nonzero (m_tpol P) /\ truncation_seen (m_tpol P) (m_tpol A)) ->
    exists T, tm_pow_int iter A (Z.of_nat n) = Ok T /\ represents D T (fun x => f x ^ n).
  Proof.
    intros Hn NA TA H. destruct (scaled_once D A f A RA (from_self A)) as ((P0 & E0 & R0 & C0 & V0) & _).
    assert (VA : valid (m_tpol A)) by apply RA. assert (VP0 : valid (m_tpol P0)) by apply R0.
    destruct (chain_ok iter A D f RA NA OA Hp Hi (fun P => Ok P)) with (start := tm_mul_sg 1 A) (h := f) (first := 1%nat) (n := (n - 1)%nat) as (T & ET & RT & _).
    - intros P h RP CP. exists P. auto.
    - exists P0. auto.
    - intros j P Hj EP. destruct j as [|j].
      + unfold chain in EP. cbn [seq fold_left] in EP. rewrite E0 in EP. injection EP as <-. split.
        * apply (nonzero_value (m_tpol A)); auto.
        * apply (truncation_value (m_tpol A)); auto. symmetry. apply (cf_order _ _ C0).
      + apply (H (S (S j))); [lia|]. rewrite pow_chain by lia. replace (S (S j) - 1)%nat with (S j) by lia. exact EP.
    - exists T. rewrite pow_chain by auto. split; auto. destruct RT as [WT HT]. split; auto. intros x Hx. replace n with (S (n - 1)) at 1 by lia. exact (HT x Hx).
  Qed.
  Lemma pow_neg_chain n r : (1 <= n)%nat -> tm_div_sg iter 1 A = Ok r ->
    tm_pow_int iter A (- Z.of_nat n) = chain iter r (fun P => tm_mul_gs P 1) (Ok r) 0 (n - 1).
  Proof.
    intros H E. unfold tm_pow_int. destruct (Z.eqb_spec (- Z.of_nat n) 0); [lia|]. destruct (Z.eqb_spec (- Z.of_nat n) 1); [lia|].
    destruct (Z.ltb_spec 1 (- Z.of_nat n)); [lia|]. rewrite Z.opp_involutive, Nat2Z.id. unfold chain. change (k1 : R) with 1. rewrite E.
    apply fl_ext. intros [y|y] z; [|reflexivity]. cbn [rbind]. destruct (tm_mul_gs y 1); [|reflexivity]. cbn [rbind]. unfold tm_div. change (k1 : R) with 1. rewrite E. reflexivity.
  Qed.
  Lemma tm_pow_neg_ok n r : (1 <= n)%nat -> simple A -> tm_div_sg iter 1 A = Ok r -> nonzero (m_tpol r) ->
    (forall j P, (1 <= j < n)%nat -> tm_pow_int iter A (- Z.of_nat j) = Ok P -> nonzero (m_tpol P) /\ truncation_seen (m_tpol P) (m_tpol r)) ->
    exists T, tm_pow_int iter A (- Z.of_nat n) = Ok T /\ represents D T (fun x => / f x ^ n).
  Proof.
    intros Hn SA E NR H. destruct (div_fields iter 1 A r E (proj1 RA)) as (F1 & F2 & F3 & F4).
    assert (RR : represents D r (fun x => / f x)) by (apply (tm_div_sg_ok iter A D f RA); auto; lia).
    assert (Or : (1 <= get_order (m_tpol r) <= 31)%nat) by (rewrite F1; auto).
    assert (Ir : ordered_on iter (variables r)) by (rewrite (variables_syms r A F4); auto).
    destruct (chain_ok iter r D (fun x => / f x) RR NR Or Hp Ir (fun P => tm_mul_gs P 1)) with (start := Ok r) (h := fun x => / f x) (first := 0%nat) (n := (n - 1)%nat) as (T & ET & RT & _).
    - intros P h RP CP. destruct (scaled_once D P h r RP CP) as (_ & X). exact X.
    - exists r. split; auto. split; auto. apply from_self.
    - intros j P Hj EP. apply (H (S j)); [lia|]. rewrite (pow_neg_chain (S j) r) by (auto; lia). replace (S j - 1)%nat with j by lia. exact EP.
    - exists T. rewrite (pow_neg_chain n r) by auto. split; auto. destruct RT as [WT HT]. split; auto. intros x Hx. destruct (HT x Hx) as [X Y]. split; auto.
      replace (/ f x ^ n) with (/ f x * (/ f x) ^ (n - 1)); auto. rewrite <- pow_inv. replace n with (S (n - 1)) at 2 by lia. reflexivity.
  Qed.
  (** x^0: the remainder of the argument is kept, the number of variables is 0 *)
  Lemma tm_pow_zero_encloses : within (m_rem A) 0 -> exists T, tm_pow_int iter A 0 = Ok T /\ encloses D T (fun x => f x ^ 0).
  Proof.
    intros Z. eexists. split; [reflexivity|]. intros x Hx. destruct (proj2 RA x Hx) as [B _]. cbn [tm_identity_with m_domain m_rem m_tpol m_exp]. split; auto.
    rewrite value_const. cbn [pow]. replace (1 - _) with 0 by (cbn; ring). auto.
  Qed.
End PowInt.
