(** * Enclosure for the product of two Taylor models *)
From Coq Require Import String List Arith Bool ZArith Reals Permutation Lra Lia.
From Verif Require Import Ops Syms SymsFacts Poly PolyFacts Gdual GdualFacts Functions Spec CoefFacts CoreProofs CalcProofs ValueProofs MiscProofs MapProofs TaylorModel Interval SpecTM TMMaps TMArith Bounding.
Import ListNotations.
Local Open Scope R_scope.

Lemma coef_term (g : gdual R) W k : gwf g -> coef g W k <> 0 -> exists t, In t (pterms (gp g)) /\ snd t = coef g W k.
Proof.
  intros Hg H. assert (X : exists t, In t (pterms (gp g)) /\ same_mono (psyms (gp g)) (fst t) W k = true).
  { unfold coef in H. destruct Hg as [Hw _]. clear Hw. induction (pterms (gp g)) as [|t l IH]; cbn [fold_right] in H; [exfalso; apply H; reflexivity|].
    destruct (same_mono (psyms (gp g)) (fst t) W k) eqn:E; [exists t; split; [left|]; auto|].
    destruct IH as (u & Hu & Eu); [|exists u; split; [right|]; auto]. intros C. apply H. rewrite C. cbn. ring. }
  destruct X as (t & Ht & E). exists t. split; auto. rewrite <- (coef_own g t Hg Ht). apply coef_ext; auto.
  assert (X := proj1 (same_mono_spec _ _ _ _) E). intros s.
  destruct (in_dec string_dec s (psyms (gp g))) as [I|I]; [apply X; auto|]. destruct (in_dec string_dec s W) as [J|J]; [apply X; auto|].
  rewrite !expo_not_In; auto.
Qed.
Lemma gdegree_coef (a b : gdual R) : valid a -> valid b -> same_coefs a b -> (gdegree a <= gord b)%nat.
Proof.
  intros Ha Hb E. unfold gdegree. apply pdegree_le. apply Forall_forall. intros t Ht. destruct (Nat.le_gt_cases (kdeg (fst t)) (gord b)) as [L|L]; auto.
  exfalso. assert (X := coef_own a t (valid_gwf _ Ha) Ht). assert (NZ := valid_nonzero a Ha t Ht).
  assert (NW : NoDup (gsyms a)) by exact (ssorted_NoDup _ (gsyms_sorted a (valid_gwf a Ha))).
  assert (LW : length (fst t) = length (gsyms a)) by exact (valid_length a Ha t Ht).
  rewrite E in X by auto. rewrite (coef_above b (gsyms a) (fst t) (valid_gwf b Hb) NW LW) in X by (rewrite list_sum_kdeg; auto).
  rewrite <- X in NZ. unfold keqb in NZ. cbn in NZ. unfold Reqb in NZ. destruct (Req_EM_T 0 0); congruence.
Qed.

Lemma gvar_syms (v : R) s n g : gvar v s n = Ok g -> psyms (gp g) = [dsym s].
Proof.
  unfold gvar. destruct (check_order n); cbn [rbind]; [|discriminate]. destruct (check_var_name s); cbn [rbind]; [|discriminate].
  destruct (Nat.eqb n 0); unfold extend_symbol_set; cbn; intros E; injection E as <-; reflexivity.
Qed.
Lemma increased_spec (p : gdual R) n : valid p -> (1 <= n)%nat -> (gord p <= n)%nat -> (Z.of_nat n < 4294967285)%Z ->
  exists q, get_increased_order p n = Ok q /\ valid q /\ gord q = n /\ same_coefs q p /\ (forall rho, value q rho = value p rho) /\
    (forall s, In s (psyms (gp q)) -> In s (psyms (gp p))).
Proof.
  intros Hp H1 Hn Hb. unfold get_increased_order. assert (G := gvar_spec (0 : R) "temp" n). assert (GV := fun g rho => gvar_value (0 : R) "temp" n g rho).
  assert (GS := gvar_syms (0 : R) "temp" n). change (@k0 R OpsR) with 0. destruct (gvar 0 "temp" n) as [t|x].
  2:{ exfalso. destruct x; try contradiction; try discriminate G. destruct G as [G|[r G]]; [lia|discriminate]. }
  destruct G as (_ & _ & Ot & St & Vt). cbn [rbind]. exists (gsubs t "dtemp" p). split; auto.
  assert (Vq : valid (gsubs t "dtemp" p)) by (apply valid_subs; auto). split; auto. split; [exact Ot|].
  destruct (subs_spec t "dtemp" p Vt Hp) as (c & Vc & Ec & Cc).
  assert (EV : forall rho, value c rho = value p rho).
  { intros rho. rewrite Ec, (GV t) by auto. destruct (Nat.eqb_spec n 0); [lia|]. unfold update. cbn. ring. }
  assert (SC : same_coefs (gsubs t "dtemp" p) p).
  { intros W k HW Hk. rewrite Cc by auto. unfold get_order in Ot. rewrite Ot. destruct (Nat.leb_spec (list_sum k) n) as [L|L].
    - exact (value_coef c p W k (valid_gwf c Vc) (valid_gwf p Hp) EV HW Hk).
    - symmetry. apply (coef_above p W k (valid_gwf p Hp)); auto. lia. }
  split; auto. split.
  - apply value_eq_iff; auto. apply geqb_same; auto.
  - intros s Hs. destruct (subs_syms t "dtemp" p s Vt Hp Hs) as [[A B]|A]; auto. exfalso. apply B.
    unfold gsyms in A. rewrite (GS t eq_refl) in A. destruct A as [A|[]]; auto.
Qed.

Lemma agreeable_spec (p : gdual R) d : valid p -> (d <= gord p)%nat ->
  exists a, agreeable p d = Ok a /\ valid a /\ gord a = d /\ (forall s, In s (psyms (gp a)) <-> In s (psyms (gp p))) /\
    (forall W k, NoDup W -> length k = length W -> coef a W k = if Nat.leb (list_sum k) d then coef p W k else 0).
Proof.
  intros Hp Hd. destruct (extract_sum p d Hp Hd) as (a & Va & Ca & Ea). exists a.
  assert (E : agreeable p d = Ok a).
  { unfold agreeable. rewrite <- Ea. apply fl_ext. intros [y|y] z; cbn [rbind]; auto. }
  split; auto. split; auto.
  assert (X : gord a = d /\ forall s, In s (psyms (gp a)) <-> In s (psyms (gp p))).
  { clear Va Ca Ea. revert a E. induction d as [|d IH]; intros a.
    - unfold agreeable. cbn [seq fold_left rbind]. unfold extract_terms. cbn [Nat.ltb Nat.leb rbind]. intros E. injection E as <-. split; [reflexivity|].
      intros s. rewrite add_syms. cbn. tauto.
    - unfold agreeable. rewrite seq_S, fold_left_app. fold (agreeable p d). destruct (agreeable p d) as [b|]; cbn [fold_left rbind Nat.add]; [|discriminate].
      unfold extract_terms. destruct (Nat.ltb_spec (gord p) (S d)); [lia|]. cbn [rbind]. intros E. injection E as <-.
      destruct (IH ltac:(lia) b eq_refl) as [O P]. split.
      + unfold gadd. cbn [gord]. rewrite O. lia.
      + intros s. rewrite add_syms, P. cbn. tauto. }
  destruct X. auto.
Qed.

(** ** The product *)
Lemma splits_sum k i j : In (i, j) (splits k) -> list_sum k = (list_sum i + list_sum j)%nat /\ length i = length k /\ length j = length k.
Proof.
  revert i j. induction k as [|e k IH]; intros i j H; cbn [splits] in H.
  - destruct H as [H|[]]. injection H as <- <-. auto.
  - apply in_flat_map in H. destruct H as (a & Ha & H). apply in_seq in Ha. apply in_map_iff in H. destruct H as ([i' j'] & E & H).
    injection E as <- <-. cbn [fst snd list_sum fold_right length] in *. destruct (IH i' j' H) as (X & Y & Z). unfold list_sum in *. cbn [fold_right]. lia.
Qed.
Lemma product_high (a b : gdual R) W k : valid a -> valid b -> NoDup W -> length k = length W -> (gord a + gord b < list_sum k)%nat -> product_coef a b W k = 0.
Proof.
  intros Ha Hb HW Hk L. unfold product_coef. assert (X : forall ij, In ij (splits k) -> (coef a W (fst ij) * coef b W (snd ij))%K = 0).
  { intros [i j] H. destruct (splits_sum k i j H) as (S1 & S2 & S3). cbn [fst snd].
    destruct (Nat.lt_ge_cases (gord a) (list_sum i)).
    - rewrite (coef_above a W i (valid_gwf a Ha)) by (auto; congruence). cbn. ring.
    - rewrite (coef_above b W j (valid_gwf b Hb)) by (auto; try congruence; lia). cbn. ring. }
  revert X. generalize (splits k). induction l as [|x l IH]; intros X; [reflexivity|]. unfold sum_list in *. cbn [fold_right]. rewrite IH, X.
  - cbn. ring.
  - left. auto.
  - intros y Hy. apply X. right. auto.
Qed.
Lemma coef_product (a b : gdual R) qa qb W k : valid a -> valid b -> valid qa -> valid qb -> same_coefs qa a -> same_coefs qb b ->
  (gord a + gord b <= Nat.max (gord qa) (gord qb))%nat -> NoDup W -> length k = length W -> coef (gmul qa qb) W k = product_coef a b W k.
Proof.
  intros Ha Hb Hqa Hqb Sa Sb L HW Hk. rewrite coef_mul_all by auto. destruct (Nat.leb_spec (list_sum k) (Nat.max (gord qa) (gord qb))) as [E|E].
  - unfold product_coef. apply sum_list_ext. intros [i j] H. destruct (splits_sum k i j H) as (S1 & S2 & S3). cbn [fst snd]. rewrite Sa, Sb by (auto; congruence). reflexivity.
  - symmetry. apply product_high; auto. lia.
Qed.
Lemma zero_const W k : coef (gconst (0 : R)) W k = 0.
Proof. unfold coef. cbn. unfold Reqb. destruct (Req_EM_T 0 0) as [_|N]; [reflexivity|congruence]. Qed.
Lemma zero_check (a : gdual R) : valid a -> exists z, gvar (0 : R) "irrelevant" 0 = Ok z /\ (geqb a z = true <-> pterms (gp a) = []).
Proof.
  intros Ha. assert (G := gvar_spec (0 : R) "irrelevant" 0). assert (GV := fun g rho => gvar_value (0 : R) "irrelevant" 0 g rho).
  destruct (gvar 0 "irrelevant" 0) as [z|x].
  2:{ exfalso. destruct x; try contradiction; try discriminate G. destruct G as [G|[r G]]; [cbn in G; lia|discriminate]. }
  destruct G as (_ & _ & Oz & _ & Vz). exists z. split; auto. rewrite value_eq_iff by auto. split.
  - intros H. destruct (pterms (gp a)) as [|t l] eqn:E; auto. exfalso.
    assert (Ht : In t (pterms (gp a))) by (rewrite E; left; auto).
    assert (X := coef_own a t (valid_gwf _ Ha) Ht). assert (NZ := valid_nonzero a Ha t Ht).
    assert (NW : NoDup (gsyms a)) by exact (ssorted_NoDup _ (gsyms_sorted a (valid_gwf a Ha))).
    assert (LW : length (fst t) = length (gsyms a)) by exact (valid_length a Ha t Ht).
    assert (H' : forall rho, value a rho = value (gconst 0) rho).
    { intros rho. rewrite H, (GV z) by auto. rewrite value_const. reflexivity. }
    rewrite (value_coef a (gconst 0) _ _ (valid_gwf _ Ha) (valid_gwf _ (valid_const 0)) H' NW LW) in X.
    rewrite zero_const in X. rewrite <- X in NZ. cbn in NZ. unfold Reqb in NZ. destruct (Req_EM_T 0 0); congruence.
  - intros E rho. rewrite (GV z) by auto. unfold value. rewrite E. reflexivity.
Qed.
Lemma uadd_small a b : (Z.of_nat (a + b) < 4294967296)%Z -> uadd a b = (a + b)%nat.
Proof. intros H. unfold uadd, two32. rewrite Z.mod_small by lia. lia. Qed.
Lemma ordered_incl iter l l' : incl l l' -> ordered_on iter l' -> ordered_on iter l.
Proof. intros H O box N I. apply O; auto. eapply incl_tran; eauto. Qed.
Lemma degree_le (g : gdual R) n t : valid g -> (gord g <= n)%nat -> In t (pterms (gp g)) -> (list_sum (fst t) <= n)%nat.
Proof. intros V H Ht. assert (X := valid_order g V t Ht). lia. Qed.

Section Mul.
  Variables (iter : list (string * (R * R)) -> list (string * (R * R))) (A B : taylor_model R).
  Hypothesis WA : well_formed A.
  Hypothesis WB : well_formed B.
  Hypothesis SC : same_centers A B.
  Hypothesis CD : close_domains A B.
  Hypothesis NA : nonzero (m_tpol A).
  Hypothesis NB : nonzero (m_tpol B).
  Hypothesis O1 : (1 <= get_order (m_tpol A) + get_order (m_tpol B))%nat.
  Hypothesis Ob : (Z.of_nat (get_order (m_tpol A) + get_order (m_tpol B)) < 4294967285)%Z.
  Hypothesis Hp : permutes iter.
  Lemma same_close : close_centers A B.
  Proof. intros s c c' H H'. rewrite (SC s c c' H H'). unfold close. rewrite Rminus_diag_eq, Rabs_R0 by auto. lra. Qed.

  (** Where the data of a product come from. *)
  Record product_of (T : taylor_model R) : Prop := mkProductOf {
    po_order : get_order (m_tpol T) = Nat.max (get_order (m_tpol A)) (get_order (m_tpol B));
    po_exp : forall s c, In (s, c) (m_exp T) -> In (s, c) (m_exp A) \/ In (s, c) (m_exp B);
    po_dom : forall s I, In (s, I) (m_domain T) -> In (s, I) (m_domain A) \/ In (s, I) (m_domain B);
    po_syms : forall s, In s (psyms (gp (m_tpol T))) -> In s (psyms (gp (m_tpol A))) \/ In s (psyms (gp (m_tpol B)));
    po_coef : forall W k, NoDup W -> length k = length W ->
      coef (m_tpol T) W k = if Nat.leb (list_sum k) (Nat.max (get_order (m_tpol A)) (get_order (m_tpol B)))
                            then product_coef (m_tpol A) (m_tpol B) W k else 0
  }.
  (** all the truncated terms are below the tolerance *)
  Definition truncation_small : Prop :=
    forall W k, NoDup W -> length k = length W -> (Nat.max (get_order (m_tpol A)) (get_order (m_tpol B)) < list_sum k)%nat ->
      Rabs (product_coef (m_tpol A) (m_tpol B) W k) <= 1 / 10000000000000000.
  Lemma tm_mul_gen b1 b2 : tm_bounds iter A = Ok b1 -> tm_bounds iter B = Ok b2 -> truncation_small \/ ((get_order (m_tpol A) + get_order (m_tpol B) <= 62)%nat /\ ordered_on iter (variables A ++ variables B)) ->
    exists T be, tm_mul iter A B = Ok T /\ well_formed T /\ product_of T /\
    m_rem T = iadd (iadd (iadd be (imul b1 (m_rem B))) (imul (m_rem A) b2)) (imul (m_rem A) (m_rem B)) /\
    ((truncation_small /\ be = (0, 0)) \/
     (~ truncation_small /\ forall x, in_box (m_domain A) x -> in_box (m_domain B) x ->
        within be (value (m_tpol A) (displacement (m_exp A) x) * value (m_tpol B) (displacement (m_exp B) x) - value (m_tpol T) (displacement (m_exp T) x)))) /\
    (forall x, in_box (m_domain A) x -> in_box (m_domain B) x -> in_box (m_domain T) x) /\
    (truncation_seen (m_tpol A) (m_tpol B) -> truncation_small -> forall x, in_box (m_domain A) x -> in_box (m_domain B) x ->
       value (m_tpol A) (displacement (m_exp A) x) * value (m_tpol B) (displacement (m_exp B) x) = value (m_tpol T) (displacement (m_exp T) x)).
  Proof.
    intros EB1 EB2 Hi. set (pa := m_tpol A) in *. set (pb := m_tpol B) in *.
    assert (Va : valid pa) by apply WA. assert (Vb : valid pb) by apply WB.
    unfold get_order in O1, Ob. set (n := (gord pa + gord pb)%nat) in *.
    destruct (increased_spec pa n Va) as (qa & Ea & Vqa & Oqa & SCa & Eva & Sqa); try lia.
    destruct (increased_spec pb n Vb) as (qb & Eb & Vqb & Oqb & SCb & Evb & Sqb); try lia.
    set (P := gmul qa qb).
    assert (VP : valid P) by (apply valid_mul; auto).
    assert (OP : gord P = n) by (unfold P, gmul; cbn [gord]; lia).
    assert (EP : forall rho, value P rho = value pa rho * value pb rho).
    { intros rho. unfold P. rewrite value_mul; auto; [rewrite Eva, Evb; reflexivity|].
      assert (X := gdegree_coef qa pa Vqa Va SCa). assert (Y := gdegree_coef qb pb Vqb Vb SCb). lia. }
    assert (SP : forall s, In s (psyms (gp P)) -> In s (psyms (gp pa)) \/ In s (psyms (gp pb))).
    { intros s. unfold P. change (psyms (gp (gmul qa qb))) with (gsyms (gmul qa qb)). rewrite gsyms_mul, sunion_In. intros [X|X]; auto. }
    set (d := Nat.max (gord pa) (gord pb)).
    destruct (agreeable_spec P d VP) as (a & Eag & Vag & Oag & Sag & Cag); [lia|].
    assert (Na : d_names pa) by apply WA. assert (Nb : d_names pb) by apply WB.
    assert (Sa : forall s, In s (psyms (gp a)) -> In s (psyms (gp pa)) \/ In s (psyms (gp pb))) by (intros s Q; apply SP, Sag; auto).
    assert (Nag : d_names a) by (apply (d_names_union a pa pb); auto).
    set (e := gsub P a).
    assert (Ve : valid e) by (apply valid_sub; auto).
    assert (Se : forall s, In s (psyms (gp e)) <-> In s (psyms (gp a))).
    { intros s. unfold e. rewrite sub_syms, Sag. tauto. }
    assert (Ne : d_names e) by (apply (d_names_union e pa pb); auto; intros s Q; apply Sa, Se; auto).
    destruct (merge_spec A B a WA WB Nag Sa) as [(_ & _ & ce & cd & ne & nd & E1 & E2 & M1 & M2 & D1 & D2 & E3 & E4 & M)|[C _]].
    2:{ exfalso. apply C. split; [apply same_close|auto]. }
    assert (CE : forall W k, NoDup W -> length k = length W -> coef e W k = if Nat.leb (list_sum k) d then 0 else product_coef pa pb W k).
    { intros W k HW Hk. unfold e. rewrite (coef_sub P a W k (valid_gwf _ VP) (valid_gwf _ Vag) HW Hk), Cag by auto.
      destruct (Nat.leb_spec (list_sum k) d) as [L|L]; [cbn; ring|].
      unfold P. rewrite (coef_product pa pb qa qb W k) by (auto; lia). cbn. ring. }
    assert (ZS : gis_zero e tol_zero = true <-> truncation_small).
    { unfold truncation_small. fold pa pb. change (Nat.max (get_order pa) (get_order pb)) with d. unfold gis_zero. rewrite forallb_forall. split.
      - intros Z W k HW Hk L. assert (CW : coef e W k = product_coef pa pb W k).
        { rewrite CE by auto. destruct (Nat.leb_spec (list_sum k) d); [lia|auto]. }
        rewrite <- CW. destruct (Req_EM_T (coef e W k) 0) as [Q|Q]; [rewrite Q, Rabs_R0; lra|].
        destruct (coef_term e W k (valid_gwf e Ve) Q) as (u & Hu & Eu). specialize (Z u Hu). apply negb_true_iff in Z. apply Rltb_false in Z. rewrite Eu in Z. exact Z.
      - intros Z u Hu. apply negb_true_iff. apply Rltb_false. rewrite <- (coef_own e u (valid_gwf e Ve) Hu).
        assert (NW : NoDup (gsyms e)) by exact (ssorted_NoDup _ (gsyms_sorted e (valid_gwf e Ve))).
        assert (LW : length (fst u) = length (gsyms e)) by exact (valid_length e Ve u Hu).
        change (psyms (gp e)) with (gsyms e). rewrite CE by auto. destruct (Nat.leb_spec (list_sum (fst u)) d) as [L|L].
        + cbn. rewrite Rabs_R0. lra.
        + apply (Z (gsyms e) (fst u) NW LW L). }
    assert (TB : exists be, truncation_bounds iter e ce cd = Ok be /\ ((truncation_small /\ be = (0, 0)) \/ (~ truncation_small /\
      forall x, in_box (m_domain A) x -> in_box (m_domain B) x -> within be (value e (displacement ne x))))).
    { unfold truncation_bounds. destruct (gis_zero e tol_zero) eqn:Z.
      - exists (0, 0). split; auto. left. split; [apply ZS|]; auto.
      - destruct Hi as [Hi|[O2 Hi]]; [apply ZS in Hi; congruence|]. unfold get_order in O2. fold pa pb in O2. fold n in O2. destruct (bounds_enclose iter e (map (fun s => (s, get_or 0 s ce)) (get_symbol_set e)) (map (fun s => (s, get_or (0, 0) s cd)) (get_symbol_set e))) as (be & Ebe & Hbe); auto.
        + unfold get_order, e, gsub. cbn [gord]. lia.
        + intros u Hu. apply (degree_le e); auto. unfold e, gsub. cbn [gord]. lia.
        + unfold distinct_keys. rewrite map_map. cbn [fst]. rewrite map_id. apply NoDup_symbol_set; auto.
        + unfold distinct_keys. rewrite map_map. cbn [fst]. rewrite map_id. apply NoDup_symbol_set; auto.
        + intros s Q. rewrite !map_map. cbn [fst]. rewrite map_id. auto.
        + apply (ordered_incl _ _ (variables A ++ variables B)); auto. intros s Q. apply in_app_iff. apply In_get_symbol_set in Q; auto.
          apply Se in Q. apply Sa in Q. destruct Q as [Q|Q]; [left|right]; apply (In_get_symbol_set _ s); auto.
        + exists be. split; auto. right. split; [rewrite <- ZS; discriminate|]. intros x BA BB.
          rewrite (value_displacement e ne (map (fun s => (s, get_or 0 s ce)) (get_symbol_set e))); auto.
          * apply Hbe. intros s I Q. apply in_map_iff in Q. destruct Q as (s' & Q & Q'). injection Q as <- <-.
            apply In_get_symbol_set in Q'; auto. apply Se in Q'.
            assert (K : In s' (map fst nd)) by (apply (merged_dom_keys A B a ne nd WA WB Sa M); auto).
            apply key_In in K. destruct K as [I K]. assert (K' : In (s', I) cd).
            { apply M2. apply (mg_dom _ _ _ _ _ M) in K. apply K. }
            rewrite (get_or_In _ _ _ _ D2 K'). apply (merged_box A B a ne nd M x BA BB); auto.
          * intros s Q. assert (K : In s (map fst ne)) by (apply (merged_exp_keys A B a ne nd WA WB Sa M), Se; auto).
            apply key_In in K. destruct K as [c K]. assert (K' : In (s, c) ce).
            { apply M1. apply (mg_exp _ _ _ _ _ M) in K. apply K. }
            rewrite (center_of_In ne s c (mg_ne _ _ _ _ _ M) K). symmetry. apply center_of_In.
            -- unfold distinct_keys. rewrite map_map. cbn [fst]. rewrite map_id. apply NoDup_symbol_set; auto.
            -- apply in_map_iff. exists s. split; [|apply In_get_symbol_set; auto]. rewrite (get_or_In (0 : R) s c ce D1 K'). auto. }
    destruct TB as (be & Ebe & Hbe).
    destruct (merged_make A B a ne nd WA WB Vag Nag Sa M (iadd (iadd (iadd be (imul b1 (m_rem B))) (imul (m_rem A) b2)) (imul (m_rem A) (m_rem B)))) as (T & ET & ETT & WT).
    exists T, be. split.
    { unfold tm_mul. destruct (zero_check pa Va) as (z & Ez & Za). destruct (zero_check pb Vb) as (z' & Ez' & Zb). rewrite Ez in Ez'. injection Ez' as <-.
      change (@k0 R OpsR) with 0. rewrite Ez. cbn [rbind]. fold pa pb.
      replace (geqb pa z) with false by (symmetry; apply not_true_iff_false; rewrite Za; auto).
      replace (geqb pb z) with false by (symmetry; apply not_true_iff_false; rewrite Zb; auto). cbn [orb].
      rewrite E1, E2. cbn [rbind]. unfold get_order. rewrite uadd_small by (unfold n in Ob; lia). fold n. rewrite Ea, Eb. cbn [rbind]. fold P d. rewrite Eag. cbn [rbind].
      rewrite E3, E4. cbn [rbind]. fold e. rewrite Ebe. cbn [rbind]. rewrite EB1, EB2. cbn [rbind]. exact ET. }
    split; auto.
    assert (EQ : forall x, value e (displacement ne x) = value pa (displacement (m_exp A) x) * value pb (displacement (m_exp B) x) - value a (displacement ne x)).
    { intros x. unfold e. rewrite value_sub by auto. unfold P at 1. rewrite value_mul; auto.
      - rewrite (merged_value_l A B a ne nd WA Nag M qa), (merged_value_r A B a ne nd WB Nag M SC qb), Eva, Evb; [reflexivity| |].
        + intros s Q. split; [|apply Sqb; auto]. apply Sag. unfold P. change (psyms (gp (gmul qa qb))) with (gsyms (gmul qa qb)). rewrite gsyms_mul, sunion_In. auto.
        + intros s Q. split; [|apply Sqa; auto]. apply Sag. unfold P. change (psyms (gp (gmul qa qb))) with (gsyms (gmul qa qb)). rewrite gsyms_mul, sunion_In. auto.
      - assert (X := gdegree_coef qa pa Vqa Va SCa). assert (Y := gdegree_coef qb pb Vqb Vb SCb). lia. }
    subst T. cbn [m_domain m_rem m_tpol m_exp]. split; [|split; [|split; [|split]]]; auto.
    - constructor; cbn [m_tpol m_exp m_domain]; [exact Oag| | |auto|].
      + intros s c Q. apply (mg_exp _ _ _ _ _ M) in Q. tauto.
      + intros s c Q. apply (mg_dom _ _ _ _ _ M) in Q. tauto.
      + intros W k HW Hk. rewrite Cag by auto. fold pa pb. change (Nat.max (get_order pa) (get_order pb)) with d. destruct (Nat.leb (list_sum k) d); auto.
        unfold P. apply (coef_product pa pb qa qb W k); auto. lia.
    - destruct Hbe as [Hbe|[N Hbe]]; [left; auto|right]. split; auto. intros x BA BB. rewrite <- EQ. auto.
    - intros x BA BB. apply (merged_box A B a ne nd M x BA BB).
    - intros TS SM x BA BB. assert (VZ : forall rho, value e rho = value (gconst 0) rho).
      { apply value_eq_iff; auto; [apply valid_const|]. apply geqb_same; auto; [apply valid_const|].
        intros W k HW Hk. rewrite zero_const, CE by auto. destruct (Nat.leb_spec (list_sum k) d) as [L|L]; auto.
        destruct TS as [Q|(W' & k' & HW' & Hk' & L' & Q)]; [apply Q; auto|]. exfalso. exact (Rle_not_lt _ _ (SM W' k' HW' Hk' L') Q). }
      specialize (EQ x). rewrite VZ, value_const in EQ. change (k0 : R) with 0 in EQ. lra.
  Qed.
End Mul.
Lemma tm_mul_run iter A B : well_formed A -> well_formed B -> same_centers A B -> close_domains A B -> nonzero (m_tpol A) -> nonzero (m_tpol B) ->
  (1 <= get_order (m_tpol A) + get_order (m_tpol B) <= 62)%nat -> permutes iter -> ordered_on iter (variables A ++ variables B) -> exists T be b1 b2, tm_mul iter A B = Ok T /\ well_formed T /\ product_of A B T /\
  m_rem T = iadd (iadd (iadd be (imul b1 (m_rem B))) (imul (m_rem A) b2)) (imul (m_rem A) (m_rem B)) /\
  ((truncation_small A B /\ be = (0, 0)) \/
   (~ truncation_small A B /\ forall x, in_box (m_domain A) x -> in_box (m_domain B) x ->
      within be (value (m_tpol A) (displacement (m_exp A) x) * value (m_tpol B) (displacement (m_exp B) x) - value (m_tpol T) (displacement (m_exp T) x)))) /\
  (tm_bounds iter A = Ok b1 /\ forall x, in_box (m_domain A) x -> within b1 (value (m_tpol A) (displacement (m_exp A) x))) /\
  (tm_bounds iter B = Ok b2 /\ forall x, in_box (m_domain B) x -> within b2 (value (m_tpol B) (displacement (m_exp B) x))) /\
  (forall x, in_box (m_domain A) x -> in_box (m_domain B) x -> in_box (m_domain T) x) /\
  (truncation_seen (m_tpol A) (m_tpol B) -> truncation_small A B -> forall x, in_box (m_domain A) x -> in_box (m_domain B) x ->
     value (m_tpol A) (displacement (m_exp A) x) * value (m_tpol B) (displacement (m_exp B) x) = value (m_tpol T) (displacement (m_exp T) x)).
Proof.
  intros WA WB SC CD NA NB O1 Hp Hi. assert (Va : valid (m_tpol A)) by apply WA. assert (Vb : valid (m_tpol B)) by apply WB.
  destruct (tm_bounds_enclose iter A WA) as (b1 & EB1 & HB1); auto.
  { lia. } { intros u Hu. apply (degree_le (m_tpol A)); auto. unfold get_order in O1. lia. }
  { apply (ordered_incl _ _ (variables A ++ variables B)); auto. apply incl_appl, incl_refl. }
  destruct (tm_bounds_enclose iter B WB) as (b2 & EB2 & HB2); auto.
  { lia. } { intros u Hu. apply (degree_le (m_tpol B)); auto. unfold get_order in O1. lia. }
  { apply (ordered_incl _ _ (variables A ++ variables B)); auto. apply incl_appr, incl_refl. }
  destruct (tm_mul_gen iter A B WA WB SC CD NA NB (proj1 O1) ltac:(lia) Hp b1 b2 EB1 EB2 (or_intror (conj (proj2 O1) Hi))) as (T & be & H1 & H2 & H3 & H4 & H5 & H6 & H7).
  exists T, be, b1, b2. repeat (split; auto).
Qed.
Lemma tm_mul_full iter A B (D : point -> Prop) f g : represents D A f -> represents D B g -> same_centers A B -> close_domains A B ->
  nonzero (m_tpol A) -> nonzero (m_tpol B) -> (1 <= get_order (m_tpol A) + get_order (m_tpol B) <= 62)%nat ->
  truncation_seen (m_tpol A) (m_tpol B) -> permutes iter -> ordered_on iter (variables A ++ variables B) ->
  exists T, tm_mul iter A B = Ok T /\ represents D T (fun x => f x * g x) /\ product_of A B T.
Proof.
  intros [WA HA] [WB HB] SC CD NA NB O1 TS Hp Hi.
  destruct (tm_mul_run iter A B WA WB SC CD NA NB O1 Hp Hi) as (T & be & b1 & b2 & ET & WT & PT & RT & TB & [_ HB1] & [_ HB2] & BT & TZ).
  exists T. split; auto. split; auto. split; auto. intros x Hx. destruct (HA x Hx) as [BA XA], (HB x Hx) as [BB XB]. split; auto. rewrite RT.
  specialize (HB1 x BA). specialize (HB2 x BB).
  set (va := value (m_tpol A) (displacement (m_exp A) x)) in *. set (vb := value (m_tpol B) (displacement (m_exp B) x)) in *.
  set (vt := value (m_tpol T) (displacement (m_exp T) x)) in *.
  replace (f x * g x - vt) with (va * vb - vt + va * (g x - vb) + (f x - va) * vb + (f x - va) * (g x - vb)) by ring.
  repeat apply within_add; try (apply within_mul; auto). destruct TB as [[SM ->]|[_ TB]].
  - specialize (TZ TS SM x BA BB). fold va vb vt in TZ. unfold within. cbn. lra.
  - apply TB; auto.
Qed.
Lemma tm_mul_ok iter A B (D : point -> Prop) f g : represents D A f -> represents D B g -> same_centers A B -> close_domains A B ->
  nonzero (m_tpol A) -> nonzero (m_tpol B) -> (1 <= get_order (m_tpol A) + get_order (m_tpol B) <= 62)%nat ->
  truncation_seen (m_tpol A) (m_tpol B) -> permutes iter -> ordered_on iter (variables A ++ variables B) ->
  exists T, tm_mul iter A B = Ok T /\ represents D T (fun x => f x * g x).
Proof. intros. destruct (tm_mul_full iter A B D f g) as (T & E & R & _); eauto. Qed.
