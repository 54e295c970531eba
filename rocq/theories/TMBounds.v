(** * Exact bounds of a linear model, and when the functions return *)
From Coq Require Import String List Arith Bool ZArith Reals Permutation Lra Lia.
From Verif Require Import Ops Syms SymsFacts Poly PolyFacts Gdual GdualFacts Functions FunStruct Spec CoefFacts CoreProofs ValueProofs MiscProofs FunAlg ElemR TaylorModel Interval SpecTM TMMaps TMArith TMMul TMFunctions TMTaylor Bounding SpecBounding BoundSamples.
Import ListNotations.
Local Open Scope R_scope.

Lemma nth_list_sum l i : (nth i l 0 <= list_sum l)%nat.
Proof. revert i. induction l as [|a l IH]; intros [|i]; unfold list_sum in *; cbn [nth fold_right]; try lia. specialize (IH i). lia. Qed.

Section Exact.
  Variables (iter : list (string * (R * R)) -> list (string * (R * R))) (g : gdual R) (ex : list (string * R)) (dom : list (string * (R * R))).
  Hypothesis Hg : valid g.
  Hypothesis Hn : d_names g.
  Hypothesis Ho : (Z.of_nat (get_order g) < 4294967296)%Z.
  Hypothesis H1 : (gdegree g <= 1)%nat.
  Hypothesis Ne : distinct_keys ex.
  Hypothesis Nd : distinct_keys dom.
  Hypothesis Kx : forall s, In s (map fst ex) <-> In (dsym s) (psyms (gp g)).
  Hypothesis Kd : forall s, In s (map fst dom) <-> In (dsym s) (psyms (gp g)).
  Hypothesis Hin : forall s c I, In (s, c) ex -> In (s, I) dom -> within I c.
  Hypothesis Hp : permutes iter.
  Hypothesis Hi : ordered_on iter (get_symbol_set g).
  Let V := get_symbol_set g.
  Let I := fun s => get_or (0, 0) s dom.
  Let e := fun s => get_or 0 s ex.
  Lemma lookups s : In s V -> In (s, I s) dom /\ In (s, e s) ex.
  Proof.
    intros Hs. apply (In_get_symbol_set g s Hn) in Hs. assert (K1 := proj2 (Kd s) Hs). assert (K2 := proj2 (Kx s) Hs).
    apply key_In in K1, K2. destruct K1 as [J HJ], K2 as [c Hc]. unfold I, e.
    rewrite (get_or_In _ _ _ _ Nd HJ), (get_or_In (0 : R) _ _ _ Ne Hc). auto.
  Qed.
  (** A displacement inside the box belongs to a point of the box. *)
  Lemma inside_point rho : inside (map dsym V) (map snd (relative_box V I e)) rho ->
    exists x, in_box dom x /\ value g rho = value g (displacement ex x).
  Proof.
    intros H. exists (fun s => rho (dsym s) + e s). split.
    - intros s J HJ. assert (Hs : In s V).
      { apply (In_get_symbol_set g s Hn), Kd. apply (in_map fst) in HJ. exact HJ. }
      assert (EJ : I s = J) by (unfold I; apply (get_or_In (0, 0) _ _ _ Nd HJ)). rewrite <- EJ.
      unfold inside, relative_box in H. clear - H Hs. induction V as [|t l IH]; [destruct Hs|]. cbn [map] in H. inversion H; subst.
      destruct Hs as [->|Hs]; auto. cbn [fst snd] in *. unfold within. lra.
    - apply value_ext. intros s Hs. unfold displacement. rewrite center_of_dfind. fold (e (undsym s)).
      rewrite (proj1 (d_names_iff g) Hn s Hs). ring.
  Qed.
  Lemma exact_bounds : exists lo hi x y, get_bounds iter g ex dom = Ok (lo, hi) /\ in_box dom x /\ in_box dom y /\
    value g (displacement ex x) = lo /\ value g (displacement ex y) = hi.
  Proof.
    destruct (linear_exact g V ex dom I e iter) as (lo & hi & rho & rho' & E & I1 & I2 & E1 & E2); auto.
    - intros t Ht. exact (linear_terms g t H1 Ht).
    - exact lookups.
    - intros t i Ht. apply pdegree_le in H1. assert (X := proj1 (Forall_forall _ _) H1 t Ht). cbn beta in X. rewrite <- list_sum_kdeg in X.
      assert (Y := nth_list_sum (fst t) i). lia.
    - intros s Hs. destruct (lookups s Hs) as [L1 L2]. assert (X := Hin s _ _ L2 L1). unfold within in X. lra.
    - assert (EB : map snd (iter (relative_box V I e)) = map snd (relative_box V I e)).
      { apply Hi; unfold relative_box; rewrite map_map; cbn [fst]; rewrite map_id; [apply (NoDup_symbol_set g Hg Hn)|apply incl_refl]. }
      rewrite EB in I1, I2. destruct (inside_point rho I1) as (x & Bx & Vx), (inside_point rho' I2) as (y & By & Vy).
      exists lo, hi, x, y. rewrite <- Vx, <- Vy. auto.
  Qed.
End Exact.

(** ** Intervals away from -1 and 0 *)
Lemma imul_corners I J : exists a b c d, imul I J = (Rmin (Rmin a b) (Rmin c d), Rmax (Rmax a b) (Rmax c d)) /\
  a = fst I * fst J /\ b = fst I * snd J /\ c = snd I * fst J /\ d = snd I * snd J.
Proof. do 4 eexists. unfold imul. rewrite !kmin_Rmin, !kmax_Rmax. repeat split. Qed.
Lemma imul_order I J : fst (imul I J) <= snd (imul I J).
Proof.
  destruct (imul_corners I J) as (a & b & c & d & -> & _). cbn [fst snd]. eapply Rle_trans; [apply Rmin_l|]. eapply Rle_trans; [apply Rmin_l|].
  eapply Rle_trans; [|apply Rmax_l]. apply Rmax_l.
Qed.
Lemma imul_above I J m : m < fst I * fst J -> m < fst I * snd J -> m < snd I * fst J -> m < snd I * snd J -> m < fst (imul I J).
Proof.
  intros. destruct (imul_corners I J) as (a & b & c & d & -> & -> & -> & -> & ->). cbn [fst]. repeat apply Rmin_glb_lt; auto.
Qed.
Lemma ipow_pos I n : 0 < fst I -> fst I <= snd I -> 0 < fst (ipow I n) /\ fst (ipow I n) <= snd (ipow I n).
Proof.
  intros P Q. assert (E : ipow I n = (fst I ^ n, snd I ^ n)).
  { unfold ipow. destruct (Nat.even n); [|rewrite !kpow_pow; auto]. replace (fst I <? 0)%K with false; [cbn [negb]; rewrite !kpow_pow; auto|].
    symmetry. apply Rltb_false. change (k0 : R) with 0. lra. }
  rewrite E. cbn [fst snd]. split; [apply pow_lt; auto|apply pow_incr; lra].
Qed.
Lemma scaled_above F c Q : c <> 0 -> idiv F (ipt c) = Ok Q -> -1 < fst F / c -> -1 < snd F / c ->
  0 < fst (iadd (ipt 1) (imul Q unit_interval)) /\ fst (iadd (ipt 1) (imul Q unit_interval)) <= snd (iadd (ipt 1) (imul Q unit_interval)).
Proof.
  intros Hc E H1 H2. unfold idiv in E. destruct (zero_in (ipt c)); [discriminate|]. injection E as <-.
  set (Q := imul F _). assert (QL : -1 < fst Q).
  { unfold Q. apply imul_above; cbn; unfold Rdiv in *; rewrite Rmult_1_l; auto. }
  assert (QO : fst Q <= snd Q) by apply imul_order. clearbody Q. split.
  - cbn [iadd fst ipt]. change (@kadd R OpsR) with Rplus. assert (X : -1 < fst (imul Q unit_interval)); [|cbn in X |- *; lra].
    apply imul_above; cbn; lra.
  - cbn [iadd fst snd ipt]. change (@kadd R OpsR) with Rplus. assert (X := imul_order Q unit_interval). lra.
Qed.
Lemma point_div I c : c <> 0 -> exists Q, idiv I (ipt c) = Ok Q.
Proof. intros H. apply idiv_Ok. cbn. lra. Qed.

Section Defined.
  Variables (iter : list (string * (R * R)) -> list (string * (R * R))) (A : taylor_model R).
  Hypothesis W : well_formed A.
  Hypothesis Ho : (Z.of_nat (get_order (m_tpol A)) < 4294967296)%Z.
  Hypothesis HL : linear A.
  Hypothesis Hp : permutes iter.
  Hypothesis Hi : ordered_on iter (variables A).
  Hypothesis H0 : within (m_rem A) 0.
  Notation g := (m_tpol A).
  Notation c := (constant_cf (m_tpol A)).
  Notation k := (get_order (m_tpol A)).
  Let V : valid g := wf_poly _ W.
  Let Wg : gwf g := valid_gwf _ V.
  Let Ng : gnz g := proj2 (proj1 (valid_iff g) V).
  Let S0 := sto_self g Wg Ng.
  Notation at_point x := (value g (displacement (m_exp A) x)).

  Lemma center_wf : exists x, in_box (m_domain A) x /\ at_point x = c.
  Proof. apply (center_point A (fun _ => False) (fun _ => 0)). split; [exact W|]. intros x []. Qed.
  Lemma tm_bounds_exact : exists lo hi x y, tm_bounds iter A = Ok (lo, hi) /\ in_box (m_domain A) x /\ in_box (m_domain A) y /\ at_point x = lo /\ at_point y = hi.
  Proof. apply (exact_bounds iter g); try apply W; auto. apply linear_degree; auto. Qed.
  Lemma f_bar_exact : exists lo hi x y, f_bar_remainder_bounds iter A = Ok (iadd (lo, hi) (m_rem A)) /\
    in_box (m_domain A) x /\ in_box (m_domain A) y /\ at_point x - c = lo /\ at_point y - c = hi.
  Proof.
    assert (Vb : valid (f_bar A)) by (apply valid_sub_gs; auto).
    assert (Sb : psyms (gp (f_bar A)) = psyms (gp g)) by exact (gsyms_gsub_gs g c Wg).
    destruct (exact_bounds iter (f_bar A) (m_exp A) (m_domain A)) as (lo & hi & x & y & E & Bx & By & Vx & Vy); auto; try apply W.
    - unfold d_names. rewrite Sb. apply W.
    - unfold f_bar, gsub_gs, gdegree. cbn [gp]. apply pdegree_le. apply psub_dle; [apply (gwf_swf _ Wg)|apply pconst_swf| |apply pconst_dle].
      apply pdegree_le. exact (linear_degree A HL).
    - rewrite Sb. apply W.
    - rewrite Sb. apply W.
    - unfold get_symbol_set. rewrite Sb. exact Hi.
    - exists lo, hi, x, y. unfold f_bar_remainder_bounds. rewrite E. unfold f_bar in Vx, Vy. rewrite (value_sub_gs c g V) in Vx, Vy. auto.
  Qed.


  Lemma pos_facts : positive_model A -> exists b F Fc, tm_bounds iter A = Ok b /\ 0 < fst (iadd b (m_rem A)) /\ f_bar_remainder_bounds iter A = Ok F /\
    0 < c /\ idiv F (ipt c) = Ok Fc /\
    0 < fst (iadd (ipt 1) (imul Fc unit_interval)) /\ fst (iadd (ipt 1) (imul Fc unit_interval)) <= snd (iadd (ipt 1) (imul Fc unit_interval)).
  Proof.
    intros P. destruct tm_bounds_exact as (lo & hi & x & y & E & Bx & By & Vx & Vy).
    destruct f_bar_exact as (lo' & hi' & x' & y' & E' & Bx' & By' & Vx' & Vy').
    destruct center_wf as (x0 & B0 & V0). unfold within in H0.
    assert (Cp : 0 < c) by (assert (X := P x0 B0); rewrite V0 in X; lra).
    exists (lo, hi), (iadd (lo', hi') (m_rem A)). destruct (point_div (iadd (lo', hi') (m_rem A)) c) as [Fc EFc]; [lra|]. exists Fc.
    split; auto. split; [cbn; rewrite <- Vx; apply (P x Bx)|]. do 3 (split; [auto|]).
    apply (scaled_above (iadd (lo', hi') (m_rem A)) c); auto; [lra| |].
    - cbn [iadd fst]. change (@kadd R OpsR) with Rplus. assert (X := P x' Bx'). apply (Rmult_lt_reg_r c); auto. unfold Rdiv. rewrite Rmult_assoc, Rinv_l by lra. lra.
    - cbn [iadd snd]. change (@kadd R OpsR) with Rplus. assert (X := P y' By'). apply (Rmult_lt_reg_r c); auto. unfold Rdiv. rewrite Rmult_assoc, Rinv_l by lra. lra.
  Qed.
  Lemma neg_facts : negative_model A -> exists b F Fc, tm_bounds iter A = Ok b /\ snd (iadd b (m_rem A)) < 0 /\ f_bar_remainder_bounds iter A = Ok F /\
    c < 0 /\ idiv F (ipt c) = Ok Fc /\
    0 < fst (iadd (ipt 1) (imul Fc unit_interval)) /\ fst (iadd (ipt 1) (imul Fc unit_interval)) <= snd (iadd (ipt 1) (imul Fc unit_interval)).
  Proof.
    intros P. destruct tm_bounds_exact as (lo & hi & x & y & E & Bx & By & Vx & Vy).
    destruct f_bar_exact as (lo' & hi' & x' & y' & E' & Bx' & By' & Vx' & Vy').
    destruct center_wf as (x0 & B0 & V0). unfold within in H0.
    assert (Cp : c < 0) by (assert (X := P x0 B0); rewrite V0 in X; lra).
    exists (lo, hi), (iadd (lo', hi') (m_rem A)). destruct (point_div (iadd (lo', hi') (m_rem A)) c) as [Fc EFc]; [lra|]. exists Fc.
    split; auto. split; [cbn; rewrite <- Vy; apply (P y By)|]. do 3 (split; [auto|]).
    apply (scaled_above (iadd (lo', hi') (m_rem A)) c); auto; [lra| |].
    - cbn [iadd fst]. change (@kadd R OpsR) with Rplus. assert (X := P x' Bx'). apply Ropp_lt_cancel. apply (Rmult_lt_reg_r (- c)); [lra|].
      unfold Rdiv. replace (- ((lo' + fst (m_rem A)) * / c) * - c) with (lo' + fst (m_rem A)) by (field; lra). lra.
    - cbn [iadd snd]. change (@kadd R OpsR) with Rplus. assert (X := P y' By'). apply Ropp_lt_cancel. apply (Rmult_lt_reg_r (- c)); [lra|].
      unfold Rdiv. replace (- ((hi' + snd (m_rem A)) * / c) * - c) with (hi' + snd (m_rem A)) by (field; lra). lra.
  Qed.
  Lemma not_below (b : R) : 0 < b -> (b <? 0)%K = false.
  Proof. intros H. apply Rltb_false. change (k0 : R) with 0. lra. Qed.

  Lemma tm_log_defined : positive_model A -> exists T, tm_log iter A = Ok T.
  Proof.
    intros P. destruct (pos_facts P) as (b & F & Fc & E & Hb & EF & Cp & EFc & J1 & J2).
    unfold tm_log. rewrite E. cbn [rbind]. unfold iabove. rewrite not_below by auto. cbn [negb]. rewrite EF. cbn [rbind].
    destruct (point_div (imul (ipt (kpow (- k1) (k + 2) * (k1 / kofnat (k + 1)))%K) (ipow F (k + 1))) (kpow c (k + 1))) as [lead El].
    { rewrite kpow_pow. apply pow_nonzero. lra. }
    rewrite El. cbn [rbind]. rewrite EFc. cbn [rbind].
    destruct (idiv_Ok (ipt 1) (iadd (ipt 1) (imul Fc unit_interval)) (or_introl J1)) as [inv Ei]. change (1 : R) with (k1 : R) in Ei. rewrite Ei. cbn [rbind].
    assert (S := sto_log _ _ _ S0). destruct (same_make A (glog g) (imul lead (ipow inv (k + 1))) W) as (T & ET & _); eauto.
    - destruct S. apply valid_iff; auto.
    - exact (sto_sym _ _ _ S).
  Qed.
  Lemma tm_recip_defined : positive_model A \/ negative_model A -> exists T, tm_div_sg iter 1 A = Ok T.
  Proof.
    intros P. assert (X : exists b F Fc, tm_bounds iter A = Ok b /\ zero_in (iadd b (m_rem A)) = false /\ f_bar_remainder_bounds iter A = Ok F /\ c <> 0 /\
      idiv F (ipt c) = Ok Fc /\ 0 < fst (iadd (ipt 1) (imul Fc unit_interval)) /\
      fst (iadd (ipt 1) (imul Fc unit_interval)) <= snd (iadd (ipt 1) (imul Fc unit_interval))).
    { destruct P as [P|P]; [destruct (pos_facts P) as (b & F & Fc & E & Hb & EF & Cp & EFc & J1 & J2)
                           |destruct (neg_facts P) as (b & F & Fc & E & Hb & EF & Cp & EFc & J1 & J2)]; exists b, F, Fc; split; auto;
      (split; [apply not_true_iff_false; rewrite zero_in_spec; unfold within; lra|]); do 1 (split; [auto|]); (split; [lra|]); auto. }
    clear P. destruct X as (b & F & Fc & E & Hz & EF & Cp & EFc & J1 & J2).
    unfold tm_div_sg. rewrite E. cbn [rbind]. rewrite Hz, EF. cbn [rbind]. rewrite EFc. cbn [rbind].
    destruct (point_div (imul (ipt (kpow (- k1) (k + 1))%K) (ipow F (k + 1))) (kpow c (k + 2))) as [lead El].
    { rewrite kpow_pow. apply pow_nonzero. auto. }
    rewrite El. cbn [rbind]. destruct (ipow_pos _ (k + 2) J1 J2) as [J3 _].
    destruct (idiv_Ok (ipt 1) _ (or_introl J3)) as [tail Et]. change (1 : R) with (k1 : R) in Et. rewrite Et. cbn [rbind].
    assert (S := sto_div_sg _ _ k1 _ S0). destruct (same_make A (gdiv_sg k1 g) (imul lead tail) W) as (T & ET & _); eauto.
    - destruct S. apply valid_iff; auto.
    - exact (sto_sym _ _ _ S).
  Qed.
  Context {iv : IvFun R}.
  Lemma tm_sqrt_high : (169 < Z.of_nat k)%Z -> positive_model A -> tm_sqrt iter A = Throw OtherException /\ tm_inv_sqrt iter A = Throw OtherException.
  Proof.
    intros Hk P. destruct (pos_facts P) as (b & F & Fc & E & Hb & EF & Cp & EFc & J1 & J2).
    unfold tm_sqrt, tm_inv_sqrt. rewrite EF, E. cbn [rbind]. unfold iabove. rewrite not_below by auto. cbn [negb]. unfold root_denominator. rewrite EFc. cbn [rbind].
    rewrite !factorial_fits_gt by exact Hk. auto.
  Qed.
  Lemma tm_sqrt_defined : (forall I, 0 < fst I -> fst I <= snd I -> 0 < fst (i_sqrt I)) -> (Z.of_nat k <= 169)%Z -> positive_model A -> exists T, tm_sqrt iter A = Ok T.
  Proof.
    intros HS Hk P. destruct (pos_facts P) as (b & F & Fc & E & Hb & EF & Cp & EFc & J1 & J2).
    unfold tm_sqrt. rewrite EF, E. cbn [rbind]. unfold iabove. rewrite not_below by auto. cbn [negb]. unfold root_denominator. rewrite EFc. cbn [rbind]. rewrite factorial_fits_le by exact Hk.
    set (s := (_ / (kfact (k + 1) * _))%K).
    destruct (point_div (imul (ipt s) (ipow F (k + 1))) (kpow c (k + 1))) as [q Eq].
    { rewrite kpow_pow. apply pow_nonzero. lra. }
    rewrite Eq. cbn [rbind]. destruct (ipow_pos _ (2 * k + 1) J1 J2) as [J3 J4].
    destruct (idiv_Ok (imul q (ipt 1)) _ (or_introl (HS _ J3 J4))) as [rem Er]. change (1 : R) with (k1 : R) in Er. rewrite Er. cbn [rbind].
    assert (S := sto_pow_real _ _ _ (1 / kofZ 2)%K S0).
    destruct (trimmed_same A (gpow_real g (1 / kofZ 2)%K) rem (fun _ => False) (fun _ => 0) (fun _ => 0) W) as (T & ET & _); eauto.
    - destruct S. apply valid_iff; auto.
    - exact (sto_sym _ _ _ S).
    - intros x [].
    - intros x [].
  Qed.
  Lemma tm_inv_sqrt_defined : (forall I, 0 < fst I -> fst I <= snd I -> 0 < fst (i_sqrt I)) -> (Z.of_nat k <= 169)%Z -> positive_model A -> exists T, tm_inv_sqrt iter A = Ok T.
  Proof.
    intros HS Hk P. destruct (pos_facts P) as (b & F & Fc & E & Hb & EF & Cp & EFc & J1 & J2).
    unfold tm_inv_sqrt. rewrite EF, E. cbn [rbind]. unfold iabove. rewrite not_below by auto. cbn [negb]. unfold root_denominator. rewrite EFc. cbn [rbind]. rewrite factorial_fits_le by exact Hk.
    set (s := (_ / kfact (k + 1) * _)%K).
    destruct (point_div (imul (ipt s) (ipow F (k + 1))) (kpow c (k + 1))) as [q Eq].
    { rewrite kpow_pow. apply pow_nonzero. lra. }
    rewrite Eq. cbn [rbind]. destruct (ipow_pos _ (2 * k + 3) J1 J2) as [J3 J4].
    destruct (idiv_Ok (imul q (ipt 1)) _ (or_introl (HS _ J3 J4))) as [rem Er]. change (1 : R) with (k1 : R) in Er. rewrite Er. cbn [rbind].
    assert (S := sto_pow_real _ _ _ (- (1 / kofZ 2))%K S0).
    destruct (trimmed_same A (gpow_real g (- (1 / kofZ 2))%K) rem (fun _ => False) (fun _ => 0) (fun _ => 0) W) as (T & ET & _); eauto.
    - destruct S. apply valid_iff; auto.
    - exact (sto_sym _ _ _ S).
    - intros x [].
    - intros x [].
  Qed.
End Defined.
