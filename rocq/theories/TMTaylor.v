(** * Enclosure for the functions of one Taylor model: the polynomial part *)
From Coq Require Import String List Arith Bool ZArith Reals Permutation Lra Lia.
From Coquelicot Require Import Coquelicot.
From Verif Require Import Ops Syms SymsFacts Poly PolyFacts Sem Den Gdual GdualFacts Functions FunStruct Spec CoefFacts CoreProofs ValueProofs MiscProofs FunAlg ElemR Uni UniFun TaylorModel Interval SpecTM TMMaps TMArith TMMul TMFunctions Lagrange Bounding.
Import ListNotations.
Local Open Scope R_scope.
Notation idR := (fun x : R => x).

(** ** Series in a polynomial of degree one *)
Lemma sdle_mono n m (l : sp R) : (n <= m)%nat -> sdle n l -> sdle m l.
Proof. intros H S. unfold sdle in *. eapply Forall_impl; [|exact S]. cbn beta. intros; lia. Qed.
Lemma sdle_spow (l : sp R) n : sdle 1 l -> sdle n (spow l n).
Proof.
  intros H. induction n; cbn [spow].
  - unfold s1. apply (sdle_scon (K:=R) 0 1).
  - apply (sdle_smul 1 n); auto.
Qed.
Lemma sdle_psum (a : nat -> R) n l : sdle 1 l -> sdle n (psum a n l).
Proof.
  intros H. induction n; cbn [psum].
  - apply sdle_scon.
  - unfold sadd. apply Forall_app. split; [apply (sdle_mono n); auto|]. apply sdle_scale. apply (sdle_spow l (S n)); auto.
Qed.
Lemma sdle_ghat (d : gdual R) : (gdegree d <= 1)%nat -> sdle 1 (ghat idR d).
Proof.
  intros H. unfold ghat, ssub, sadd. apply Forall_app. split.
  - apply (sdle_mono (gdegree d)); auto. apply (den_sdle idR). apply pdegree_le. auto.
  - unfold sopp. rewrite Forall_map. eapply Forall_impl; [|apply (sdle_scon (K:=R) 1)]. intros t Ht. exact Ht.
Qed.
Lemma Lf_psum (a : nat -> R) n l V rho : Lf (psum a n l) (evF V rho) = usum a n (Lf l (evF V rho)).
Proof.
  induction n.
  - cbn [psum]. rewrite Lf_ev_con, usum_0. reflexivity.
  - cbn [psum]. rewrite usum_S, Lf_sadd, IHn, Lf_ev_mul, Lf_ev_con, Lf_ev_pow, kpow_R. reflexivity.
Qed.
Lemma linear_value (d r : gdual R) a rho : valid d -> gwf r -> gsyms r = gsyms d -> gord r = gord d -> (gdegree d <= 1)%nat ->
  seqv (Some (gord d)) (gden idR r) (psum a (gord d) (ghat idR d)) ->
  value r rho = usum a (gord d) (value d rho - constant_cf d).
Proof.
  intros Hd Hr Hs Ho H1 E. assert (Wd : gwf d) by exact (valid_gwf d Hd).
  assert (ND : NoDup (gsyms d)) by (apply ssorted_NoDup, gsyms_sorted; auto).
  rewrite (value_seqv r (psum a (gord d) (ghat idR d)) (gsyms d) rho Hr ND).
  - rewrite Lf_psum. f_equal. unfold ghat. rewrite Lf_ssub, Lf_ev_con.
    rewrite (value_Lf d (gsyms d) rho Wd ND (incl_refl _)). rewrite <- (constant_cf_scc idR) by auto. reflexivity.
  - rewrite Hs. apply incl_refl.
  - apply (seqv_bounded (gord d)); auto.
    + rewrite <- Ho. apply (den_sdle idR). apply (gwf_dle r Hr).
    + apply sdle_psum, sdle_ghat; auto.
Qed.

(** ** Bounds of the polynomial without its constant term *)
Lemma linear_degree t : linear t -> (gdegree (m_tpol t) <= 1)%nat.
Proof. intros H. apply pdegree_le. apply Forall_forall. intros u Hu. rewrite <- list_sum_kdeg. apply H; auto. Qed.
Lemma linear_terms (p : gdual R) t : (gdegree p <= 1)%nat -> In t (pterms (gp p)) -> (list_sum (fst t) <= 62)%nat.
Proof.
  intros H Ht. rewrite list_sum_kdeg. apply pdegree_le in H. assert (X := proj1 (Forall_forall _ _) H t Ht). cbn beta in X. lia.
Qed.
Lemma kfact_R n : (kfact n : R) = INR (fact n).
Proof.
  induction n; [reflexivity|]. cbn [kfact]. rewrite kofnat_R, IHn, fact_simpl, mult_INR. reflexivity.
Qed.
Lemma trimmed_same A p r D f (h : point -> R) : well_formed A -> valid p -> psyms (gp p) = psyms (gp (m_tpol A)) ->
  encloses D A f -> (forall x, D x -> within (m_rem A) (f x - value (m_tpol A) (displacement (m_exp A) x)) ->
    within r (h x - value p (displacement (m_exp A) x))) ->
  exists T, trimmed p r A = Ok T /\ represents D T h.
Proof.
  intros WA Vp Hs HA H. assert (Np : d_names p) by (unfold d_names; rewrite Hs; apply WA).
  assert (Sp : forall s, In s (psyms (gp p)) -> In s (psyms (gp (m_tpol A))) \/ In s (psyms (gp (m_tpol A)))) by (intros s; rewrite Hs; auto).
  assert (X := trim_spec (get_symbol_set p) (m_exp A) (wf_exp _ WA)). assert (Y := trim_spec (get_symbol_set p) (m_domain A) (wf_dom _ WA)).
  assert (Kp : forall s, In s (get_symbol_set p) <-> In (dsym s) (psyms (gp (m_tpol A)))) by (intros s; rewrite In_get_symbol_set, Hs; tauto).
  unfold trimmed. destruct (trim_map _ (m_exp A)) as [ne|x]; [|exfalso].
  2:{ destruct X as (_ & s & Hi & Hn). apply Hn. rewrite (wf_exp_keys _ WA). apply Kp; auto. }
  destruct (trim_map _ (m_domain A)) as [nd|x]; [|exfalso].
  2:{ destruct Y as (_ & s & Hi & Hn). apply Hn. rewrite (wf_dom_keys _ WA). apply Kp; auto. }
  destruct X as (N1 & _ & X), Y as (N2 & _ & Y).
  assert (M : merged A A p ne nd).
  { constructor; auto; intros s v; [rewrite X|rewrite Y]; rewrite (In_get_symbol_set p s Np); tauto. }
  cbn [rbind]. destruct (merged_make A A p ne nd WA WA Vp Np Sp M r) as (T & E & ET & WT). exists T. split; auto. split; auto.
  intros x Hx. destruct (HA x Hx) as [BA RA]. subst T. cbn [m_domain m_rem m_tpol m_exp]. split; [apply (merged_box A A p ne nd M); auto|].
  rewrite (merged_value_l A A p ne nd WA Np M p) by (intros s; rewrite Hs; auto). apply H; auto.
Qed.
Fixpoint odf (k : nat) : Z := match k with O => 1 | S j => (2 * Z.of_nat j + 1) * odf j end%Z.
Lemma root_c_odf k : root_c (S k) = (-1) ^ k * IZR (odf k) / 2 ^ (k + 1).
Proof.
  induction k; [cbn; field|]. change (root_c (S (S k))) with (root_c (S k) * (1 / 2 - INR (S k))). rewrite IHk.
  cbn [odf]. rewrite mult_IZR, plus_IZR, mult_IZR, <- INR_IZR_INZ, S_INR. replace (S k + 1)%nat with (S (k + 1)) by lia. cbn [pow].
  field. apply pow_nonzero. lra.
Qed.
Lemma factorial2_odf k : (k <= 17)%nat -> factorial2_u ((2 * Z.of_nat k - 1) mod two32) = odf k.
Proof. intros H. do 18 (destruct k as [|k]; [vm_compute; reflexivity|]). lia. Qed.
Lemma half_R : (1 / kofZ 2 : R)%K = 1 / 2.
Proof. reflexivity. Qed.
Lemma pow_half_series (d : gdual R) : gpow_real d (1 / kofZ 2)%K = gpow_series d (1 / kofZ 2)%K.
Proof.
  rewrite gpow_real_cases. rewrite half_R. change (e_toint (1 / 2)) with (rtoint (1 / 2)).
  assert (Z : rtoint (1 / 2) = 0%Z).
  { unfold rtoint. destruct (Rle_dec 0 (1 / 2)) as [_|C]; [|lra]. unfold Int_part. rewrite <- (tech_up (1 / 2) 1); [reflexivity| |]; lra. }
  rewrite Z. replace (keqb (kofZ 0 : R) (1 / 2)) with false; [reflexivity|]. cbn. unfold Reqb. destruct (Req_EM_T _ _); auto. lra.
Qed.
Lemma rpow_half (c : R) i : 0 < c -> rpow c (1 / 2 - INR i) = sqrt c / c ^ i.
Proof.
  intros Hc. unfold rpow. destruct (Rlt_dec 0 c); [|lra]. replace (1 / 2 - INR i) with (/ 2 + - INR i) by lra.
  rewrite Rpower_plus, Rpower_sqrt, Rpower_Ropp, Rpower_pow by auto. reflexivity.
Qed.
Lemma gbin_root i : gbin (1 / 2) i = root_c i / INR (fact i).
Proof.
  induction i; [cbn; field|]. rewrite gbin_S, IHi. cbn [root_c]. rewrite fact_simpl, mult_INR. field.
  split; [apply INR_fact_neq_0|apply not_0_INR; lia].
Qed.
Lemma factorial2_odf_next k : (k <= 16)%nat -> factorial2_u ((2 * Z.of_nat k + 1) mod two32) = odf (S k).
Proof. intros H. do 17 (destruct k as [|k]; [vm_compute; reflexivity|]). lia. Qed.
Lemma pow_mhalf_series (d : gdual R) : gpow_real d (- (1 / kofZ 2))%K = gpow_series d (- (1 / kofZ 2))%K.
Proof.
  rewrite gpow_real_cases.
  assert (Z : e_toint (- (1 / kofZ 2) : R)%K = 0%Z).
  { change (rtoint (- (1 / 2)) = 0%Z). unfold rtoint. destruct (Rle_dec 0 (- (1 / 2))) as [C|_]; [lra|]. unfold Int_part. rewrite Ropp_involutive. rewrite <- (tech_up (1 / 2) 1); [reflexivity| |]; lra. }
  rewrite Z. replace (keqb (kofZ 0 : R) (- (1 / kofZ 2))%K) with false; [reflexivity|]. cbn. unfold Reqb. destruct (Req_EM_T _ _); auto. lra.
Qed.
Definition iroot_d (i : nat) (x : R) : R := 2 * sqrt_d (S i) x.
Lemma iroot_ds i x : 0 < x -> is_derive (iroot_d i) x (iroot_d (S i) x).
Proof. intros H. unfold iroot_d. apply (is_derive_scal (sqrt_d (S i)) x 2). apply sqrt_ds. auto. Qed.
Lemma rpow_mhalf (c : R) i : 0 < c -> rpow c (- (1 / 2) - INR i) = sqrt c / c ^ S i.
Proof. intros Hc. rewrite <- rpow_half by auto. f_equal. rewrite S_INR. lra. Qed.
Lemma gbin_iroot i : gbin (- (1 / 2)) i = 2 * root_c (S i) / INR (fact i).
Proof.
  induction i; [cbn; field|]. rewrite gbin_S, IHi. change (root_c (S (S i))) with (root_c (S i) * (1 / 2 - INR (S i))).
  rewrite fact_simpl, mult_INR, S_INR. field. split; [apply INR_fact_neq_0|]. rewrite <- S_INR. apply not_0_INR; lia.
Qed.
Lemma within_scaled (I : R * R) v q : 0 <= q <= 1 -> within I 0 -> within I v -> within I (q * v).
Proof. unfold within. intros. split; nra. Qed.
(** The range of boost's factorial. *)
Lemma factorial_fits_le {A} k (r : res A) : (Z.of_nat k <= 169)%Z -> factorial_fits k r = r.
Proof.
  intros H. unfold factorial_fits, factorial_overflows. destruct (Z.ltb_spec 170 (Z.of_nat (k + 1))); [lia|reflexivity].
Qed.
Lemma factorial_fits_Ok {A} k (r : res A) x : factorial_fits k r = Ok x -> r = Ok x /\ (Z.of_nat k <= 169)%Z.
Proof.
  unfold factorial_fits, factorial_overflows. destruct (Z.ltb_spec 170 (Z.of_nat (k + 1))); [discriminate|]. intros E. split; [exact E|lia].
Qed.
Lemma factorial_fits_gt {A} k (r : res A) : (169 < Z.of_nat k)%Z -> factorial_fits k r = Throw OtherException.
Proof.
  intros H. unfold factorial_fits, factorial_overflows. destruct (Z.ltb_spec 170 (Z.of_nat (k + 1))); [reflexivity|lia].
Qed.

Section One.
  Variables (iter : list (string * (R * R)) -> list (string * (R * R))) (A : taylor_model R) (D : point -> Prop) (f : point -> R).
  Hypothesis RA : represents D A f.
  Hypothesis Ho : (Z.of_nat (get_order (m_tpol A)) < 4294967296)%Z.
  Hypothesis HA : simple A.
  Hypothesis Hp : permutes iter.
  Hypothesis Hi : ordered_on iter (variables A).
  Notation g := (m_tpol A).
  Notation c := (constant_cf (m_tpol A)).
  Notation k := (get_order (m_tpol A)).
  Let W := proj1 RA.
  Let V : valid g := wf_poly _ W.
  Let Wg : gwf g := valid_gwf _ V.
  Let Ng : gnz g := proj2 (proj1 (valid_iff g) V).
  Let H1 : (gdegree g <= 1)%nat := linear_degree A (proj1 HA).
  Let S0 := sto_self g Wg Ng.

  Lemma f_bar_degree : (gdegree (f_bar A) <= 1)%nat.
  Proof.
    unfold f_bar, gsub_gs, gdegree. cbn [gp]. apply pdegree_le. apply psub_dle.
    - apply (gwf_swf _ Wg).
    - apply pconst_swf.
    - apply pdegree_le. exact H1.
    - apply pconst_dle.
  Qed.
  Lemma f_bar_box : exists b, Bounding.get_bounds iter (f_bar A) (m_exp A) (m_domain A) = Ok b /\
    forall x, in_box (m_domain A) x -> within b (value g (displacement (m_exp A) x) - c).
  Proof.
    assert (Vb : valid (f_bar A)) by (apply valid_sub_gs; auto).
    assert (Sb : psyms (gp (f_bar A)) = psyms (gp g)) by exact (gsyms_gsub_gs g c Wg).
    destruct (bounds_enclose iter (f_bar A) (m_exp A) (m_domain A)) as (b & E & B); auto.
    - unfold d_names. rewrite Sb. apply W.
    - intros t Ht. exact (linear_terms _ t f_bar_degree Ht).
    - apply W.
    - apply W.
    - intros s Hs. assert (Hs' : In s (get_symbol_set g)) by (unfold get_symbol_set in *; rewrite Sb in Hs; exact Hs).
      apply In_get_symbol_set in Hs'; [|apply W]. rewrite (wf_exp_keys _ W), (wf_dom_keys _ W). auto.
    - unfold get_symbol_set. rewrite Sb. exact Hi.
    - exists b. split; auto. intros x Bx. specialize (B x Bx). unfold f_bar in B. rewrite (value_sub_gs c g V) in B. exact B.
  Qed.
  Lemma f_bar_ok : exists F, f_bar_remainder_bounds iter A = Ok F /\ forall x, D x -> within F (f x - c).
  Proof.
    destruct f_bar_box as (b & E & B). exists (iadd b (m_rem A)). unfold f_bar_remainder_bounds. rewrite E. split; auto. intros x Hx.
    destruct (proj2 RA x Hx) as [Bx Rx]. specialize (B x Bx).
    replace (f x - c) with (value g (displacement (m_exp A) x) - c + (f x - value g (displacement (m_exp A) x))) by ring.
    apply within_add; auto.
  Qed.
  Lemma center_point : exists x, in_box (m_domain A) x /\ value g (displacement (m_exp A) x) = c.
  Proof.
    exists (center_of (m_exp A)). split.
    - intros s J HJ. assert (Ks : In s (map fst (m_exp A))).
      { apply (wf_exp_keys _ W), (wf_dom_keys _ W). apply (in_map fst) in HJ. exact HJ. }
      apply key_In in Ks. destruct Ks as [v Hv]. rewrite (center_of_In _ _ _ (wf_exp _ W) Hv). apply (wf_inside _ W s v J); auto.
    - rewrite <- (value_zero g V). apply value_ext. intros s _. unfold displacement. cbn. ring.
  Qed.
  Lemma f_bar_center F : within (m_rem A) 0 -> f_bar_remainder_bounds iter A = Ok F -> within F 0.
  Proof.
    intros R0 EF. destruct f_bar_box as (b & E & B). unfold f_bar_remainder_bounds in EF. rewrite E in EF. cbn [rbind] in EF. injection EF as <-.
    replace 0 with (0 + 0) by ring. apply within_add; auto. destruct center_point as (x & Bx & Ex). specialize (B x Bx). rewrite Ex in B.
    replace 0 with (c - c) by ring. exact B.
  Qed.
  Lemma bounds_ok : exists b, tm_bounds iter A = Ok b /\ forall x, D x -> within (iadd b (m_rem A)) (f x).
  Proof.
    destruct (tm_bounds_enclose iter A W Ho) as (b & E & B); auto.
    - intros t Ht. exact (linear_terms _ t H1 Ht).
    - exists b. split; auto. intros x Hx. destruct (proj2 RA x Hx) as [Bx Rx]. specialize (B x Bx).
      replace (f x) with (value g (displacement (m_exp A) x) + (f x - value g (displacement (m_exp A) x))) by ring.
      apply within_add; auto.
  Qed.

  (** A function [h] with Taylor coefficients [a]. *)
  Lemma function_ok r a Q (h : point -> R) : sto (gsyms g) (gord g) r ->
    seqv (Some (gord g)) (gden idR r) (psum a (gord g) (ghat idR g)) ->
    (forall x, D x -> within Q (h x - usum a k (f x - c))) ->
    exists T, tm_make r Q (m_exp A) (m_domain A) = Ok T /\ represents D T h.
  Proof.
    intros [Wr Nr Or Sr] E HQ. apply (represent_same A _ _ D f); [exact W|apply valid_iff; auto|exact Sr|exact (proj2 RA)|].
    intros x Hx X. rewrite (linear_value g r a _ V Wr Sr Or H1 E). specialize (HQ x Hx).
    replace (usum a (gord g) (value g (displacement (m_exp A) x) - c)) with (usum a k (f x - c)); auto.
    destruct (proj2 HA) as [Z|Z].
    - change (gord g) with k. rewrite Z, !usum_0. auto.
    - rewrite Z in X. unfold within in X. cbn [fst snd] in X. f_equal. lra.
  Qed.

  Context {iv : IvFun R}.
  Hypothesis SV : iv_sound iv.

  Lemma tm_exp_ok : (Z.of_nat k <= 169)%Z -> exists T, tm_exp iter A = Ok T /\ represents D T (fun x => exp (f x)).
  Proof.
    intros Hk. destruct f_bar_ok as (F & EF & BF). unfold tm_exp. rewrite EF. cbn [rbind]. rewrite factorial_fits_le by exact Hk.
    apply (function_ok _ (fun i => exp_d i c / INR (fact i))).
    - apply sto_exp; auto.
    - rewrite (gexp_psum idR (gord g) g Wg (le_n _)).
      rewrite (psum_ext _ (fun i => exp_d i c / INR (fact i))); [reflexivity|]. intros i _. rewrite kfct_R. reflexivity.
    - intros x Hx. specialize (BF x Hx). set (w := f x - c) in *.
      destruct (lagrange exp_d c w k) as (th & Ht & E); [intros; apply exp_ds|].
      replace (exp (f x)) with (exp_d 0 (c + w)) by (unfold exp_d, w; f_equal; ring). rewrite E.
      replace (_ + _ - _) with (exp c * (1 / INR (fact (k + 1))) * w ^ (k + 1) * exp (w * th)).
      + apply within_mul; [apply within_mul|].
        * rewrite kfact_R. apply within_ipt.
        * apply within_pow; auto.
        * apply (s_exp _ SV). apply within_mul; auto.
      + unfold exp_d. rewrite (Rmult_comm th), exp_plus, Nat.add_1_r. unfold Rdiv. ring.
  Qed.

  (** *** sin, cos, sinh, cosh *)
  Lemma trig_even j x : trig_d (2 * j) x = ((-1) ^ j * sin x, (-1) ^ j * cos x).
  Proof.
    induction j; [cbn; f_equal; ring|]. replace (2 * S j)%nat with (S (S (2 * j))) by lia. cbn [trig_d]. rewrite IHj. cbn [fst snd pow]. f_equal; ring.
  Qed.
  Lemma hyp_even j x : hyp_d (2 * j) x = (sinh x, cosh x).
  Proof.
    induction j; [reflexivity|]. replace (2 * S j)%nat with (S (S (2 * j))) by lia. cbn [hyp_d]. rewrite IHj. reflexivity.
  Qed.
  Lemma even_half j : (2 * j / 2 = j)%nat.
  Proof. rewrite Nat.mul_comm. apply Nat.div_mul. lia. Qed.
  Lemma odd_half j : (S (2 * j) / 2 = j)%nat.
  Proof. replace (S (2 * j)) with (1 + j * 2)%nat by lia. rewrite Nat.div_add by lia. reflexivity. Qed.
  Ltac parity i := destruct (even_cases i) as [[j ->]|[j ->]];
    unfold cosc, sinc, coshc, sinhc, evenc, oddc; rewrite ?even_2, ?even_2_1, ?even_half, ?odd_half;
    unfold sin_d, cos_d, sinh_d, cosh_d; cbn [trig_d hyp_d]; rewrite ?trig_even, ?hyp_even; cbn [fst snd]; toR;
    rewrite ?Nat.add_1_r; field; apply INR_fact_neq_0.
  Lemma sin_coef i x : sin x * (cosc i : R) + cos x * (sinc i : R) = sin_d i x / INR (fact i).
  Proof. parity i. Qed.
  Lemma cos_coef i x : cos x * (cosc i : R) - sin x * (sinc i : R) = cos_d i x / INR (fact i).
  Proof. parity i. Qed.
  Lemma sinh_coef i x : sinh x * (coshc i : R) + cosh x * (sinhc i : R) = sinh_d i x / INR (fact i).
  Proof. parity i. Qed.
  Lemma cosh_coef i x : cosh x * (coshc i : R) + sinh x * (sinhc i : R) = cosh_d i x / INR (fact i).
  Proof. parity i. Qed.

  Lemma remainder_ok (d : nat -> R -> R) (ev od : R * R -> R * R) (neg : nat -> bool) F w : (forall i x, is_derive (d i) x (d (S i) x)) ->
    (forall I v, within I v -> within (if neg k then ineg (if Nat.eqb (k mod 2) 0 then ev I else od I) else (if Nat.eqb (k mod 2) 0 then ev I else od I)) (d (S k) v)) ->
    within F w -> within (trig_remainder ev od neg c F k) (d O (c + w) - usum (fun i => d i c / INR (fact i)) k w).
  Proof.
    intros Hd HI HF. destruct (lagrange d c w k) as (th & Ht & E); [intros; apply Hd|]. rewrite E.
    replace (_ + _ - _) with (1 / INR (fact (k + 1)) * d (S k) (c + w * th) * w ^ (k + 1)).
    - unfold trig_remainder. apply within_mul; [apply within_mul|].
      + rewrite kfact_R. apply within_ipt.
      + apply HI. apply within_add; [apply within_ipt|]. apply within_mul; auto.
      + apply within_pow; auto.
    - rewrite Nat.add_1_r, (Rmult_comm w). unfold Rdiv. ring.
  Qed.
  Lemma mod4 n : exists m, (n = 4 * m \/ n = 4 * m + 1 \/ n = 4 * m + 2 \/ n = 4 * m + 3)%nat.
  Proof. exists (n / 4)%nat. assert (X := Nat.div_mod n 4 ltac:(lia)). assert (Y := Nat.mod_upper_bound n 4 ltac:(lia)). lia. Qed.
  Lemma mod4_2 m r : ((4 * m + r) mod 4 = r mod 4 /\ (4 * m + r) mod 2 = r mod 2)%nat.
  Proof.
    split.
    - rewrite Nat.add_comm, (Nat.mul_comm 4). apply Nat.mod_add. lia.
    - replace (4 * m + r)%nat with (r + (2 * m) * 2)%nat by lia. apply Nat.mod_add. lia.
  Qed.
  Lemma trig_4 m x : trig_d (4 * m) x = (sin x, cos x).
  Proof.
    replace (4 * m)%nat with (2 * (2 * m))%nat by lia. rewrite trig_even, pow_1_even. f_equal; ring.
  Qed.
  Lemma hyp_4 m x : hyp_d (4 * m) x = (sinh x, cosh x).
  Proof. replace (4 * m)%nat with (2 * (2 * m))%nat by lia. apply hyp_even. Qed.
  Ltac quarter n :=
    let m := fresh "m" in let E := fresh "E" in
    destruct (mod4 n) as [m [E|[E|[E|E]]]]; [rewrite <- (Nat.add_0_r (4 * m)) in E| | |]; rewrite E;
    unfold sin_negative, cos_negative, never;
    rewrite ?(proj1 (mod4_2 m _)), ?(proj2 (mod4_2 m _)); cbn [Nat.eqb Nat.modulo Nat.divmod Nat.sub orb snd];
    unfold sin_d, cos_d, sinh_d, cosh_d; rewrite ?Nat.add_0_r, ?Nat.add_1_r, ?Nat.add_succ_r, ?Nat.add_0_r; cbn [trig_d hyp_d];
    rewrite ?trig_4, ?hyp_4; cbn [fst snd]; rewrite ?Ropp_involutive.

  Lemma tm_sin_ok : (Z.of_nat k <= 169)%Z -> exists T, tm_sin iter A = Ok T /\ represents D T (fun x => sin (f x)).
  Proof.
    intros Hk. destruct f_bar_ok as (F & EF & BF). unfold tm_sin. rewrite EF. cbn [rbind]. rewrite factorial_fits_le by exact Hk.
    apply (function_ok _ (fun i => sin_d i c / INR (fact i))).
    - apply gsin_sto; auto.
    - rewrite (gsin_psum idR (gord g) g Wg (le_n _) ltac:(unfold get_order in Hk; lia)).
      rewrite (psum_ext _ (fun i => sin_d i c / INR (fact i))); [reflexivity|]. intros i _. apply sin_coef.
    - intros x Hx. replace (sin (f x)) with (sin_d 0 (c + (f x - c))) by (unfold sin_d; cbn; f_equal; ring).
      apply (remainder_ok sin_d); auto using sin_ds. intros I v Hv.
      quarter (get_order g); try apply within_neg; try (apply (s_sin _ SV)); try (apply (s_cos _ SV)); auto.
  Qed.
  Lemma tm_cos_ok : (Z.of_nat k <= 169)%Z -> exists T, tm_cos iter A = Ok T /\ represents D T (fun x => cos (f x)).
  Proof.
    intros Hk. destruct f_bar_ok as (F & EF & BF). unfold tm_cos. rewrite EF. cbn [rbind]. rewrite factorial_fits_le by exact Hk.
    apply (function_ok _ (fun i => cos_d i c / INR (fact i))).
    - apply gcos_sto; auto.
    - rewrite (gcos_psum idR (gord g) g Wg (le_n _) ltac:(unfold get_order in Hk; lia)).
      rewrite (psum_ext _ (fun i => cos_d i c / INR (fact i))); [reflexivity|]. intros i _. apply cos_coef.
    - intros x Hx. replace (cos (f x)) with (cos_d 0 (c + (f x - c))) by (unfold cos_d; cbn; f_equal; ring).
      apply (remainder_ok cos_d); auto using cos_ds. intros I v Hv.
      quarter (get_order g); try apply within_neg; try (apply (s_sin _ SV)); try (apply (s_cos _ SV)); auto.
  Qed.
  Lemma tm_sinh_ok : (Z.of_nat k <= 169)%Z -> exists T, tm_sinh iter A = Ok T /\ represents D T (fun x => sinh (f x)).
  Proof.
    intros Hk. destruct f_bar_ok as (F & EF & BF). unfold tm_sinh. rewrite EF. cbn [rbind]. rewrite factorial_fits_le by exact Hk.
    apply (function_ok _ (fun i => sinh_d i c / INR (fact i))).
    - apply gsinh_sto; auto.
    - rewrite (gsinh_psum idR (gord g) g Wg (le_n _)).
      rewrite (psum_ext _ (fun i => sinh_d i c / INR (fact i))); [reflexivity|]. intros i _. apply sinh_coef.
    - intros x Hx. replace (sinh (f x)) with (sinh_d 0 (c + (f x - c))) by (unfold sinh_d; cbn [hyp_d fst]; f_equal; ring).
      apply (remainder_ok sinh_d); auto using sinh_ds. intros I v Hv.
      quarter (get_order g); try (apply (s_sinh _ SV)); try (apply (s_cosh _ SV)); auto.
  Qed.
  Lemma tm_cosh_ok : (Z.of_nat k <= 169)%Z -> exists T, tm_cosh iter A = Ok T /\ represents D T (fun x => cosh (f x)).
  Proof.
    intros Hk. destruct f_bar_ok as (F & EF & BF). unfold tm_cosh. rewrite EF. cbn [rbind]. rewrite factorial_fits_le by exact Hk.
    apply (function_ok _ (fun i => cosh_d i c / INR (fact i))).
    - apply gcosh_sto; auto.
    - rewrite (gcosh_psum idR (gord g) g Wg (le_n _)).
      rewrite (psum_ext _ (fun i => cosh_d i c / INR (fact i))); [reflexivity|]. intros i _. apply cosh_coef.
    - intros x Hx. replace (cosh (f x)) with (cosh_d 0 (c + (f x - c))) by (unfold cosh_d; cbn [hyp_d snd]; f_equal; ring).
      apply (remainder_ok cosh_d); auto using cosh_ds. intros I v Hv.
      quarter (get_order g); try (apply (s_sinh _ SV)); try (apply (s_cosh _ SV)); auto.
  Qed.

  (** *** Reciprocal, logarithm, square root *)
  Lemma gdiv_sg_psum v : c <> 0 ->
    seqv (Some (gord g)) (gden idR (gdiv_sg v g)) (psum (fun i => v * (inv_d i c / INR (fact i))) (gord g) (ghat idR g)).
  Proof.
    intros Hc. destruct (grecip_gwf g Wg) as [Wr Or]. unfold gdiv_sg.
    rewrite (gden_div_gs idR (Some (gord g)) c) by (apply gmul_sg_gwf; auto).
    rewrite (gden_mul_sg idR (Some (gord g)) v) by auto.
    rewrite (gden_grecip idR (gord g) g Wg (le_n _)) by exact Hc.
    rewrite (psum_trunc alt (gord g)); [|apply vanish_scale, ghat_vanish|lia].
    rewrite (psum_arg (Some (gord g))).
    rewrite <- (psum_scale (Some (gord g)) v), <- (psum_scale (Some (gord g)) (1 / c)%K).
    rewrite (psum_ext _ (fun i => v * (inv_d i c / INR (fact i)))); [reflexivity|].
    intros i _. toR. unfold inv_d. cbn [pow]. unfold Rdiv. rewrite Rmult_1_l, pow_inv.
    assert (P : c ^ i <> 0) by (apply pow_nonzero; auto). field. split; [apply INR_fact_neq_0|auto].
  Qed.
  Lemma seg_pos z : (forall th, 0 <= th <= 1 -> 1 + z * th <> 0) -> forall th, 0 <= th <= 1 -> 0 < 1 + z * th.
  Proof.
    intros H th Ht. destruct (Rle_lt_dec (1 + z * th) 0) as [L|L]; auto. exfalso.
    assert (Z : z < 0) by nra. apply (H (- / z)).
    - assert (X : / z < 0) by (apply Rinv_lt_0_compat; auto). assert (Y : z * / z = 1) by (field; lra). split; nra.
    - field. lra.
  Qed.
  Lemma idiv_nz (I J Q : R * R) u : idiv I J = Ok Q -> within J u -> u <> 0.
  Proof.
    unfold idiv. destruct (zero_in J) eqn:E; [discriminate|]. intros _ H ->. apply zero_in_spec in H. congruence.
  Qed.
  Lemma in_J F Fc w : idiv F (ipt c) = Ok Fc -> within F w -> forall th, 0 <= th <= 1 ->
    within (iadd (ipt 1) (imul Fc unit_interval)) (1 + w / c * th).
  Proof.
    intros E HF th Ht. apply within_add; [apply within_ipt|]. apply within_mul; auto. apply (within_div _ _ _ _ _ E); auto. apply within_ipt.
  Qed.
  Lemma line w th : c <> 0 -> c + th * w = c * (1 + w / c * th).
  Proof. intros H. field. auto. Qed.

  Ltac step E := match type of E with rbind ?r _ = Ok _ => let X := fresh "X" in destruct r as [?|?] eqn:X; [cbn [rbind] in E|discriminate E] end.
  Lemma tm_div_sg_ok T : tm_div_sg iter 1 A = Ok T -> represents D T (fun x => / f x).
  Proof.
    unfold tm_div_sg. intros E. destruct bounds_ok as (b & Eb & Bb). destruct f_bar_ok as (F & EF & BF). rewrite Eb in E. cbn [rbind] in E.
    destruct (zero_in (iadd b (m_rem A))) eqn:Z; [discriminate|]. rewrite EF in E. cbn [rbind] in E.
    destruct (idiv F (ipt c)) as [Fc|] eqn:EFc; [cbn [rbind] in E|discriminate].
    destruct (idiv _ (ipt (kpow c (k + 2)))) as [lead|] eqn:El; [cbn [rbind] in E|discriminate].
    destruct (idiv (ipt k1) _) as [tail|] eqn:Et; [cbn [rbind] in E|discriminate].
    assert (Hc : c <> 0) by exact (idiv_nz _ _ _ _ EFc (within_ipt c)).
    destruct (function_ok (gdiv_sg k1 g) (fun i => 1 * (inv_d i c / INR (fact i))) (imul lead tail) (fun x => / f x)) as (T' & E' & RT).
    - apply sto_div_sg; auto.
    - apply (gdiv_sg_psum 1 Hc).
    - intros x Hx. specialize (BF x Hx). set (w := f x - c) in *. assert (J := in_J F Fc w EFc BF).
      assert (N : forall th, 0 <= th <= 1 -> 1 + w / c * th <> 0).
      { intros th Ht C. apply (idiv_nz _ _ _ ((1 + w / c * th) ^ (k + 2)) Et); [apply within_pow; apply J; auto|]. rewrite C. apply pow_i. lia. }
      destruct (lagrange inv_d c w k) as (th & Ht & L).
      { intros i t Ht'. apply inv_ds. rewrite line by auto. apply Rmult_integral_contrapositive. auto. }
      replace (/ f x) with (inv_d 0 (c + w)).
      2:{ unfold inv_d, w. cbn [pow fact]. change (INR 1) with 1. replace (c + (f x - c)) with (f x) by ring. field.
          replace (f x) with (c * (1 + w / c * 1)) by (unfold w; field; auto). apply Rmult_integral_contrapositive. split; auto. apply N. lra. }
      rewrite L. rewrite (usum_ext (fun i => 1 * (inv_d i c / INR (fact i))) (fun i => inv_d i c / INR (fact i))) by (intros; ring).
      replace (_ + _ - _) with ((-1) ^ (k + 1) * w ^ (k + 1) / c ^ (k + 2) * (1 / (1 + w / c * th) ^ (k + 2))).
      + apply within_mul.
        * apply (within_div _ _ _ _ _ El); [|rewrite kpow_pow; apply within_ipt]. apply within_mul; [|apply within_pow; auto].
          rewrite kpow_pow. apply within_ipt.
        * apply (within_div _ _ _ _ _ Et); [apply within_ipt|]. apply within_pow. apply J; auto.
      + rewrite line by auto. unfold inv_d. rewrite Rpow_mult_distr. replace (k + 2)%nat with (S (S k)) by lia. rewrite Nat.add_1_r.
        assert (P1 : c ^ S (S k) <> 0) by (apply pow_nonzero; auto). assert (P2 : (1 + w / c * th) ^ S (S k) <> 0) by (apply pow_nonzero; auto).
        set (u := (1 + w / c * th) ^ S (S k)) in *. set (v := c ^ S (S k)) in *. field. repeat split; auto using INR_fact_neq_0.
    - assert (Q : Ok T' = Ok T) by (rewrite <- E'; exact E). injection Q as <-. exact RT.
  Qed.

  Lemma log_coef i : c <> 0 -> logc c i = ln_d i c / INR (fact i).
  Proof.
    intros Hc. destruct i; cbn [logc ln_d].
    - change (e_log c) with (ln c). cbn [fact]. change (INR 1) with 1. field.
    - toR. unfold inv_d. rewrite fact_simpl, mult_INR. field. repeat split; auto using INR_fact_neq_0. apply pow_nonzero; auto. apply not_0_INR; lia.
  Qed.
  Lemma tm_log_ok T : tm_log iter A = Ok T -> represents D T (fun x => ln (f x)).
  Proof.
    unfold tm_log. intros E. destruct bounds_ok as (b & Eb & Bb). destruct f_bar_ok as (F & EF & BF). rewrite Eb in E. cbn [rbind] in E.
    destruct (negb (iabove (iadd b (m_rem A)) 0)%K) eqn:Z; [discriminate|]. rewrite EF in E. cbn [rbind] in E.
    destruct (idiv _ (ipt (kpow c (k + 1)))) as [lead|] eqn:El; [cbn [rbind] in E|discriminate].
    destruct (idiv F (ipt c)) as [Fc|] eqn:EFc; [cbn [rbind] in E|discriminate].
    destruct (idiv (ipt k1) _) as [inv|] eqn:Et; [cbn [rbind] in E|discriminate].
    assert (Hc : c <> 0) by exact (idiv_nz _ _ _ _ EFc (within_ipt c)).
    destruct (function_ok (glog g) (fun i => ln_d i c / INR (fact i)) (imul lead (ipow inv (k + 1))) (fun x => ln (f x))) as (T' & E' & RT).
    - apply sto_log; auto.
    - rewrite (glog_psum idR (gord g) g Wg (le_n _)) by exact Hc.
      rewrite (psum_ext _ (fun i => ln_d i c / INR (fact i))); [reflexivity|]. intros i _. apply log_coef; auto.
    - intros x Hx. specialize (BF x Hx). set (w := f x - c) in *. assert (J := in_J F Fc w EFc BF).
      assert (N : forall th, 0 <= th <= 1 -> 1 + w / c * th <> 0).
      { intros th Ht. exact (idiv_nz _ _ _ _ Et (J th Ht)). }
      assert (P := seg_pos _ N). assert (Fp : 0 <= f x).
      { apply negb_false_iff, negb_true_iff, Rltb_false in Z. specialize (Bb x Hx). unfold within in Bb. change (k0 : R) with 0 in Z. lra. }
      assert (Cp : 0 < c).
      { assert (Q := P 1 ltac:(lra)). assert (f x = c * (1 + w / c * 1)) by (unfold w; field; auto). nra. }
      destruct (lagrange ln_d c w k) as (th & Ht & L).
      { intros i t Ht'. apply ln_ds. rewrite line by auto. apply Rmult_lt_0_compat; auto. }
      replace (ln (f x)) with (ln_d 0 (c + w)) by (cbn [ln_d]; unfold w; f_equal; ring). rewrite L.
      replace (_ + _ - _) with ((-1) ^ (k + 2) * (1 / INR (k + 1)) * w ^ (k + 1) / c ^ (k + 1) * (1 / (1 + w / c * th)) ^ (k + 1)).
      + apply within_mul.
        * apply (within_div _ _ _ _ _ El); [|rewrite kpow_pow; apply within_ipt]. apply within_mul; [|apply within_pow; auto].
          rewrite kpow_pow, kofnat_R. apply within_ipt.
        * apply within_pow. apply (within_div _ _ _ _ _ Et); [apply within_ipt|]. apply J; auto.
      + rewrite line by auto. cbn [ln_d]. unfold inv_d. rewrite Rpow_mult_distr. replace (k + 2)%nat with (S (S k)) by lia. rewrite Nat.add_1_r.
        replace ((1 / (1 + w / c * th)) ^ S k) with (/ (1 + w / c * th) ^ S k) by (rewrite <- pow_inv; f_equal; unfold Rdiv; ring).
        rewrite fact_simpl, mult_INR.
        replace ((-1) ^ S (S k)) with ((-1) ^ k) by (cbn [pow]; ring).
        assert (P1 : c ^ S k <> 0) by (apply pow_nonzero; auto). assert (P2 : (1 + w / c * th) ^ S k <> 0) by (apply pow_nonzero; auto).
        set (u := (1 + w / c * th) ^ S k) in *. set (v := c ^ S k) in *. field. repeat split; auto using INR_fact_neq_0. apply not_0_INR; lia.
    - assert (Q : Ok T' = Ok T) by (rewrite <- E'; exact E). injection Q as <-. exact RT.
  Qed.

  Lemma sqrt_ratio u n : 0 < u -> 1 / sqrt (u ^ (2 * n + 1)) = sqrt u / u ^ S n.
  Proof.
    intros H. assert (P : 0 < u ^ n) by (apply pow_lt; auto). assert (Q : 0 < sqrt u) by (apply sqrt_lt_R0; auto).
    replace (u ^ (2 * n + 1)) with ((u ^ n * u ^ n) * u) by (rewrite <- pow_add; replace (2 * n + 1)%nat with (n + n + 1)%nat by lia; rewrite (pow_add u (n + n) 1); ring).
    rewrite sqrt_mult by nra. rewrite sqrt_square by lra. cbn [pow].
    assert (S2 : sqrt u * sqrt u = u) by (apply sqrt_sqrt; lra).
    generalize dependent (sqrt u). intros r Qr S2. generalize dependent (u ^ n). intros y Py. subst u. field. split; lra.
  Qed.
  Lemma tm_sqrt_ok T : (k <= 17)%nat -> tm_sqrt iter A = Ok T -> represents D T (fun x => sqrt (f x)).
  Proof.
    intros Hk. unfold tm_sqrt. intros E. destruct bounds_ok as (b & Eb & Bb). destruct f_bar_ok as (F & EF & BF). rewrite EF, Eb in E. cbn [rbind] in E.
    destruct (negb (iabove (iadd b (m_rem A)) 0)%K) eqn:Z; [discriminate|].
    unfold root_denominator in E. destruct (idiv F (ipt c)) as [Fc|] eqn:EFc; [cbn [rbind] in E|discriminate].
    apply factorial_fits_Ok in E. destruct E as [E _]. set (kh := i_sqrt _) in E. set (s := (_ / (kfact (k + 1) * _))%K) in E.
    destruct (idiv _ (ipt (kpow c (k + 1)))) as [q|] eqn:Eq; [cbn [rbind] in E|discriminate].
    destruct (idiv (imul q _) kh) as [rem|] eqn:Er; [cbn [rbind] in E|discriminate].
    assert (Hc : c <> 0) by exact (idiv_nz _ _ _ _ EFc (within_ipt c)).
    assert (Sr : sto (gsyms g) (gord g) (gpow_real g (1 / kofZ 2)%K)) by (apply sto_pow_real; auto).
    destruct (trimmed_same A (gpow_real g (1 / kofZ 2)%K) rem D f (fun x => sqrt (f x)) W) as (T' & E' & RT).
    - destruct Sr. apply valid_iff; auto.
    - exact (sto_sym _ _ _ Sr).
    - exact (proj2 RA).
    - intros x Hx X. specialize (BF x Hx). set (w := f x - c) in *. assert (J := in_J F Fc w EFc BF).
      assert (N : forall th, 0 <= th <= 1 -> 1 + w / c * th <> 0).
      { intros th Ht C. apply (idiv_nz _ _ _ (sqrt ((1 + w / c * th) ^ (2 * k + 1))) Er).
        - apply (s_sqrt _ SV); [rewrite C, pow_i by lia; lra|]. apply within_pow. apply J; auto.
        - rewrite C, pow_i by lia. apply sqrt_0. }
      assert (P := seg_pos _ N). assert (Fp : 0 <= f x).
      { apply negb_false_iff, negb_true_iff, Rltb_false in Z. specialize (Bb x Hx). unfold within in Bb. change (k0 : R) with 0 in Z. lra. }
      assert (Cp : 0 < c).
      { assert (Q := P 1 ltac:(lra)). assert (f x = c * (1 + w / c * 1)) by (unfold w; field; auto). nra. }
      destruct (lagrange sqrt_d c w k) as (th & Ht & L).
      { intros i t Ht'. apply sqrt_ds. rewrite line by auto. apply Rmult_lt_0_compat; auto. }
      rewrite (linear_value g _ (fun i => sqrt_d i c / INR (fact i)) _ V (sto_wf _ _ _ Sr) (sto_sym _ _ _ Sr) (sto_ord _ _ _ Sr) H1).
      2:{ rewrite pow_half_series, (gpow_series_psum idR (gord g) g _ Wg (le_n _)).
          rewrite (psum_ext _ (fun i => sqrt_d i c / INR (fact i))); [reflexivity|]. intros i _. unfold powc. toR.
          change (@e_pow R ElemR) with rpow. rewrite rpow_half by auto. rewrite gbin_root. unfold sqrt_d, Rdiv. ring. }
      replace (usum _ (gord g) (value g (displacement (m_exp A) x) - c)) with (usum (fun i => sqrt_d i c / INR (fact i)) k w).
      2:{ destruct (proj2 HA) as [Z'|Z'].
          - change (gord g) with k. rewrite Z', !usum_0. auto.
          - rewrite Z' in X. unfold within in X. cbn [fst snd] in X. unfold w. f_equal. lra. }
      replace (sqrt (f x)) with (sqrt_d 0 (c + w)) by (unfold sqrt_d, w; cbn [root_c pow]; replace (c + (f x - c)) with (f x) by ring; field). rewrite L.
      assert (Pt := P th Ht).
      assert (Es : s = (-1) ^ k * sqrt c * IZR (odf k) / (INR (fact (k + 1)) * 2 ^ (k + 1))).
      { unfold s. rewrite factorial2_odf by auto. toR. rewrite kfact_R. change (@e_pow R ElemR) with rpow. replace (1 / 2) with (1 / 2 - INR 0) by (cbn; lra).
        rewrite rpow_half by auto. cbn [pow]. unfold Rdiv at 2. rewrite Rinv_1, Rmult_1_r. reflexivity. }
      replace (_ + _ - _) with (s * w ^ (k + 1) / c ^ (k + 1) * 1 / sqrt ((1 + w / c * th) ^ (2 * k + 1))).
      + apply (within_div _ _ _ _ _ Er).
        * apply within_mul; [|apply within_ipt]. apply (within_div _ _ _ _ _ Eq); [|rewrite kpow_pow; apply within_ipt].
          apply within_mul; [apply within_ipt|apply within_pow; auto].
        * apply (s_sqrt _ SV); [apply pow_le; lra|]. apply within_pow. apply J; auto.
      + rewrite line by auto. unfold sqrt_d. rewrite Rpow_mult_distr, sqrt_mult by lra.
        replace (s * w ^ (k + 1) / c ^ (k + 1) * 1 / sqrt ((1 + w / c * th) ^ (2 * k + 1)))
          with (s * w ^ (k + 1) / c ^ (k + 1) * (1 / sqrt ((1 + w / c * th) ^ (2 * k + 1)))) by (unfold Rdiv; ring).
        rewrite sqrt_ratio by auto. rewrite Es, root_c_odf, !Nat.add_1_r.
        assert (P1 : c ^ S k <> 0) by (apply pow_nonzero; lra). assert (P2 : (1 + w / c * th) ^ S k <> 0) by (apply pow_nonzero; lra).
        assert (P3 : (2 : R) ^ S k <> 0) by (apply pow_nonzero; lra).
        set (u := (1 + w / c * th) ^ S k) in *. set (v := c ^ S k) in *. set (y := (2 : R) ^ S k) in *. field. repeat split; auto using INR_fact_neq_0.
    - assert (Q : Ok T' = Ok T) by (rewrite <- E'; exact E). injection Q as <-. exact RT.
  Qed.
  (** The scale factor of the remainder is 4^(k+1) times the right one; since
      the interval contains 0 the result is still an enclosure. *)
  Lemma tm_inv_sqrt_ok T : (k <= 16)%nat -> within (m_rem A) 0 -> tm_inv_sqrt iter A = Ok T -> represents D T (fun x => / sqrt (f x)).
  Proof.
    intros Hk R0. unfold tm_inv_sqrt. intros E. destruct bounds_ok as (b & Eb & Bb). destruct f_bar_ok as (F & EF & BF).
    assert (F0 : within F 0) by exact (f_bar_center F R0 EF).
    rewrite EF, Eb in E. cbn [rbind] in E.
    destruct (negb (iabove (iadd b (m_rem A)) 0)%K) eqn:Z; [discriminate|].
    unfold root_denominator in E. destruct (idiv F (ipt c)) as [Fc|] eqn:EFc; [cbn [rbind] in E|discriminate].
    apply factorial_fits_Ok in E. destruct E as [E _]. set (kh := i_sqrt _) in E. set (s := (_ / kfact (k + 1) * _)%K) in E.
    destruct (idiv _ (ipt (kpow c (k + 1)))) as [q|] eqn:Eq; [cbn [rbind] in E|discriminate].
    destruct (idiv (imul q _) kh) as [rem|] eqn:Er; [cbn [rbind] in E|discriminate].
    assert (Hc : c <> 0) by exact (idiv_nz _ _ _ _ EFc (within_ipt c)).
    assert (Sr : sto (gsyms g) (gord g) (gpow_real g (- (1 / kofZ 2))%K)) by (apply sto_pow_real; auto).
    destruct (trimmed_same A (gpow_real g (- (1 / kofZ 2))%K) rem D f (fun x => / sqrt (f x)) W) as (T' & E' & RT).
    - destruct Sr. apply valid_iff; auto.
    - exact (sto_sym _ _ _ Sr).
    - exact (proj2 RA).
    - intros x Hx X. specialize (BF x Hx). set (w := f x - c) in *. assert (J := in_J F Fc w EFc BF).
      assert (N : forall th, 0 <= th <= 1 -> 1 + w / c * th <> 0).
      { intros th Ht C. apply (idiv_nz _ _ _ (sqrt ((1 + w / c * th) ^ (2 * k + 3))) Er).
        - apply (s_sqrt _ SV); [rewrite C, pow_i by lia; lra|]. apply within_pow. apply J; auto.
        - rewrite C, pow_i by lia. apply sqrt_0. }
      assert (P := seg_pos _ N). assert (Fp : 0 <= f x).
      { apply negb_false_iff, negb_true_iff, Rltb_false in Z. specialize (Bb x Hx). unfold within in Bb. change (k0 : R) with 0 in Z. lra. }
      assert (Cp : 0 < c).
      { assert (Q := P 1 ltac:(lra)). assert (f x = c * (1 + w / c * 1)) by (unfold w; field; auto). nra. }
      assert (Fq : 0 < f x).
      { assert (Q := P 1 ltac:(lra)). assert (f x = c * (1 + w / c * 1)) by (unfold w; field; auto). nra. }
      destruct (lagrange iroot_d c w k) as (th & Ht & L).
      { intros i t Ht'. apply iroot_ds. rewrite line by auto. apply Rmult_lt_0_compat; auto. }
      rewrite (linear_value g _ (fun i => iroot_d i c / INR (fact i)) _ V (sto_wf _ _ _ Sr) (sto_sym _ _ _ Sr) (sto_ord _ _ _ Sr) H1).
      2:{ rewrite pow_mhalf_series, (gpow_series_psum idR (gord g) g _ Wg (le_n _)).
          rewrite (psum_ext _ (fun i => iroot_d i c / INR (fact i))); [reflexivity|]. intros i _. unfold powc. toR.
          change (@e_pow R ElemR) with rpow. rewrite rpow_mhalf by auto. rewrite gbin_iroot. unfold iroot_d, sqrt_d, Rdiv. ring. }
      replace (usum _ (gord g) (value g (displacement (m_exp A) x) - c)) with (usum (fun i => iroot_d i c / INR (fact i)) k w).
      2:{ destruct (proj2 HA) as [Z'|Z'].
          - change (gord g) with k. rewrite Z', !usum_0. auto.
          - rewrite Z' in X. unfold within in X. cbn [fst snd] in X. unfold w. f_equal. lra. }
      replace (/ sqrt (f x)) with (iroot_d 0 (c + w)).
      2:{ unfold iroot_d, sqrt_d, w. replace (c + (f x - c)) with (f x) by ring. change (root_c 1) with (1 * (1 / 2 - INR 0)). change (INR 0) with 0. cbn [pow].
          assert (S2 : sqrt (f x) * sqrt (f x) = f x) by (apply sqrt_sqrt; lra). assert (S1 := sqrt_lt_R0 _ Fq).
          generalize dependent (sqrt (f x)). intros r S2 S1. rewrite <- S2. field. lra. }
      rewrite L. assert (Pt := P th Ht).
      assert (Es : s = (-1) ^ (k + 1) * (sqrt c / c) * IZR (odf (S k)) / INR (fact (k + 1)) * 2 ^ (k + 1)).
      { unfold s. rewrite factorial2_odf_next by auto. toR. rewrite kfact_R. change (@e_pow R ElemR) with rpow. replace (- (1 / 2)) with (- (1 / 2) - INR 0) by (cbn; lra).
        rewrite rpow_mhalf by auto. cbn [pow]. rewrite Rmult_1_r. reflexivity. }
      assert (V0 : within rem (s * w ^ (k + 1) / c ^ (k + 1) * 1 / sqrt ((1 + w / c * th) ^ (2 * k + 3)))).
      { apply (within_div _ _ _ _ _ Er).
        - apply within_mul; [|apply within_ipt]. apply (within_div _ _ _ _ _ Eq); [|rewrite kpow_pow; apply within_ipt].
          apply within_mul; [apply within_ipt|apply within_pow; auto].
        - apply (s_sqrt _ SV); [apply pow_le; lra|]. apply within_pow. apply J; auto. }
      assert (Z0 : within rem 0).
      { replace 0 with (s * 0 ^ (k + 1) / c ^ (k + 1) * 1 / sqrt ((1 + w / c * th) ^ (2 * k + 3))).
        - apply (within_div _ _ _ _ _ Er).
          + apply within_mul; [|apply within_ipt]. apply (within_div _ _ _ _ _ Eq); [|rewrite kpow_pow; apply within_ipt].
            apply within_mul; [apply within_ipt|apply within_pow; auto].
          + apply (s_sqrt _ SV); [apply pow_le; lra|]. apply within_pow. apply J; auto.
        - rewrite pow_i by lia. unfold Rdiv. ring. }
      replace (_ + _ - _) with (/ 4 ^ (k + 1) * (s * w ^ (k + 1) / c ^ (k + 1) * 1 / sqrt ((1 + w / c * th) ^ (2 * k + 3)))).
      + apply within_scaled; auto. assert (1 <= 4 ^ (k + 1)) by (apply pow_R1_Rle; lra). split; [left; apply Rinv_0_lt_compat; lra|].
        apply (Rmult_le_reg_r (4 ^ (k + 1))); [lra|]. rewrite Rinv_l; lra.
      + rewrite line by auto. unfold iroot_d, sqrt_d. rewrite Rpow_mult_distr, sqrt_mult by lra.
        replace (s * w ^ (k + 1) / c ^ (k + 1) * 1 / sqrt ((1 + w / c * th) ^ (2 * k + 3)))
          with (s * w ^ (k + 1) / c ^ (k + 1) * (1 / sqrt ((1 + w / c * th) ^ (2 * S k + 1)))) by (replace (2 * S k + 1)%nat with (2 * k + 3)%nat by lia; unfold Rdiv; ring).
        rewrite sqrt_ratio by auto. rewrite Es, root_c_odf, !Nat.add_1_r.
        replace ((4 : R) ^ S k) with ((2 : R) ^ S k * 2 ^ S k) by (rewrite <- Rpow_mult_distr; f_equal; lra).
        replace ((2 : R) ^ S (S k)) with (2 * 2 ^ S k) by reflexivity. replace (c ^ S (S k)) with (c * c ^ S k) by reflexivity.
        assert (P1 : c ^ S k <> 0) by (apply pow_nonzero; lra). assert (P2 : (1 + w / c * th) ^ S (S k) <> 0) by (apply pow_nonzero; lra).
        assert (P3 : (2 : R) ^ S k <> 0) by (apply pow_nonzero; lra).
        set (u := (1 + w / c * th) ^ S (S k)) in *. set (v := c ^ S k) in *. set (y := (2 : R) ^ S k) in *. field. repeat split; auto using INR_fact_neq_0.
    - assert (Q : Ok T' = Ok T) by (rewrite <- E'; exact E). injection Q as <-. exact RT.
  Qed.
End One.
