(** * The operations and functions of gduals compute Taylor expansions (proof file).

    [T h n g f]: the gdual g, with its coefficients read through h, is the
    Taylor expansion of order n of f.  Its declared order is at least n, or 0
    (a constant, as made by the constructor from a number). *)

From Coq Require Import String Reals Lra Lia Psatz List ZArith Setoid Morphisms Ring Field Bool.
From Coquelicot Require Import Coquelicot.
From Verif Require Import Ops Syms SymsFacts Poly PolyFacts Sem Den Gdual GdualFacts Functions FunStruct Spec CoefFacts FunAlg ElemR Uni UniFun UniFun2 Taylor.
Import ListNotations.
Open Scope R_scope.

Notation origin := (fun _ : string => 0).

(** A Lipschitz function of a small quantity. *)
Lemma bigO_lip (G : R -> R) k f : (exists C d, 0 < d /\ 0 <= C /\ forall y, Rabs y <= d -> Rabs (G y) <= C * Rabs y) ->
  bigO (S k) f -> bigO (S k) (fun x => G (f x)).
Proof.
  intros (C & d & Hd & HC & H) Hf. pose proof (bigO_le 1 _ _ (ltac:(lia) : (1 <= S k)%nat) Hf) as H1.
  destruct H1 as (C1 & d1 & Hd1 & HC1 & H1). destruct Hf as (C' & d' & Hd' & HC' & H').
  assert (P : 0 < d / (C1 + 1)) by (apply Rdiv_lt_0_compat; lra).
  exists (C * C'), (Rmin (Rmin d1 d') (d / (C1 + 1))). split; [repeat apply Rmin_pos; auto|].
  split; [apply Rmult_le_pos; auto|]. intros x r W Hr.
  assert (X1 : r <= d1) by (eapply Rle_trans; [exact Hr|eapply Rle_trans; [apply Rmin_l|apply Rmin_l]]).
  assert (X2 : r <= d') by (eapply Rle_trans; [exact Hr|eapply Rle_trans; [apply Rmin_l|apply Rmin_r]]).
  assert (X3 : r <= d / (C1 + 1)) by (eapply Rle_trans; [exact Hr|apply Rmin_r]).
  assert (P0 := within_pos x r W). specialize (H1 x r W X1). rewrite pow_1 in H1. specialize (H' x r W X2).
  assert (Y : Rabs (f x) <= d).
  { apply (Rmult_le_compat_r (C1 + 1)) in X3; [|lra].
    replace (d / (C1 + 1) * (C1 + 1)) with d in X3 by (field; lra). nra. }
  eapply Rle_trans; [apply H; auto|]. rewrite Rmult_assoc. apply Rmult_le_compat_l; auto.
Qed.

Section SpR.
  Context {K : Type} {o : Ops K} {fl : FieldLaws o}.
  Variable tr : option nat.
  Add Ring spring : (sp_ring_theory tr) (setoid (seqv_equiv tr) (sp_ring_ext tr)).
  Lemma scon_cancel (c : K) (l : sp K) : c <> k0 -> seqv tr (smul (smul (scon (kdiv k1 c)) l) (scon c)) l.
  Proof.
    intros Hc. transitivity (smul (smul (scon c) (scon (kdiv k1 c))) l); [ring|].
    pose proof (scon_inv tr c Hc) as H. rewrite H. ring.
  Qed.
End SpR.

Section TayFun.
  Context {A : Type} {oA : Ops A} {eA : Elem A}.
  Variable h : A -> R.
  Context {hh : Hom oA OpsR h} {he : HomElem eA ElemR h}.
  Notation gd := (gden h).
  Notation tay := (tay h).

  Record T (n : nat) (g : gdual A) (f : point -> R) : Prop := mkT {
    T_wf : gwf g;
    T_nz : gnz g;
    T_ord : (n <= gord g)%nat \/ gord g = 0%nat;
    T_tay : tay n g f
  }.

  Lemma T_sto n g f : T n g f -> sto (gsyms g) (gord g) g.
  Proof. intros []. apply sto_self; auto. Qed.
  Lemma T_at0 n g f : T n g f -> f origin = h (constant_cf g).
  Proof. intros []. eapply tay_at0; eauto. Qed.
  Lemma T_ext n g f f' : (exists d, 0 < d /\ forall x, within x d -> f x = f' x) -> T n g f -> T n g f'.
  Proof. intros E []. constructor; auto. eapply tay_ext; eauto. Qed.
  Lemma T_ext_all n g f f' : (forall x, f x = f' x) -> T n g f -> T n g f'.
  Proof. intros E. apply T_ext. exists 1. split; [lra|auto]. Qed.
  Lemma T_le n m g f : (n <= m)%nat -> T m g f -> T n g f.
  Proof. intros L []. constructor; auto; [intuition lia|]. eapply tay_le; eauto. Qed.

  Lemma T_mk V N n g f : sto V N g -> (n <= N)%nat \/ N = 0%nat -> tay n g f -> T n g f.
  Proof. intros [W Z O S] H Hf. constructor; auto. rewrite O. auto. Qed.

  (** Gduals of order 0. *)
  Lemma order0_const g : gwf g -> gord g = 0%nat -> isconst h g (h (constant_cf g)).
  Proof.
    intros W O. split; auto. rewrite (constant_cf_scc h) by auto.
    apply (seqv_bounded 0).
    - rewrite <- O. apply (den_sdle h), W.
    - constructor; [simpl; lia|constructor].
    - constructor. intros F HF. assert (X := vanish_minus_cc (gd g) (den_okdeg h (gp g)) F).
      rewrite Lf_ssub in X. simpl in HF. cbn [ksub k0 OpsR] in X.
      specialize (X ltac:(intros; apply HF; lia)). lra.
  Qed.
  Lemma hval_const g c x : isconst h g c -> hval h g x = c.
  Proof.
    intros [W E]. destruct (common_vars h [g]) as (V & HV); [constructor; auto|].
    destruct (HV g) as [A1 A2]; [simpl; auto|].
    rewrite A2. unfold lev. rewrite (seqv_elim E) by (simpl; tauto). apply (Lf_ev_con V x).
  Qed.

  (** The value near the expansion point. *)
  Lemma T_small n g f : T n g f -> bigO 1 (fun x => f x - f origin).
  Proof.
    intros H. pose proof (T_at0 _ _ _ H) as H0. destruct H as [W _ _ Ht].
    destruct (common_vars h [g]) as (V & HV); [constructor; auto|]. destruct (HV g) as [B1 B2]; [simpl; auto|].
    apply (bigO_ext _ (fun x => (f x - hval h g x) + lev V (ghat h g) x)).
    - intros x. unfold ghat. rewrite lev_sub, lev_con, B2, H0, (constant_cf_scc h) by auto. ring.
    - apply bigO_add; [eapply bigO_le; [|exact Ht]; lia|]. apply bigO_vanish; [|apply ghat_vanish].
      unfold ghat. apply okV_ssub; auto. apply okV_scon.
  Qed.
  Lemma T_near n g f e : T n g f -> 0 < e -> exists d, 0 < d /\ forall x, within x d -> Rabs (f x - f origin) <= e.
  Proof.
    intros H He. destruct (T_small _ _ _ H) as (C & d & Hd & HC & B).
    exists (Rmin d (e / (C + 1))). assert (P : 0 < e / (C + 1)) by (apply Rdiv_lt_0_compat; lra).
    split; [apply Rmin_pos; auto|]. intros x Hx. set (r := Rmin d (e / (C + 1))) in *.
    assert (L1 : r <= d) by apply Rmin_l. assert (L2 : r <= e / (C + 1)) by apply Rmin_r.
    assert (P0 := within_pos x r Hx). specialize (B x r Hx L1). rewrite pow_1 in B.
    apply (Rmult_le_compat_r (C + 1)) in L2; [|lra].
    replace (e / (C + 1) * (C + 1)) with e in L2 by (field; lra). nra.
  Qed.
  Lemma T_nearP n g f (P : R -> Prop) : T n g f -> (exists e, 0 < e /\ forall y, Rabs (y - f origin) <= e -> P y) ->
    exists d, 0 < d /\ forall x, within x d -> P (f x).
  Proof.
    intros H (e & He & HP). destruct (T_near _ _ _ e H He) as (d & Hd & N). exists d. split; auto.
  Qed.

  (** *** Arithmetic *)
  Lemma max_ord n a b : (n <= a)%nat \/ a = 0%nat -> (n <= b)%nat \/ b = 0%nat ->
    (n <= Nat.max a b)%nat \/ Nat.max a b = 0%nat.
  Proof. lia. Qed.

  Lemma T_const n v : T n (gconst v) (fun _ => h v).
  Proof. apply (T_mk [] 0%nat); [apply sto_const|auto|apply (tay_const h)]. Qed.
  Lemma T_add n a b f g : T n a f -> T n b g -> T n (gadd a b) (fun x => f x + g x).
  Proof.
    intros Ha Hb. eapply T_mk; [exact (sto_add2 _ _ _ _ _ _ (T_sto _ _ _ Ha) (T_sto _ _ _ Hb))| |].
    - destruct Ha, Hb. apply max_ord; auto.
    - destruct Ha, Hb. apply (tay_add h); auto.
  Qed.
  Lemma T_sub n a b f g : T n a f -> T n b g -> T n (gsub a b) (fun x => f x - g x).
  Proof.
    intros Ha Hb. eapply T_mk; [exact (sto_sub2 _ _ _ _ _ _ (T_sto _ _ _ Ha) (T_sto _ _ _ Hb))| |].
    - destruct Ha, Hb. apply max_ord; auto.
    - destruct Ha, Hb. apply (tay_sub h); auto.
  Qed.
  Lemma T_neg n a f : (forall c : A, keqb c k0 = false -> keqb (kopp c) k0 = false) ->
    T n a f -> T n (gneg a) (fun x => - f x).
  Proof.
    intros Hneg Ha. constructor; destruct Ha; auto with gwf.
    - apply gneg_nz; auto.
    - apply (tay_neg h); auto.
  Qed.
  Ltac un L := let H := fresh in intros H; eapply T_mk; [apply L; exact (T_sto _ _ _ H)|destruct H; auto|destruct H].
  Lemma T_add_sg n v a f : T n a f -> T n (gadd_sg v a) (fun x => h v + f x).
  Proof. un @sto_add_sg. apply (tay_add_sg h); auto. Qed.
  Lemma T_add_gs n v a f : T n a f -> T n (gadd_gs a v) (fun x => f x + h v).
  Proof. un @sto_add_gs. apply (tay_add_gs h); auto. Qed.
  Lemma T_sub_sg n v a f : T n a f -> T n (gsub_sg v a) (fun x => h v - f x).
  Proof. un @sto_sub_sg. apply (tay_sub_sg h); auto. Qed.
  Lemma T_sub_gs n v a f : T n a f -> T n (gsub_gs a v) (fun x => f x - h v).
  Proof. un @sto_sub_gs. apply (tay_sub_gs h); auto. Qed.
  Lemma T_mul_sg n v a f : T n a f -> T n (gmul_sg v a) (fun x => h v * f x).
  Proof. un @sto_mul_sg. apply (tay_mul_sg h); auto. Qed.
  Lemma T_mul_gs n v a f : T n a f -> T n (gmul_gs a v) (fun x => f x * h v).
  Proof. un @sto_mul_gs. apply (tay_mul_gs h); auto. Qed.
  Lemma T_div_gs n v a f : T n a f -> T n (gdiv_gs a v) (fun x => f x / h v).
  Proof. un @sto_div_gs. apply (tay_div_gs h); auto. Qed.

  Lemma sdle_ord g : gwf g -> sdle (gord g) (gd g).
  Proof. intros W. apply (den_sdle h), W. Qed.

  Lemma sdle_smul n m (l l' : sp R) : sdle n l -> sdle m l' -> sdle (n + m) (smul l l').
  Proof.
    intros H H'. unfold sdle, smul in *. rewrite Forall_forall in *. intros t Ht. apply in_flat_map in Ht.
    destruct Ht as (u & Hu & Ht). apply in_map_iff in Ht. destruct Ht as (v & <- & Hv). simpl.
    specialize (H u Hu). specialize (H' v Hv). lia.
  Qed.

  Lemma T_mul n a b f g : T n a f -> T n b g -> T n (gmul a b) (fun x => f x * g x).
  Proof.
    intros Ha Hb. assert (S := sto_mul2 _ _ _ _ _ _ (T_sto _ _ _ Ha) (T_sto _ _ _ Hb)).
    eapply T_mk; [exact S| |].
    { destruct Ha, Hb. apply max_ord; auto. }
    assert (Wr := sto_wf _ _ _ S). assert (Or := sto_ord _ _ _ S). clear S.
    destruct Ha as [Wa Na Oa Ha], Hb as [Wb Nb Ob Hb].
    destruct (le_lt_dec n (Nat.max (gord a) (gord b))) as [L|L]; [apply (tay_mul h); auto|].
    assert (Za : gord a = 0%nat) by lia. assert (Zb : gord b = 0%nat) by lia.
    destruct (common_vars h [a; b; gmul a b]) as (V & HV).
    { repeat (apply List.Forall_cons; [solve [auto]|]); apply List.Forall_nil. }
    destruct (HV a) as [A1 A2]; [simpl; auto|]. destruct (HV b) as [B1 B2]; [simpl; auto|].
    destruct (HV (gmul a b)) as [R1 R2]; [simpl; auto|].
    apply (tay_of h n _ _ V (smul (gd a) (gd b))); auto with gwf.
    - apply okV_smul; auto.
    - apply seqv_full, (seqv_bounded 0).
      + replace 0%nat with (gord (gmul a b)) by lia. apply sdle_ord; auto.
      + apply (sdle_smul 0 0); [rewrite <- Za|rewrite <- Zb]; apply sdle_ord; auto.
      + apply (gden_mul h); auto. lia.
    - apply (bigO_ext _ (fun x => (f x - hval h a x) * g x + hval h a x * (g x - hval h b x))).
      + intros x. rewrite lev_mul, A2, B2. ring.
      + apply bigO_add.
        * rewrite <- (Nat.add_0_r (S n)). apply bigO_mul; auto. exact (tay_bounded h n b g Wb Hb).
        * apply (bigO_mul 0 (S n)); auto. apply (hval_bounded h); auto.
  Qed.

  Lemma T_div n a b f g : T n a f -> T n b g -> g origin <> 0 -> T n (gdiv a b) (fun x => f x / g x).
  Proof.
    intros Ha Hb Hg. assert (S := sto_div2 _ _ _ _ _ _ (T_sto _ _ _ Ha) (T_sto _ _ _ Hb)).
    eapply T_mk; [exact S| |].
    { destruct Ha, Hb. apply max_ord; auto. }
    assert (Wr := sto_wf _ _ _ S). assert (Or := sto_ord _ _ _ S). clear S.
    rewrite (T_at0 _ _ _ Hb) in Hg.
    destruct Ha as [Wa Na Oa Ha], Hb as [Wb Nb Ob Hb].
    apply (tay_quot h n a _ b); auto.
    destruct (le_lt_dec n (gord b)) as [L|L]; [apply (gden_div_mul h); auto|].
    assert (Zb : gord b = 0%nat) by lia.
    destruct (le_lt_dec n (gord a)) as [L'|L'].
    - assert (Cb := order0_const b Wb Zb). assert (E := proj2 Cb).
      rewrite (gden_div_const h n a b _ Wa Cb Hg L'), (seqv_full (Some n) _ _ E).
      exact (scon_cancel (Some n) (h (constant_cf b)) (gd a) Hg).
    - assert (Za : gord a = 0%nat) by lia. apply seqv_full, (seqv_bounded 0).
      + apply (sdle_smul 0 0); [replace 0%nat with (gord (gdiv a b)) by lia|rewrite <- Zb]; apply sdle_ord; auto.
      + rewrite <- Za. apply sdle_ord; auto.
      + apply (gden_div_mul h); auto. lia.
  Qed.
  Lemma T_div_sg n v b g : T n b g -> g origin <> 0 -> T n (gdiv_sg v b) (fun x => h v / g x).
  Proof.
    intros Hb Hg. assert (S := sto_div_sg _ _ v _ (T_sto _ _ _ Hb)).
    eapply T_mk; [exact S|destruct Hb; auto|].
    assert (Wr := sto_wf _ _ _ S). assert (Or := sto_ord _ _ _ S). clear S.
    rewrite (T_at0 _ _ _ Hb) in Hg. destruct Hb as [Wb Nb Ob Hb].
    apply (tay_quot h n (gconst v) _ b); auto using (tay_const h) with gwf.
    transitivity (scon (h v)); [|symmetry; apply (gden_const h)].
    destruct (le_lt_dec n (gord b)) as [L|L]; [apply (gden_div_sg_mul h); auto|].
    assert (Zb : gord b = 0%nat) by lia. apply seqv_full, (seqv_bounded 0).
    + apply (sdle_smul 0 0); [replace 0%nat with (gord (gdiv_sg v b)) by lia|rewrite <- Zb]; apply sdle_ord; auto.
    + constructor; [simpl; lia|constructor].
    + apply (gden_div_sg_mul h); auto. lia.
  Qed.

  (** *** Composition with a function of one variable *)
  Lemma T_comp n d r f F c : T n d f -> gwf r -> gnz r -> (gord r = gord d \/ gord r = 0%nat /\ gord d = 0%nat) ->
    uexp F (f origin) (gord d) c ->
    seqv (Some (gord d)) (gd r) (psum c (gord d) (ghat h d)) ->
    T n r (fun x => F (f x)).
  Proof.
    intros Hd Wr Nr Or HF E. pose proof (T_at0 _ _ _ Hd) as H0. destruct Hd as [W N O Ht].
    constructor; auto; [intuition lia|]. rewrite H0 in HF.
    destruct (le_lt_dec n (gord d)) as [L|L].
    - apply (tay_comp h n d r f F c); auto; [eapply uexp_le; eauto|].
      rewrite (seqv_le _ _ _ _ L E). apply psum_trunc; auto. apply ghat_vanish.
    - assert (Zd : gord d = 0%nat) by lia. assert (Zr : gord r = 0%nat) by lia.
      assert (Cd := order0_const d W Zd). assert (Cr := order0_const r Wr Zr).
      rewrite Zd in *. simpl in E.
      assert (X : h (constant_cf r) = c 0%nat).
      { rewrite (constant_cf_scc h) by auto. rewrite (scc_eqv _ _ _ E). apply scc_scon. }
      unfold Taylor.tay.
      apply (bigO_ext _ (fun x => F (h (constant_cf d) + (f x - hval h d x)) - usum c 0 (f x - hval h d x))).
      + intros x. rewrite (hval_const _ _ x Cd), (hval_const _ _ x Cr), usum_0, X. f_equal. f_equal. ring.
      + apply (bigO_lip (fun y => F (h (constant_cf d) + y) - usum c 0 y)); auto.
        destruct HF as (C & e & He & HC & B). exists C, e. split; [auto|]. split; [auto|].
        intros y Hy. specialize (B y Hy). rewrite pow_1 in B. auto.
  Qed.

  Ltac comp L := eapply T_comp; [eassumption|apply (sto_wf _ _ _ L)|apply (sto_nz _ _ _ L)|left; exact (sto_ord _ _ _ L)| |].
  Ltac cc0 H := match type of H with T ?n ?d ?f => let E := fresh "E" in pose proof (T_at0 n d f H) as E end.

  Lemma kfct_R i : kfct (K:=R) i = INR (fact i).
  Proof. unfold kfct. apply kofnat_R. Qed.

  Lemma T_exp n d f : T n d f -> T n (gexp d) (fun x => exp (f x)).
  Proof.
    intros H. cc0 H. pose proof (sto_exp _ _ _ (T_sto _ _ _ H)) as S. comp S.
    - apply uexp_exp.
    - destruct H. rewrite E, (gexp_psum h) by auto.
      rewrite (psum_ext _ (fun i => exp (h (constant_cf d)) / INR (fact i))); [reflexivity|].
      intros i _. rewrite kfct_R. reflexivity.
  Qed.
  Lemma T_log n d f : T n d f -> 0 < f origin -> T n (glog d) (fun x => ln (f x)).
  Proof.
    intros H Hp. cc0 H. pose proof (sto_log _ _ _ (T_sto _ _ _ H)) as S. comp S.
    - apply uexp_ln; auto.
    - destruct H. rewrite E in *. apply (glog_psum h); auto. simpl. lra.
  Qed.
  Lemma T_sqrt n d f : T n d f -> 0 < f origin -> T n (gsqrt d) (fun x => sqrt (f x)).
  Proof.
    intros H Hp. cc0 H. pose proof (sto_sqrt _ _ _ (T_sto _ _ _ H)) as S. comp S.
    - apply uexp_sqrt; auto.
    - destruct H. rewrite E in *. unfold gsqrt. rewrite (groot_psum h) by (auto; simpl; lra).
      rewrite (hom_div h), (hom_1 h), (hom_ofZ h), (hom_sqrt h). reflexivity.
  Qed.
  Lemma T_cbrt n d f : T n d f -> f origin <> 0 -> T n (gcbrt d) (fun x => cbrt_R (f x)).
  Proof.
    intros H Hp. cc0 H. pose proof (sto_cbrt _ _ _ (T_sto _ _ _ H)) as S. comp S.
    - apply uexp_cbrt; auto.
    - destruct H. rewrite E in *. unfold gcbrt. rewrite (groot_psum h) by (auto; simpl; lra).
      rewrite (hom_div h), (hom_1 h), (hom_ofZ h), (hom_cbrt h). reflexivity.
  Qed.
  Ltac shape L := let H := fresh in intros H; destruct H as [W N O S]; subst; apply L; auto.
  Lemma T_sin n d f : T n d f -> (Z.of_nat (gord d) <= 65536)%Z -> T n (gsin d) (fun x => sin (f x)).
  Proof.
    intros H L. cc0 H. pose proof (gsin_sto d (T_wf _ _ _ H) (T_nz _ _ _ H)) as S. comp S.
    - apply uexp_sincos.
    - destruct H as [W N O Ht]. rewrite E in *. exact (gsin_psum h (gord d) d W (le_n _) L).
  Qed.
  Lemma T_cos n d f : T n d f -> (Z.of_nat (gord d) <= 65536)%Z -> T n (gcos d) (fun x => cos (f x)).
  Proof.
    intros H L. cc0 H. pose proof (gcos_sto d (T_wf _ _ _ H) (T_nz _ _ _ H)) as S. comp S.
    - apply uexp_sincos.
    - destruct H as [W N O Ht]. rewrite E in *. exact (gcos_psum h (gord d) d W (le_n _) L).
  Qed.
  Lemma T_sinh n d f : T n d f -> T n (gsinh d) (fun x => sinh (f x)).
  Proof.
    intros H. cc0 H. pose proof (gsinh_sto d (T_wf _ _ _ H) (T_nz _ _ _ H)) as S. comp S.
    - apply uexp_sinhcosh.
    - destruct H as [W N O Ht]. rewrite E in *. exact (gsinh_psum h (gord d) d W (le_n _)).
  Qed.
  Lemma T_cosh n d f : T n d f -> T n (gcosh d) (fun x => cosh (f x)).
  Proof.
    intros H. cc0 H. pose proof (gcosh_sto d (T_wf _ _ _ H) (T_nz _ _ _ H)) as S. comp S.
    - apply uexp_sinhcosh.
    - destruct H as [W N O Ht]. rewrite E in *. exact (gcosh_psum h (gord d) d W (le_n _)).
  Qed.

  Lemma phat_sto d : gwf d -> gnz d -> sto (gsyms d) (gord d) (phat_of d).
  Proof. intros. apply sto_sub_gs, sto_self; auto. Qed.
  Lemma fold_nz {S : Type} (step : gdual A * S -> nat -> gdual A * S) l st :
    (forall st i, gnz (fst st) -> gnz (fst (step st i))) -> gnz (fst st) -> gnz (fst (fold_left step l st)).
  Proof. intros Hs. revert st. induction l; simpl; auto. Qed.
  Lemma tan_ty_nz d : gwf d -> gnz d -> gnz (tan_ty d).
  Proof.
    intros W N. pose proof (sto_nz _ _ _ (phat_sto d W N)) as P. unfold tan_ty. cbv zeta.
    match goal with |- context [fold_left ?stp _ _] =>
      assert (X : forall ll ss, gnz (fst (fst (fst ss))) -> gnz (fst (fst (fst (fold_left stp ll ss))))) end.
    { induction ll; intros [[[t p] fk] fa]; simpl; auto. intros Ht. apply IHll. cbn [fst]. apply gadd_nz; auto. }
    specialize (X (ks (gord d)) (phat_of d, phat_of d, kofZ 16, kofZ 24) P).
    destruct (fold_left _ _ _) as [[[t p] fk] fa]. exact X.
  Qed.
  Lemma tanh_ty_nz d : gwf d -> gnz d -> gnz (tanh_ty d).
  Proof.
    intros W N. pose proof (sto_nz _ _ _ (phat_sto d W N)) as P. unfold tanh_ty. cbv zeta.
    match goal with |- context [fold_left ?stp _ _] =>
      assert (X : forall ll ss, gnz (fst (fst (fst ss))) -> gnz (fst (fst (fst (fold_left stp ll ss))))) end.
    { induction ll; intros [[[t p] fk] fa]; simpl; auto. intros Ht. apply IHll. cbn [fst]. apply gadd_nz; auto. }
    specialize (X (ks (gord d)) (phat_of d, phat_of d, kofZ 16, kofZ 24) P).
    destruct (fold_left _ _ _) as [[[t p] fk] fa]. exact X.
  Qed.

  Lemma uexp_at_shift (F : R -> R) n c p : uexp F 0 n c -> uexp (fun y => F (y - p)) p n c.
  Proof.
    intros H. apply (uexp_affine F 1 0 p) in H.
    apply (uexp_fun_all (fun x => F (0 + 1 * (x - p)))); [intros; f_equal; ring|].
    apply (uexp_ext _ _ _ (fun i => c i * 1 ^ i)); auto. intros. rewrite pow1. ring.
  Qed.
  Lemma T_tan_ty n d f : T n d f -> T n (tan_ty d) (fun x => tan (f x - f origin)).
  Proof.
    intros H. destruct (tan_ty_psum h (gord d) d (T_wf _ _ _ H) (le_n _)) as (W & O & E).
    apply (T_comp n d (tan_ty d) f (fun y => tan (y - f origin)) tanc); auto.
    - apply tan_ty_nz; destruct H; auto.
    - apply uexp_at_shift, uexp_tan0.
  Qed.
  Lemma T_tanh_ty n d f : T n d f -> T n (tanh_ty d) (fun x => tanh (f x - f origin)).
  Proof.
    intros H. destruct (tanh_ty_psum h (gord d) d (T_wf _ _ _ H) (le_n _)) as (W & O & E).
    apply (T_comp n d (tanh_ty d) f (fun y => tanh (y - f origin)) tanhc); auto.
    - apply tanh_ty_nz; destruct H; auto.
    - apply uexp_at_shift, uexp_tanh0.
  Qed.

  Lemma near_neq0 (F : R -> R) (p : R) : continuity_pt F p -> F p <> 0 ->
    exists e, 0 < e /\ forall y, Rabs (y - p) <= e -> F y <> 0.
  Proof.
    intros C N. destruct (continuous_neq_0 F p C N) as (e & He). exists (e / 2).
    pose proof (cond_pos e). split; [lra|]. intros y Hy. replace y with (p + (y - p)) by ring. apply He. lra.
  Qed.

  Lemma T_tan n d f : T n d f -> cos (f origin) <> 0 -> T n (gtan d) (fun x => tan (f x)).
  Proof.
    intros H Hc. cc0 H. rewrite gtan_eq. pose proof (T_tan_ty n d f H) as Ht.
    set (p := f origin) in *.
    apply (T_ext n _ (fun x => (h (e_tan (constant_cf d)) + tan (f x - p)) / (h k1 - h (e_tan (constant_cf d)) * tan (f x - p)))).
    - destruct (T_nearP n d f (fun y => cos y <> 0) H) as (d1 & Hd1 & N1).
      { apply near_neq0; auto. apply continuity_cos. }
      destruct (T_nearP n d f (fun y => cos (y - p) <> 0) H) as (d2 & Hd2 & N2).
      { destruct (near_neq0 cos 0 (continuity_cos 0)) as (e & He & Ne); [rewrite cos_0; lra|].
        exists e. split; auto. intros y Hy. apply Ne. replace (y - p - 0) with (y - p) by ring. auto. }
      exists (Rmin d1 d2). split; [apply Rmin_pos; auto|]. intros x Hx.
      assert (X1 : within x d1) by (intros s; eapply Rle_trans; [apply Hx|apply Rmin_l]).
      assert (X2 : within x d2) by (intros s; eapply Rle_trans; [apply Hx|apply Rmin_r]).
      specialize (N1 x X1). specialize (N2 x X2). cbv beta in *.
      rewrite (hom_tan h), (hom_1 h), <- E. cbn [e_tan ElemR k1 OpsR].
      replace (f x) with (p + (f x - p)) in N1 |- * by ring.
      rewrite (Rplus_comm p (f x - p)) at 1 2. 
      replace (f x - p + p - p) with (f x - p) by ring. set (y := f x - p) in *.
      assert (Q : 1 - tan p * tan y = cos (p + y) / (cos p * cos y)).
      { rewrite cos_plus. unfold tan. field. split; auto. }
      symmetry. apply tan_plus; auto. rewrite Q. unfold Rdiv. apply Rmult_integral_contrapositive.
      split; auto. apply Rinv_neq_0_compat, Rmult_integral_contrapositive. split; auto.
    - apply T_div; [apply T_add_sg; auto|apply T_sub_sg, T_mul_sg; auto|].
      rewrite (hom_1 h). cbv beta. change (f origin) with p. replace (p - p) with 0 by ring. rewrite tan_0. cbn [k1 OpsR]. lra.
  Qed.
  Lemma tanh_plus x y : tanh (x + y) = (tanh x + tanh y) / (1 + tanh x * tanh y).
  Proof.
    assert (Hf : forall z, tanh z = (exp z * exp z - 1) / (exp z * exp z + 1)).
    { intros z. unfold tanh, sinh, cosh. rewrite exp_Ropp. pose proof (exp_pos z). field. repeat split; nra. }
    rewrite !Hf, exp_plus. pose proof (exp_pos x). pose proof (exp_pos y).
    set (a := exp x) in *. set (b := exp y) in *. 
    assert (0 < a * a) by nra. assert (0 < b * b) by nra. assert (0 < (a * a) * (b * b)) by nra.
    field. repeat split; nra.
  Qed.
  Lemma T_tanh n d f : T n d f -> T n (gtanh d) (fun x => tanh (f x)).
  Proof.
    intros H. cc0 H. rewrite gtanh_eq. pose proof (T_tanh_ty n d f H) as Ht.
    set (p := f origin) in *.
    apply (T_ext_all n _ (fun x => (h (e_tanh (constant_cf d)) + tanh (f x - p)) / (h k1 + h (e_tanh (constant_cf d)) * tanh (f x - p)))).
    - intros x. rewrite (hom_tanh h), (hom_1 h), <- E. cbn [e_tanh ElemR k1 OpsR].
      rewrite <- tanh_plus. f_equal. ring.
    - apply T_div; [apply T_add_sg; auto|apply T_add_sg, T_mul_sg; auto|].
      rewrite (hom_1 h). cbv beta. change (f origin) with p. replace (p - p) with 0 by ring. unfold tanh. rewrite sinh_0. cbn [k1 OpsR]. unfold Rdiv. rewrite !Rmult_0_l, Rmult_0_r, Rplus_0_r. lra.
  Qed.

  Lemma T_atan n d f : T n d f -> (gord d <= 30)%nat \/ f origin = 0 -> T n (gatan d) (fun x => atan (f x)).
  Proof.
    intros H Ho. cc0 H. pose proof H as [W N O Ht].
    assert (S : sto [] 0 (gatan d) /\ gord d = 0%nat \/ sto (gsyms d) (gord d) (gatan d)).
    { destruct (gatan_weak d W N) as [X|X]; auto. destruct (Nat.eq_dec (gord d) 0); auto.
      right. apply gatan_sto; auto. }
    apply (T_comp n d (gatan d) f atan (atanc (f origin))); auto.
    - destruct S as [[[]]|[]]; auto.
    - destruct S as [[[]]|[]]; auto.
    - destruct S as [[[]]|[]]; auto.
    - apply uexp_atan. destruct Ho; [left|right]; auto.
    - rewrite E. apply (gatan_psum h); auto. simpl. nra.
  Qed.
  Lemma T_atanh n d f : T n d f -> -1 < f origin < 1 -> T n (gatanh d) (fun x => atanh_R (f x)).
  Proof.
    intros H Ho. cc0 H. pose proof H as [W N O Ht].
    assert (S : sto [] 0 (gatanh d) /\ gord d = 0%nat \/ sto (gsyms d) (gord d) (gatanh d)).
    { destruct (gatanh_weak d W N) as [X|X]; auto. destruct (Nat.eq_dec (gord d) 0); auto.
      right. apply gatanh_sto; auto. }
    apply (T_comp n d (gatanh d) f atanh_R (atanhc (f origin))); auto.
    - destruct S as [[[]]|[]]; auto.
    - destruct S as [[[]]|[]]; auto.
    - destruct S as [[[]]|[]]; auto.
    - apply uexp_atanh. auto.
    - rewrite E. apply (gatanh_psum h); auto.
  Qed.

  (** *** Functions defined from the others *)
  Lemma T_tan_quad n d f : T n d f -> (Z.of_nat (gord d) <= 65536)%Z -> cos (f origin) <> 0 ->
    T n (gtan_quad d) (fun x => tan (f x)).
  Proof.
    intros H L Hc. change (gtan_quad d) with (gdiv (gsin d) (gcos d)).
    apply (T_div n _ _ (fun x => sin (f x)) (fun x => cos (f x))); [apply T_sin|apply T_cos|]; auto.
  Qed.
  Lemma cosh_pos x : 0 < cosh x.
  Proof. unfold cosh. pose proof (exp_pos x). pose proof (exp_pos (- x)). lra. Qed.
  Lemma T_tanh_quad n d f : T n d f -> T n (gtanh_quad d) (fun x => tanh (f x)).
  Proof.
    intros H. change (gtanh_quad d) with (gdiv (gsinh d) (gcosh d)).
    apply (T_div n _ _ (fun x => sinh (f x)) (fun x => cosh (f x))); [apply T_sinh|apply T_cosh|]; auto.
    pose proof (cosh_pos (f origin)). lra.
  Qed.
  Lemma T_asinh n d f : T n d f -> T n (gasinh d) (fun x => asinh_R (f x)).
  Proof.
    intros H. unfold gasinh, asinh_R.
    assert (S : T n (gadd_sg k1 (gmul d d)) (fun x => 1 + f x * f x)).
    { apply (T_ext_all _ _ (fun x => h k1 + f x * f x)); [intros; rewrite (hom_1 h); reflexivity|].
      apply T_add_sg, T_mul; auto. }
    apply (T_log n _ (fun x => f x + sqrt (1 + f x * f x))).
    - apply T_add; auto. apply (T_sqrt n _ (fun x => 1 + f x * f x)); auto. nra.
    - cbv beta. set (p := f origin). assert (Q : p * p < 1 + p * p) by lra.
      apply sqrt_lt_1 in Q; [|nra|nra]. fold (Rsqr p) in Q. rewrite sqrt_Rsqr_abs in Q.
      pose proof (Rle_abs (- p)). rewrite Rabs_Ropp in *. unfold Rsqr in Q. lra.
  Qed.
  Lemma T_acosh n d f : T n d f -> 1 < f origin -> T n (gacosh d) (fun x => acosh_R (f x)).
  Proof.
    intros H Hp. unfold gacosh, acosh_R.
    assert (S : T n (gsub_gs (gmul d d) k1) (fun x => f x * f x - 1)).
    { apply (T_ext_all _ _ (fun x => f x * f x - h k1)); [intros; rewrite (hom_1 h); reflexivity|].
      apply T_sub_gs, T_mul; auto. }
    apply (T_log n _ (fun x => f x + sqrt (f x * f x - 1))).
    - apply T_add; auto. apply (T_sqrt n _ (fun x => f x * f x - 1)); auto. nra.
    - cbv beta. pose proof (sqrt_pos (f origin * f origin - 1)). lra.
  Qed.
  Lemma T_asin_arg n d f : T n d f -> -1 < f origin < 1 ->
    T n (gdiv d (gsqrt (gsub_sg k1 (gmul d d)))) (fun x => f x / sqrt (1 - f x * f x)).
  Proof.
    intros H Hp.
    assert (S : T n (gsub_sg k1 (gmul d d)) (fun x => 1 - f x * f x)).
    { apply (T_ext_all _ _ (fun x => h k1 - f x * f x)); [intros; rewrite (hom_1 h); reflexivity|].
      apply T_sub_sg, T_mul; auto. }
    apply (T_div n _ _ f (fun x => sqrt (1 - f x * f x))); auto.
    - apply (T_sqrt n _ (fun x => 1 - f x * f x)); auto. nra.
    - pose proof (sqrt_lt_R0 (1 - f origin * f origin) ltac:(nra)). lra.
  Qed.
  Lemma near_in n d f : T n d f -> -1 < f origin < 1 -> exists e, 0 < e /\ forall x, within x e -> -1 < f x < 1.
  Proof.
    intros H Hp. apply (T_nearP n d f (fun y => -1 < y < 1) H). set (p := f origin) in *.
    exists (Rmin (1 - p) (1 + p) / 2).
    assert (0 < Rmin (1 - p) (1 + p)) by (apply Rmin_pos; lra).
    split; [lra|]. intros y Hy. pose proof (Rmin_l (1 - p) (1 + p)). pose proof (Rmin_r (1 - p) (1 + p)).
    apply Rabs_le_between in Hy. lra.
  Qed.
  Lemma T_asin n d f : T n d f -> -1 < f origin < 1 -> (gord d <= 30)%nat \/ f origin = 0 ->
    T n (gasin d) (fun x => asin (f x)).
  Proof.
    intros H Hp Ho. unfold gasin.
    apply (T_ext n _ (fun x => atan (f x / sqrt (1 - f x * f x)))).
    - destruct (near_in n d f H Hp) as (e & He & N). exists e. split; auto. intros x Hx.
      rewrite asin_atan by (apply N; auto). reflexivity.
    - apply (T_atan n _ (fun x => f x / sqrt (1 - f x * f x))); [apply T_asin_arg; auto|].
      destruct Ho as [Ho|Ho].
      + left. pose proof (T_sto _ _ _ H) as S.
        assert (X : sto (gsyms d) (gord d) (gdiv d (gsqrt (gsub_sg k1 (gmul d d))))) by auto 8 with sto.
        rewrite (sto_ord _ _ _ X). auto.
      + right. rewrite Ho. unfold Rdiv. ring.
  Qed.
  Lemma T_acos n d f : T n d f -> -1 < f origin < 1 -> (gord d <= 30)%nat \/ f origin = 0 ->
    T n (gacos d) (fun x => acos (f x)).
  Proof.
    intros H Hp Ho. unfold gacos.
    apply (T_ext n _ (fun x => h (kmul (kdiv k1 (kofZ 2)) e_pi) - asin (f x))).
    - destruct (near_in n d f H Hp) as (e & He & N). exists e. split; auto. intros x Hx.
      rewrite acos_asin by (specialize (N x Hx); lra).
      rewrite (hom_mul h), (hom_div h), (hom_1 h), (hom_ofZ h), (hom_pi h). simpl. lra.
    - apply T_sub_sg, T_asin; auto.
  Qed.
  Lemma T_pow n a b f g : T n a f -> T n b g -> 0 < f origin -> T n (gpow a b) (fun x => Rpower (f x) (g x)).
  Proof.
    intros Ha Hb Hp. unfold gpow, Rpower.
    apply (T_exp n _ (fun x => g x * ln (f x))). apply T_mul; auto. apply T_log; auto.
  Qed.

  Lemma seq_snoc a k : seq a (S k) = seq a k ++ [(a + k)%nat].
  Proof. apply seq_S. Qed.
  Lemma T_pow_loop n d f k : T n d f -> T n (gpow_loop d (S k)) (fun x => f x ^ S k).
  Proof.
    intros H. unfold gpow_loop. replace (S k - 1)%nat with k by lia. induction k.
    - simpl. apply (T_ext_all _ _ f); [intros; ring|auto].
    - rewrite seq_S, fold_left_app. cbn [fold_left].
      apply (T_ext_all _ _ (fun x => f x ^ S k * f x)); [intros; simpl; ring|]. apply T_mul; auto.
  Qed.
  Lemma T_pow_neg n d f k : T n d f -> f origin <> 0 ->
    T n (fold_left (fun retval (_ : nat) => gdiv retval d) (seq 1 k) (gdiv_sg k1 d)) (fun x => / (f x) ^ S k).
  Proof.
    intros H Hp. destruct (T_nearP n d f (fun y => y <> 0) H) as (e & He & N).
    { exists (Rabs (f origin) / 2). pose proof (Rabs_pos_lt _ Hp). split; [lra|]. intros y Hy E. subst y.
      replace (0 - f origin) with (- f origin) in Hy by ring. rewrite Rabs_Ropp in Hy. lra. }
    induction k.
    - simpl. apply (T_ext n _ (fun x => h k1 / f x)).
      + exists e. split; auto. intros x Hx. rewrite (hom_1 h). cbn [k1 OpsR]. field. apply N; auto.
      + apply T_div_sg; auto.
    - rewrite seq_S, fold_left_app. cbn [fold_left].
      apply (T_ext n _ (fun x => / f x ^ S k / f x)).
      + exists e. split; auto. intros x Hx. specialize (N x Hx). cbv beta in N. cbn [pow]. field.
        split; auto. apply pow_nonzero; auto.
      + apply T_div; auto.
  Qed.
  Lemma T_pow_int n d f z : T n d f -> ((z < 0)%Z -> f origin <> 0) -> T n (gpow_int d z) (fun x => powerRZ (f x) z).
  Proof.
    intros H Hz. unfold gpow_int. destruct (Z.ltb_spec z 0) as [L|L].
    - destruct (Z.to_nat (- z)) as [|k] eqn:Ek; [lia|].
      replace (S k - 1)%nat with k by lia.
      apply (T_ext_all n _ (fun x => / f x ^ S k)); [|apply T_pow_neg; auto].
      intros x. destruct z as [|q|q]; try lia. simpl powerRZ. simpl Z.opp in Ek. rewrite <- Ek. reflexivity.
    - destruct (Z.ltb_spec 0 z) as [L'|L'].
      + destruct (Z.to_nat z) as [|k] eqn:Ek; [lia|].
        apply (T_ext_all n _ (fun x => f x ^ S k)); [|apply T_pow_loop; auto].
        intros x. destruct z as [|q|q]; try lia. simpl powerRZ. simpl in Ek. rewrite <- Ek. reflexivity.
      + assert (z = 0%Z) by lia. subst z.
        apply (T_ext_all n _ (fun x => (f x - f x) + h k1)).
        * intros x. rewrite (hom_1 h). simpl. ring.
        * apply T_add_gs, T_sub; auto.
  Qed.

  Lemma T_pow_series n d f (alpha : A) : T n d f -> powok (f origin) (h alpha) ->
    sto (gsyms d) (gord d) (gpow_series d alpha) ->
    T n (gpow_series d alpha) (fun x => rpow (f x) (h alpha)).
  Proof.
    intros H Hp S. cc0 H.
    apply (T_comp n d (gpow_series d alpha) f (fun y => rpow y (h alpha)) (powc (f origin) (h alpha))); auto.
    - exact (sto_wf _ _ _ S).
    - exact (sto_nz _ _ _ S).
    - left. exact (sto_ord _ _ _ S).
    - apply uexp_rpow; auto.
    - rewrite E. apply (gpow_series_psum h); auto. destruct H; auto.
  Qed.

  Lemma rpow_nat x k : rpow x (INR k) = x ^ k.
  Proof.
    unfold rpow. destruct (Rlt_dec 0 x) as [L|L]; [apply Rpower_pow; auto|].
    assert (E : Int_part (INR k) = Z.of_nat k).
    { rewrite INR_IZR_INZ. apply Int_part_IZR. }
    rewrite E, INR_IZR_INZ. destruct (Req_EM_T _ _) as [_|C]; [|congruence].
    symmetry. apply pow_powerRZ.
  Qed.

  Definition pow_loops (alpha : A) : bool := (keqb (kofZ (e_toint alpha)) alpha && kltb k0 alpha)%bool.
  Lemma T_pow_real n d f (alpha : A) : T n d f ->
    (pow_loops alpha = true -> exists k, e_toint alpha = Z.of_nat (S k) /\ h alpha = INR (S k)) ->
    (pow_loops alpha = false -> powok (f origin) (h alpha)) ->
    T n (gpow_real d alpha) (fun x => rpow (f x) (h alpha)).
  Proof.
    intros H H1 H2. pose proof (gpow_real_sto d (T_wf _ _ _ H) (T_nz _ _ _ H) alpha) as S.
    rewrite gpow_real_cases in *. fold (pow_loops alpha) in *. destruct (pow_loops alpha).
    - destruct (H1 eq_refl) as (k & E1 & E2). rewrite E1, Nat2Z.id.
      apply (T_ext_all n _ (fun x => f x ^ Datatypes.S k)); [|apply T_pow_loop; auto].
      intros x. rewrite E2. symmetry. apply rpow_nat.
    - apply T_pow_series; auto.
  Qed.

  Lemma T_of_const n d f : T n d f -> gdegree d = 0%nat -> T n (gconst (constant_cf d)) f.
  Proof.
    intros [W N O Ht] D. apply (T_mk [] 0%nat); [apply sto_const|auto|].
    assert (C : isconst h d (h (constant_cf d))).
    { split; auto. assert (W' : gwf (mkG (gp d) 0)).
      { destruct W as [W1 W2]. split; auto. simpl. apply pdegree_le. unfold gdegree in D. lia. }
      pose proof (proj2 (order0_const (mkG (gp d) 0) W' eq_refl)) as E.
      rewrite (constant_cf_scc h) in E |- * by auto. exact E. }
    unfold Taylor.tay. apply (bigO_ext _ (fun x => f x - hval h d x)); auto.
    intros x. rewrite (hval_const _ _ x C). f_equal. symmetry. apply hval_const. apply (isconst_gconst h).
  Qed.
  Lemma uexp_Rpower b p n : exists c, uexp (Rpower b) p n c.
  Proof.
    pose proof (uexp_affine exp (ln b) (p * ln b) p n _ (uexp_exp (p * ln b) n)) as H.
    eexists. eapply uexp_fun_all; [|exact H]. intros x. unfold Rpower. f_equal. ring.
  Qed.
  Lemma T_pow_sg n d f (b : A) : T n d f -> 0 < h b -> T n (gpow_sg b d) (fun x => Rpower (h b) (f x)).
  Proof.
    intros H Hb. unfold gpow_sg. destruct (Nat.eqb_spec (gdegree d) 0) as [D|D].
    - pose proof (T_of_const n d f H D) as H'. cc0 H. pose proof (T_at0 _ _ _ H') as E'.
      destruct (uexp_Rpower (h b) (f origin) 0) as (c & Hc).
      apply (T_comp n (gconst (constant_cf d)) _ f (Rpower (h b)) c); auto.
      + apply gconst_gwf.
      + apply gconst_nz.
      + simpl. pose proof (uexp_at0 _ _ _ _ Hc) as X. rewrite <- X.
        etransitivity; [apply (gden_const h)|]. rewrite (hom_epow h), E. cbn [e_pow ElemR].
        rewrite rpow_pos by auto. reflexivity.
    - apply (T_ext_all n _ (fun x => exp (h (e_log b) * f x))).
      + intros x. rewrite (hom_log h). unfold Rpower. cbn [e_log ElemR]. f_equal. ring.
      + apply (T_exp n _ (fun x => h (e_log b) * f x)). apply T_mul_sg; auto.
  Qed.

  Lemma T_abs n d f : (forall c : A, keqb c k0 = false -> keqb (kopp c) k0 = false) ->
    T n d f -> f origin <> 0 ->
    (if (kltb k0 (constant_cf d) || keqb (constant_cf d) k0)%bool then 0 <= f origin else f origin <= 0) ->
    T n (gabs d) (fun x => Rabs (f x)).
  Proof.
    intros Hneg H Hp Ht. unfold gabs.
    assert (P : exists e, 0 < e /\ forall x, within x e -> 0 < f x * f origin).
    { apply (T_nearP n d f (fun y => 0 < y * f origin) H). exists (Rabs (f origin) / 2).
      pose proof (Rabs_pos_lt _ Hp). split; [lra|]. intros y Hy. apply Rabs_le_between in Hy.
      unfold Rabs in *. destruct (Rcase_abs (f origin)); nra. }
    destruct P as (e & He & P). destruct (_ || _)%bool.
    - apply (T_ext n _ f); auto. exists e. split; auto. intros x Hx. specialize (P x Hx).
      rewrite Rabs_right; auto. nra.
    - apply (T_ext n _ (fun x => - f x)); [|apply T_neg; auto]. exists e. split; auto. intros x Hx.
      specialize (P x Hx). rewrite Rabs_left; auto. nra.
  Qed.

  (** The methods of the Python bindings. *)
  Lemma T_log10 n d f : T n d f -> 0 < f origin -> T n (glog10 d) (fun x => ln (f x) / ln 10).
  Proof.
    intros H Hp. unfold glog10. apply (T_ext_all n _ (fun x => ln (f x) / h (e_log (kofZ 10)))).
    - intros x. rewrite (hom_log h), (hom_ofZ h). reflexivity.
    - apply T_div_gs, T_log; auto.
  Qed.
  Lemma T_log2 n d f : T n d f -> 0 < f origin -> T n (glog2 d) (fun x => ln (f x) / ln 2).
  Proof.
    intros H Hp. unfold glog2. apply (T_ext_all n _ (fun x => ln (f x) / h (e_log (kofZ 2)))).
    - intros x. rewrite (hom_log h), (hom_ofZ h). reflexivity.
    - apply T_div_gs, T_log; auto.
  Qed.
  Lemma T_log1p n d f : T n d f -> -1 < f origin -> T n (glog1p d) (fun x => ln (f x + 1)).
  Proof.
    intros H Hp. unfold glog1p. apply (T_log n _ (fun x => f x + 1)); [|lra].
    apply (T_ext_all n _ (fun x => f x + h k1)); [intros; rewrite (hom_1 h); reflexivity|]. apply T_add_gs; auto.
  Qed.
  Lemma T_expm1 n d f : T n d f -> T n (gexpm1 d) (fun x => exp (f x) - 1).
  Proof.
    intros H. unfold gexpm1. apply (T_ext_all n _ (fun x => exp (f x) - h k1)); [intros; rewrite (hom_1 h); reflexivity|].
    apply T_sub_gs, T_exp; auto.
  Qed.
End TayFun.
