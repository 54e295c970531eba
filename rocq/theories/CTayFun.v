(** * The operations and functions of gduals with complex coefficients compute
    Taylor expansions (proof file).

    [T h n g f]: the gdual g, with its coefficients read through h, is the
    Taylor expansion of order n of f.  Its declared order is at least n, or 0
    (a constant, as made by the constructor from a number). *)

From Coq Require Import String Reals Lra Lia Psatz List ZArith Setoid Morphisms Ring Field Bool.
From Coquelicot Require Import Coquelicot.
From Verif Require Import Ops Syms SymsFacts Poly PolyFacts Sem Den Gdual GdualFacts Functions FunStruct Spec CoefFacts FunAlg ElemR Cplx CUni CFun CFun2 CTaylor.
Import ListNotations.
Open Scope R_scope.

Notation origin := (fun _ : string => RtoC 0).

(** A Lipschitz function of a small quantity. *)
Lemma bigO_lip (G : C -> C) k f : (exists C d, 0 < d /\ 0 <= C /\ forall y, Cmod y <= d -> Cmod (G y) <= C * Cmod y) ->
  bigO (S k) f -> bigO (S k) (fun x => G (f x))%C.
Proof.
  intros (C & d & Hd & HC & H) Hf. pose proof (bigO_le 1 _ _ (ltac:(lia) : (1 <= S k)%nat) Hf) as H1.
  destruct H1 as (C1 & d1 & Hd1 & HC1 & H1). destruct Hf as (C' & d' & Hd' & HC' & H').
  assert (P : 0 < d / (C1 + 1)) by (apply Rdiv_lt_0_compat; lra).
  exists (C * C'), (Rmin (Rmin d1 d') (d / (C1 + 1))). split; [repeat apply Rmin_pos; auto|].
  split; [apply Rmult_le_pos; auto|]. intros x r W Hr.
  assert (X1 : r <= d1) by (eapply Rle_trans; [exact Hr|eapply Rle_trans; [apply Rmin_l|apply Rmin_l]]).
  assert (X2 : r <= d') by (eapply Rle_trans; [exact Hr|eapply Rle_trans; [apply Rmin_l|apply Rmin_r]]).
  assert (X3 : r <= d / (C1 + 1)) by (eapply Rle_trans; [exact Hr|apply Rmin_r]).
  assert (P0 := within_pos x r W). specialize (H1 x r W X1). rewrite pow_1 in H1. specialize (H' x r W X2).
  assert (Y : Cmod (f x) <= d).
  { apply (Rmult_le_compat_r (C1 + 1)) in X3; [|lra].
    replace (d / (C1 + 1) * (C1 + 1)) with d in X3 by (field; lra). nra. }
  eapply Rle_trans; [apply H; auto|]. rewrite Rmult_assoc. apply Rmult_le_compat_l; auto.
Qed.

(** The power of a complex number with an integer exponent (1 / 0 = 0). *)
Definition Cpowz (z : C) (k : Z) : C :=
  match k with Z0 => RtoC 1 | Zpos q => Cpw z (Pos.to_nat q) | Zneg q => / Cpw z (Pos.to_nat q) end%C.
Lemma Cpower_natS z k : Cpower z (RtoC (INR (S k))) = Cpw z (S k).
Proof.
  destruct (Ceqb z (RtoC 0)) eqn:E.
  - apply Ceqb_eq in E. subst z. rewrite Cpw_S. unfold Cpower.
    replace (Ceqb (RtoC 0) (RtoC 0)) with true by (symmetry; apply Ceqb_eq; auto).
    rewrite Ceqb_neq; [ring|]. apply RtoC_neq0. apply not_0_INR. lia.
  - apply Cpower_nat. intros X. apply Ceqb_eq in X. congruence.
Qed.

Section SpR.
  Context {K : Type} {o : Ops K} {fl : FieldLaws o}.
  Variable tr : option nat.
  Add Ring spring : (sp_ring_theory tr) (setoid (seqv_equiv tr) (sp_ring_ext tr)).
  Lemma scon_cancel (c : K) (l : sp K) : c <> k0 -> seqv tr (smul (smul (scon (kdiv k1 c)) l) (scon c)) l.
  Proof.
    intros Hc. transitivity (smul (smul (scon c) (scon (kdiv k1 c))) l); [ring|].
    pose proof (scon_inv tr c Hc) as H. rewrite H. ring.
  Qed.
End SpR.

Section TayFun.
  Context {A : Type} {oA : Ops A} {eA : Elem A}.
  Variable h : A -> C.
  Context {hh : Hom oA OpsC h} {he : HomElem eA ElemC h}.
  Notation gd := (gden h).
  Notation tay := (tay h).

  Record T (n : nat) (g : gdual A) (f : point -> C) : Prop := mkT {
    T_wf : gwf g;
    T_nz : gnz g;
    T_ord : (n <= gord g)%nat \/ gord g = 0%nat;
    T_tay : tay n g f
  }.

  Lemma T_sto n g f : T n g f -> sto (gsyms g) (gord g) g.
  Proof. intros []. apply sto_self; auto. Qed.
  Lemma T_at0 n g f : T n g f -> f origin = h (constant_cf g).
  Proof. intros []. eapply tay_at0; eauto. Qed.
  Lemma T_ext n g f f' : (exists d, 0 < d /\ forall x, within x d -> f x = f' x) -> T n g f -> T n g f'.
  Proof. intros E []. constructor; auto. eapply tay_ext; eauto. Qed.
  Lemma T_ext_all n g f f' : (forall x, f x = f' x) -> T n g f -> T n g f'.
  Proof. intros E. apply T_ext. exists 1. split; [lra|auto]. Qed.
  Lemma T_le n m g f : (n <= m)%nat -> T m g f -> T n g f.
  Proof. intros L []. constructor; auto; [intuition lia|]. eapply tay_le; eauto. Qed.

  Lemma T_mk V N n g f : sto V N g -> (n <= N)%nat \/ N = 0%nat -> tay n g f -> T n g f.
  Proof. intros [W Z O S] H Hf. constructor; auto. rewrite O. auto. Qed.

  (** Gduals of order 0. *)
  Lemma order0_const g : gwf g -> gord g = 0%nat -> isconst h g (h (constant_cf g)).
  Proof.
    intros W O. split; auto. rewrite (constant_cf_scc h) by auto.
    apply (seqv_bounded 0).
    - rewrite <- O. apply (den_sdle h), W.
    - constructor; [simpl; lia|constructor].
    - constructor. intros F HF. assert (X := vanish_minus_cc (gd g) (den_okdeg h (gp g)) F).
      rewrite Lf_ssub in X. simpl in HF. cbn [ksub k0 OpsC] in X.
      specialize (X ltac:(intros; apply HF; lia)). apply Csub0, X.
  Qed.
  Lemma hval_const g c x : isconst h g c -> hval h g x = c.
  Proof.
    intros [W E]. destruct (common_vars h [g]) as (V & HV); [constructor; auto|].
    destruct (HV g) as [A1 A2]; [simpl; auto|].
    rewrite A2. unfold lev. rewrite (seqv_elim E) by (simpl; tauto). apply (Lf_ev_con V x).
  Qed.

  (** The value near the expansion point. *)
  Lemma T_small n g f : T n g f -> bigO 1 (fun x => f x - f origin)%C.
  Proof.
    intros H. pose proof (T_at0 _ _ _ H) as H0. destruct H as [W _ _ Ht].
    destruct (common_vars h [g]) as (V & HV); [constructor; auto|]. destruct (HV g) as [B1 B2]; [simpl; auto|].
    apply (bigO_ext _ (fun x => (f x - hval h g x) + lev V (ghat h g) x)%C).
    - intros x. unfold ghat. rewrite lev_sub, lev_con, B2, H0, (constant_cf_scc h) by auto. ring.
    - apply bigO_add; [eapply bigO_le; [|exact Ht]; lia|]. apply bigO_vanish; [|apply ghat_vanish].
      unfold ghat. apply okV_ssub; auto. apply okV_scon.
  Qed.
  Lemma T_near n g f e : T n g f -> 0 < e -> exists d, 0 < d /\ forall x, within x d -> Cmod (f x - f origin)%C <= e.
  Proof.
    intros H He. destruct (T_small _ _ _ H) as (C & d & Hd & HC & B).
    exists (Rmin d (e / (C + 1))). assert (P : 0 < e / (C + 1)) by (apply Rdiv_lt_0_compat; lra).
    split; [apply Rmin_pos; auto|]. intros x Hx. set (r := Rmin d (e / (C + 1))) in *.
    assert (L1 : r <= d) by apply Rmin_l. assert (L2 : r <= e / (C + 1)) by apply Rmin_r.
    assert (P0 := within_pos x r Hx). specialize (B x r Hx L1). rewrite pow_1 in B.
    apply (Rmult_le_compat_r (C + 1)) in L2; [|lra].
    replace (e / (C + 1) * (C + 1)) with e in L2 by (field; lra). nra.
  Qed.
  Lemma T_nearP n g f (P : C -> Prop) : T n g f -> (exists e, 0 < e /\ forall y, Cmod (y - f origin)%C <= e -> P y) ->
    exists d, 0 < d /\ forall x, within x d -> P (f x).
  Proof.
    intros H (e & He & HP). destruct (T_near _ _ _ e H He) as (d & Hd & N). exists d. split; auto.
  Qed.

  (** *** Arithmetic *)
  Lemma max_ord n a b : (n <= a)%nat \/ a = 0%nat -> (n <= b)%nat \/ b = 0%nat ->
    (n <= Nat.max a b)%nat \/ Nat.max a b = 0%nat.
  Proof. lia. Qed.

  Lemma T_const n v : T n (gconst v) (fun _ => h v)%C.
  Proof. apply (T_mk [] 0%nat); [apply sto_const|auto|apply (tay_const h)]. Qed.
  Lemma T_add n a b f g : T n a f -> T n b g -> T n (gadd a b) (fun x => f x + g x)%C.
  Proof.
    intros Ha Hb. eapply T_mk; [exact (sto_add2 _ _ _ _ _ _ (T_sto _ _ _ Ha) (T_sto _ _ _ Hb))| |].
    - destruct Ha, Hb. apply max_ord; auto.
    - destruct Ha, Hb. apply (tay_add h); auto.
  Qed.
  Lemma T_sub n a b f g : T n a f -> T n b g -> T n (gsub a b) (fun x => f x - g x)%C.
  Proof.
    intros Ha Hb. eapply T_mk; [exact (sto_sub2 _ _ _ _ _ _ (T_sto _ _ _ Ha) (T_sto _ _ _ Hb))| |].
    - destruct Ha, Hb. apply max_ord; auto.
    - destruct Ha, Hb. apply (tay_sub h); auto.
  Qed.
  Lemma T_neg n a f : (forall c : A, keqb c k0 = false -> keqb (kopp c) k0 = false) ->
    T n a f -> T n (gneg a) (fun x => - f x)%C.
  Proof.
    intros Hneg Ha. constructor; destruct Ha; auto with gwf.
    - apply gneg_nz; auto.
    - apply (tay_neg h); auto.
  Qed.
  Ltac un L := let H := fresh in intros H; eapply T_mk; [apply L; exact (T_sto _ _ _ H)|destruct H; auto|destruct H].
  Lemma T_add_sg n v a f : T n a f -> T n (gadd_sg v a) (fun x => h v + f x)%C.
  Proof. un @sto_add_sg. apply (tay_add_sg h); auto. Qed.
  Lemma T_add_gs n v a f : T n a f -> T n (gadd_gs a v) (fun x => f x + h v)%C.
  Proof. un @sto_add_gs. apply (tay_add_gs h); auto. Qed.
  Lemma T_sub_sg n v a f : T n a f -> T n (gsub_sg v a) (fun x => h v - f x)%C.
  Proof. un @sto_sub_sg. apply (tay_sub_sg h); auto. Qed.
  Lemma T_sub_gs n v a f : T n a f -> T n (gsub_gs a v) (fun x => f x - h v)%C.
  Proof. un @sto_sub_gs. apply (tay_sub_gs h); auto. Qed.
  Lemma T_mul_sg n v a f : T n a f -> T n (gmul_sg v a) (fun x => h v * f x)%C.
  Proof. un @sto_mul_sg. apply (tay_mul_sg h); auto. Qed.
  Lemma T_mul_gs n v a f : T n a f -> T n (gmul_gs a v) (fun x => f x * h v)%C.
  Proof. un @sto_mul_gs. apply (tay_mul_gs h); auto. Qed.
  Lemma T_div_gs n v a f : T n a f -> T n (gdiv_gs a v) (fun x => f x / h v)%C.
  Proof. un @sto_div_gs. apply (tay_div_gs h); auto. Qed.

  Lemma sdle_ord g : gwf g -> sdle (gord g) (gd g).
  Proof. intros W. apply (den_sdle h), W. Qed.

  Lemma sdle_smul n m (l l' : sp C) : sdle n l -> sdle m l' -> sdle (n + m) (smul l l').
  Proof.
    intros H H'. unfold sdle, smul in *. rewrite Forall_forall in *. intros t Ht. apply in_flat_map in Ht.
    destruct Ht as (u & Hu & Ht). apply in_map_iff in Ht. destruct Ht as (v & <- & Hv). simpl.
    specialize (H u Hu). specialize (H' v Hv). lia.
  Qed.

  Lemma T_mul n a b f g : T n a f -> T n b g -> T n (gmul a b) (fun x => f x * g x)%C.
  Proof.
    intros Ha Hb. assert (S := sto_mul2 _ _ _ _ _ _ (T_sto _ _ _ Ha) (T_sto _ _ _ Hb)).
    eapply T_mk; [exact S| |].
    { destruct Ha, Hb. apply max_ord; auto. }
    assert (Wr := sto_wf _ _ _ S). assert (Or := sto_ord _ _ _ S). clear S.
    destruct Ha as [Wa Na Oa Ha], Hb as [Wb Nb Ob Hb].
    destruct (le_lt_dec n (Nat.max (gord a) (gord b))) as [L|L]; [apply (tay_mul h); auto|].
    assert (Za : gord a = 0%nat) by lia. assert (Zb : gord b = 0%nat) by lia.
    destruct (common_vars h [a; b; gmul a b]) as (V & HV).
    { repeat (apply List.Forall_cons; [solve [auto]|]); apply List.Forall_nil. }
    destruct (HV a) as [A1 A2]; [simpl; auto|]. destruct (HV b) as [B1 B2]; [simpl; auto|].
    destruct (HV (gmul a b)) as [R1 R2]; [simpl; auto|].
    apply (tay_of h n _ _ V (smul (gd a) (gd b))); auto with gwf.
    - apply okV_smul; auto.
    - apply seqv_full, (seqv_bounded 0).
      + replace 0%nat with (gord (gmul a b)) by lia. apply sdle_ord; auto.
      + apply (sdle_smul 0 0); [rewrite <- Za|rewrite <- Zb]; apply sdle_ord; auto.
      + apply (gden_mul h); auto. lia.
    - apply (bigO_ext _ (fun x => (f x - hval h a x) * g x + hval h a x * (g x - hval h b x))%C).
      + intros x. rewrite lev_mul, A2, B2. ring.
      + apply bigO_add.
        * rewrite <- (Nat.add_0_r (S n)). apply bigO_mul; auto. exact (tay_bounded h n b g Wb Hb).
        * apply (bigO_mul 0 (S n)); auto. apply (hval_bounded h); auto.
  Qed.

  Lemma T_div n a b f g : T n a f -> T n b g -> g origin <> RtoC 0 -> T n (gdiv a b) (fun x => f x / g x)%C.
  Proof.
    intros Ha Hb Hg. assert (S := sto_div2 _ _ _ _ _ _ (T_sto _ _ _ Ha) (T_sto _ _ _ Hb)).
    eapply T_mk; [exact S| |].
    { destruct Ha, Hb. apply max_ord; auto. }
    assert (Wr := sto_wf _ _ _ S). assert (Or := sto_ord _ _ _ S). clear S.
    rewrite (T_at0 _ _ _ Hb) in Hg.
    destruct Ha as [Wa Na Oa Ha], Hb as [Wb Nb Ob Hb].
    apply (tay_quot h n a _ b); auto.
    destruct (le_lt_dec n (gord b)) as [L|L]; [apply (gden_div_mul h); auto|].
    assert (Zb : gord b = 0%nat) by lia.
    destruct (le_lt_dec n (gord a)) as [L'|L'].
    - assert (Cb := order0_const b Wb Zb). assert (E := proj2 Cb).
      rewrite (gden_div_const h n a b _ Wa Cb Hg L'), (seqv_full (Some n) _ _ E).
      exact (scon_cancel (Some n) (h (constant_cf b)) (gd a) Hg).
    - assert (Za : gord a = 0%nat) by lia. apply seqv_full, (seqv_bounded 0).
      + apply (sdle_smul 0 0); [replace 0%nat with (gord (gdiv a b)) by lia|rewrite <- Zb]; apply sdle_ord; auto.
      + rewrite <- Za. apply sdle_ord; auto.
      + apply (gden_div_mul h); auto. lia.
  Qed.
  Lemma T_div_sg n v b g : T n b g -> g origin <> RtoC 0 -> T n (gdiv_sg v b) (fun x => h v / g x)%C.
  Proof.
    intros Hb Hg. assert (S := sto_div_sg _ _ v _ (T_sto _ _ _ Hb)).
    eapply T_mk; [exact S|destruct Hb; auto|].
    assert (Wr := sto_wf _ _ _ S). assert (Or := sto_ord _ _ _ S). clear S.
    rewrite (T_at0 _ _ _ Hb) in Hg. destruct Hb as [Wb Nb Ob Hb].
    apply (tay_quot h n (gconst v) _ b); auto using (tay_const h) with gwf.
    transitivity (scon (h v)); [|symmetry; apply (gden_const h)].
    destruct (le_lt_dec n (gord b)) as [L|L]; [apply (gden_div_sg_mul h); auto|].
    assert (Zb : gord b = 0%nat) by lia. apply seqv_full, (seqv_bounded 0).
    + apply (sdle_smul 0 0); [replace 0%nat with (gord (gdiv_sg v b)) by lia|rewrite <- Zb]; apply sdle_ord; auto.
    + constructor; [simpl; lia|constructor].
    + apply (gden_div_sg_mul h); auto. lia.
  Qed.

  (** *** Composition with a function of one variable *)
  Lemma T_comp n d r f F c : T n d f -> gwf r -> gnz r -> (gord r = gord d \/ gord r = 0%nat /\ gord d = 0%nat) ->
    cuexp F (f origin) (gord d) c ->
    seqv (Some (gord d)) (gd r) (psum c (gord d) (ghat h d)) ->
    T n r (fun x => F (f x))%C.
  Proof.
    intros Hd Wr Nr Or HF E. pose proof (T_at0 _ _ _ Hd) as H0. destruct Hd as [W N O Ht].
    constructor; auto; [intuition lia|]. rewrite H0 in HF.
    destruct (le_lt_dec n (gord d)) as [L|L].
    - apply (tay_comp h n d r f F c); auto; [eapply cuexp_le; eauto|].
      rewrite (seqv_le _ _ _ _ L E). apply psum_trunc; auto. apply ghat_vanish.
    - assert (Zd : gord d = 0%nat) by lia. assert (Zr : gord r = 0%nat) by lia.
      assert (Cd := order0_const d W Zd). assert (Cr := order0_const r Wr Zr).
      rewrite Zd in *. simpl in E.
      assert (X : h (constant_cf r) = c 0%nat).
      { rewrite (constant_cf_scc h) by auto. rewrite (scc_eqv _ _ _ E). apply scc_scon. }
      unfold CTaylor.tay.
      apply (bigO_ext _ (fun x => F (h (constant_cf d) + (f x - hval h d x)) - cusum c 0 (f x - hval h d x))%C).
      + intros x. rewrite (hval_const _ _ x Cd), (hval_const _ _ x Cr), cusum_0, X. f_equal. f_equal. ring.
      + apply (bigO_lip (fun y => F (h (constant_cf d) + y) - cusum c 0 y)%C); auto.
        destruct HF as (C & e & He & HC & B). exists C, e. split; [auto|]. split; [auto|].
        intros y Hy. specialize (B y Hy). rewrite pow_1 in B. auto.
  Qed.

  Ltac comp L := eapply T_comp; [eassumption|apply (sto_wf _ _ _ L)|apply (sto_nz _ _ _ L)|left; exact (sto_ord _ _ _ L)| |].
  Ltac cc0 H := match type of H with T ?n ?d ?f => let E := fresh "E" in pose proof (T_at0 n d f H) as E end.

  Lemma T_exp n d f : T n d f -> T n (gexp d) (fun x => Cexp (f x)).
  Proof.
    intros H. cc0 H. pose proof (sto_exp _ _ _ (T_sto _ _ _ H)) as S. comp S.
    - apply cuexp_exp.
    - destruct H. rewrite E, (gexp_psum h) by auto.
      rewrite (psum_ext _ (fun i => Cexp (h (constant_cf d)) / RtoC (INR (fact i)))%C); [reflexivity|].
      intros i _. rewrite kfct_C. reflexivity.
  Qed.
  Lemma T_log n d f : T n d f -> nocut (f origin) -> T n (glog d) (fun x => Clog (f x)).
  Proof.
    intros H Hp. cc0 H. pose proof (sto_log _ _ _ (T_sto _ _ _ H)) as S. comp S.
    - apply cuexp_log; auto.
    - destruct H. rewrite E in *. apply (glog_psum h); auto. apply nocut_neq0. auto.
  Qed.
  Ltac shape L := let H := fresh in intros H; destruct H as [W N O S]; subst; apply L; auto.
  Lemma T_sin n d f : T n d f -> (Z.of_nat (gord d) <= 65536)%Z -> T n (gsin d) (fun x => Csin (f x)).
  Proof.
    intros H L. cc0 H. pose proof (gsin_sto d (T_wf _ _ _ H) (T_nz _ _ _ H)) as S. comp S.
    - apply cuexp_sin.
    - destruct H as [W N O Ht]. rewrite E in *. exact (gsin_psum h (gord d) d W (le_n _) L).
  Qed.
  Lemma T_cos n d f : T n d f -> (Z.of_nat (gord d) <= 65536)%Z -> T n (gcos d) (fun x => Ccos (f x)).
  Proof.
    intros H L. cc0 H. pose proof (gcos_sto d (T_wf _ _ _ H) (T_nz _ _ _ H)) as S. comp S.
    - apply cuexp_cos.
    - destruct H as [W N O Ht]. rewrite E in *. exact (gcos_psum h (gord d) d W (le_n _) L).
  Qed.
  Lemma T_sinh n d f : T n d f -> T n (gsinh d) (fun x => Csinh (f x)).
  Proof.
    intros H. cc0 H. pose proof (gsinh_sto d (T_wf _ _ _ H) (T_nz _ _ _ H)) as S. comp S.
    - apply cuexp_sinh.
    - destruct H as [W N O Ht]. rewrite E in *. exact (gsinh_psum h (gord d) d W (le_n _)).
  Qed.
  Lemma T_cosh n d f : T n d f -> T n (gcosh d) (fun x => Ccosh (f x)).
  Proof.
    intros H. cc0 H. pose proof (gcosh_sto d (T_wf _ _ _ H) (T_nz _ _ _ H)) as S. comp S.
    - apply cuexp_cosh.
    - destruct H as [W N O Ht]. rewrite E in *. exact (gcosh_psum h (gord d) d W (le_n _)).
  Qed.

  Lemma phat_sto d : gwf d -> gnz d -> sto (gsyms d) (gord d) (phat_of d).
  Proof. intros. apply sto_sub_gs, sto_self; auto. Qed.
  Lemma fold_nz {S : Type} (step : gdual A * S -> nat -> gdual A * S) l st :
    (forall st i, gnz (fst st) -> gnz (fst (step st i))) -> gnz (fst st) -> gnz (fst (fold_left step l st)).
  Proof. intros Hs. revert st. induction l; simpl; auto. Qed.
  Lemma tan_ty_nz d : gwf d -> gnz d -> gnz (tan_ty d).
  Proof.
    intros W N. pose proof (sto_nz _ _ _ (phat_sto d W N)) as P. unfold tan_ty. cbv zeta.
    match goal with |- context [fold_left ?stp _ _] =>
      assert (X : forall ll ss, gnz (fst (fst (fst ss))) -> gnz (fst (fst (fst (fold_left stp ll ss))))) end.
    { induction ll; intros [[[t p] fk] fa]; simpl; auto. intros Ht. apply IHll. cbn [fst]. apply gadd_nz; auto. }
    specialize (X (ks (gord d)) (phat_of d, phat_of d, kofZ 16, kofZ 24) P).
    destruct (fold_left _ _ _) as [[[t p] fk] fa]. exact X.
  Qed.
  Lemma tanh_ty_nz d : gwf d -> gnz d -> gnz (tanh_ty d).
  Proof.
    intros W N. pose proof (sto_nz _ _ _ (phat_sto d W N)) as P. unfold tanh_ty. cbv zeta.
    match goal with |- context [fold_left ?stp _ _] =>
      assert (X : forall ll ss, gnz (fst (fst (fst ss))) -> gnz (fst (fst (fst (fold_left stp ll ss))))) end.
    { induction ll; intros [[[t p] fk] fa]; simpl; auto. intros Ht. apply IHll. cbn [fst]. apply gadd_nz; auto. }
    specialize (X (ks (gord d)) (phat_of d, phat_of d, kofZ 16, kofZ 24) P).
    destruct (fold_left _ _ _) as [[[t p] fk] fa]. exact X.
  Qed.

  Lemma T_tan_ty n d f : T n d f -> T n (tan_ty d) (fun x => Ctan (f x - f origin)%C).
  Proof.
    intros H. destruct (tan_ty_psum h (gord d) d (T_wf _ _ _ H) (le_n _)) as (W & O & E).
    apply (T_comp n d (tan_ty d) f (fun y => Ctan (y - f origin)%C) tanc); auto.
    - apply tan_ty_nz; destruct H; auto.
    - apply cuexp_at_shift, cuexp_tan0.
  Qed.
  Lemma T_tanh_ty n d f : T n d f -> T n (tanh_ty d) (fun x => Ctanh (f x - f origin)%C).
  Proof.
    intros H. destruct (tanh_ty_psum h (gord d) d (T_wf _ _ _ H) (le_n _)) as (W & O & E).
    apply (T_comp n d (tanh_ty d) f (fun y => Ctanh (y - f origin)%C) tanhc); auto.
    - apply tanh_ty_nz; destruct H; auto.
    - apply cuexp_at_shift, cuexp_tanh0.
  Qed.

  Lemma T_sincos0 n d f : T n d f -> exists e, 0 < e /\ forall x, within x e ->
    Ccos (f x - f origin)%C <> RtoC 0 /\ Ccosh (f x - f origin)%C <> RtoC 0.
  Proof.
    intros H.
    destruct (T_nearP n d f (fun y => Ccos (y - f origin)%C <> RtoC 0) H) as (e1 & He1 & N1).
    { apply (cont_neq0 (fun y => Ccos (y - f origin)%C)) with (n := 0%nat) (c := cosc).
      - apply cuexp_at_shift. eapply cuexp_ext; [|apply cuexp_cos]. intros i _. cbn beta. rewrite Csin_0, Ccos_0. ring.
      - replace (f origin - f origin)%C with (RtoC 0) by ring. rewrite Ccos_0. apply RtoC_neq0. lra. }
    destruct (T_nearP n d f (fun y => Ccosh (y - f origin)%C <> RtoC 0) H) as (e2 & He2 & N2).
    { apply (cont_neq0 (fun y => Ccosh (y - f origin)%C)) with (n := 0%nat) (c := coshc).
      - apply cuexp_at_shift. eapply cuexp_ext; [|apply cuexp_cosh]. intros i _. cbn beta. rewrite Csinh_0, Ccosh_0. ring.
      - replace (f origin - f origin)%C with (RtoC 0) by ring. rewrite Ccosh_0. apply RtoC_neq0. lra. }
    exists (Rmin e1 e2). split; [apply Rmin_pos; auto|]. intros x Hx. split.
    - apply N1. intros s. eapply Rle_trans; [apply Hx|apply Rmin_l].
    - apply N2. intros s. eapply Rle_trans; [apply Hx|apply Rmin_r].
  Qed.
  Lemma T_tan n d f : T n d f -> Ccos (f origin) <> RtoC 0 -> T n (gtan d) (fun x => Ctan (f x)).
  Proof.
    intros H Hc. cc0 H. rewrite gtan_eq. pose proof (T_tan_ty n d f H) as Ht.
    destruct (T_sincos0 n d f H) as (e & He & N).
    destruct (T_nearP n d f (fun y => Ccos y <> RtoC 0) H) as (e' & He' & N').
    { apply (cont_neq0 Ccos) with (n := 0%nat) (c := fun i => (Ccos (f origin) * cosc i - Csin (f origin) * sinc i)%C);
      [apply cuexp_cos|auto]. }
    set (p := f origin) in *.
    apply (T_ext n _ (fun x => (h (e_tan (constant_cf d)) + Ctan (f x - p)) / (h k1 - h (e_tan (constant_cf d)) * Ctan (f x - p)))%C).
    - exists (Rmin e e'). split; [apply Rmin_pos; auto|]. intros x Hx.
      assert (X1 : Ccos (f x - p)%C <> RtoC 0) by (apply N; intros s; eapply Rle_trans; [apply Hx|apply Rmin_l]).
      assert (X2 : Ccos (f x) <> RtoC 0) by (apply N'; intros s; eapply Rle_trans; [apply Hx|apply Rmin_r]).
      rewrite (hom_tan h), (hom_1 h), <- E. change (e_tan (Elem:=ElemC)) with Ctan. cbn [k1 OpsC].
      symmetry. replace (f x) with (p + (f x - p))%C at 1 by ring. apply Ctan_add; auto.
      replace (p + (f x - p))%C with (f x) by ring. auto.
    - apply T_div; [apply T_add_sg; auto|apply T_sub_sg, T_mul_sg; auto|].
      rewrite (hom_1 h). cbv beta. change (f origin) with p. replace (p - p)%C with (RtoC 0) by ring.
      unfold Ctan. rewrite Csin_0, Ccos_0. cbn [k1 OpsC].
      match goal with |- ?u <> _ => replace u with (RtoC 1) by (unfold Cdiv; ring) end. apply RtoC_neq0. lra.
  Qed.
  Lemma T_tanh n d f : T n d f -> Ccosh (f origin) <> RtoC 0 -> T n (gtanh d) (fun x => Ctanh (f x)).
  Proof.
    intros H Hc. cc0 H. rewrite gtanh_eq. pose proof (T_tanh_ty n d f H) as Ht.
    destruct (T_sincos0 n d f H) as (e & He & N).
    destruct (T_nearP n d f (fun y => Ccosh y <> RtoC 0) H) as (e' & He' & N').
    { apply (cont_neq0 Ccosh) with (n := 0%nat) (c := fun i => (Ccosh (f origin) * coshc i + Csinh (f origin) * sinhc i)%C);
      [apply cuexp_cosh|auto]. }
    set (p := f origin) in *.
    apply (T_ext n _ (fun x => (h (e_tanh (constant_cf d)) + Ctanh (f x - p)) / (h k1 + h (e_tanh (constant_cf d)) * Ctanh (f x - p)))%C).
    - exists (Rmin e e'). split; [apply Rmin_pos; auto|]. intros x Hx.
      assert (X1 : Ccosh (f x - p)%C <> RtoC 0) by (apply N; intros s; eapply Rle_trans; [apply Hx|apply Rmin_l]).
      assert (X2 : Ccosh (f x) <> RtoC 0) by (apply N'; intros s; eapply Rle_trans; [apply Hx|apply Rmin_r]).
      rewrite (hom_tanh h), (hom_1 h), <- E. change (e_tanh (Elem:=ElemC)) with Ctanh. cbn [k1 OpsC].
      symmetry. replace (f x) with (p + (f x - p))%C at 1 by ring. apply Ctanh_add; auto.
      replace (p + (f x - p))%C with (f x) by ring. auto.
    - apply T_div; [apply T_add_sg; auto|apply T_add_sg, T_mul_sg; auto|].
      rewrite (hom_1 h). cbv beta. change (f origin) with p. replace (p - p)%C with (RtoC 0) by ring.
      unfold Ctanh. rewrite Csinh_0, Ccosh_0. cbn [k1 OpsC].
      match goal with |- ?u <> _ => replace u with (RtoC 1) by (unfold Cdiv; ring) end. apply RtoC_neq0. lra.
  Qed.

  Lemma T_atanh n d f : T n d f -> nocut (RtoC 1 + f origin)%C -> nocut (RtoC 1 - f origin)%C -> T n (gatanh d) (fun x => Catanh (f x)).
  Proof.
    intros H Ho1 Ho2. cc0 H. pose proof H as [W N O Ht].
    assert (S : sto [] 0 (gatanh d) /\ gord d = 0%nat \/ sto (gsyms d) (gord d) (gatanh d)).
    { destruct (gatanh_weak d W N) as [X|X]; auto. destruct (Nat.eq_dec (gord d) 0); auto.
      right. apply gatanh_sto; auto. }
    apply (T_comp n d (gatanh d) f Catanh (atanhc (f origin))); auto.
    - destruct S as [[[]]|[]]; auto.
    - destruct S as [[[]]|[]]; auto.
    - destruct S as [[[]]|[]]; auto.
    - apply cuexp_atanh; auto.
    - rewrite E. apply (gatanh_psum h); auto.
  Qed.

  (** *** Functions defined from the others *)
  Lemma T_pow n a b f g : T n a f -> T n b g -> nocut (f origin) -> T n (gpow a b) (fun x => Cpower (f x) (g x)).
  Proof.
    intros Ha Hb Hp. unfold gpow.
    apply (T_ext n _ (fun x => Cexp (g x * Clog (f x))%C)).
    - destruct (T_nearP n a f (fun y => y <> RtoC 0) Ha) as (e & He & N).
      { apply (cont_neq0 (fun y => y)) with (n := 0%nat) (c := fun _ => f origin); [|apply nocut_neq0; auto].
        eapply cuexp_ext; [|apply cuexp_id]. intros i Hi. destruct i; [reflexivity|lia]. }
      exists e. split; auto. intros x Hx. symmetry. apply Cpower_exp. apply (N x Hx).
    - apply (T_exp n _ (fun x => g x * Clog (f x))%C). apply (T_mul n b (glog a) g (fun x => Clog (f x))); auto. apply T_log; auto.
  Qed.

  Lemma seq_snoc a k : seq a (S k) = seq a k ++ [(a + k)%nat].
  Proof. apply seq_S. Qed.
  Lemma T_pow_loop n d f k : T n d f -> T n (gpow_loop d (S k)) (fun x => Cpw (f x) (S k)).
  Proof.
    intros H. unfold gpow_loop. replace (S k - 1)%nat with k by lia. induction k.
    - simpl. apply (T_ext_all _ _ f); [intros; cbn [kpow kmul OpsC k1]; ring|auto].
    - rewrite seq_S, fold_left_app. cbn [fold_left].
      apply (T_ext_all _ _ (fun x => Cpw (f x) (S k) * f x)%C); [intros; cbn [kpow kmul OpsC]; ring|]. apply (T_mul n _ _ (fun x => Cpw (f x) (S k)) f); auto.
  Qed.
  Lemma T_pow_neg n d f k : T n d f -> f origin <> RtoC 0 ->
    T n (fold_left (fun retval (_ : nat) => gdiv retval d) (seq 1 k) (gdiv_sg k1 d)) (fun x => / Cpw (f x) (S k))%C.
  Proof.
    intros H Hp. destruct (T_nearP n d f (fun y => y <> RtoC 0) H) as (e & He & N).
    { exists (Cmod (f origin) / 2). pose proof (Cmod_pos0 _ Hp). split; [lra|]. intros y Hy E. subst y.
      replace (RtoC 0 - f origin)%C with (- f origin)%C in Hy by ring. rewrite Cmod_opp in Hy. lra. }
    induction k.
    - simpl. apply (T_ext n _ (fun x => h k1 / f x)%C).
      + exists e. split; auto. intros x Hx. rewrite (hom_1 h). cbn [k1 OpsC kpow kmul]. specialize (N x Hx). cbv beta in N. field. auto.
      + apply T_div_sg; auto.
    - rewrite seq_S, fold_left_app. cbn [fold_left].
      apply (T_ext n _ (fun x => / Cpw (f x) (S k) / f x)%C).
      + exists e. split; auto. intros x Hx. specialize (N x Hx). cbv beta in N. rewrite (Cpw_S (f x) (S k)). field.
        split; auto. apply Cpw_neq0; auto.
      + apply (T_div n _ _ (fun x => / Cpw (f x) (S k))%C f); auto.
  Qed.
  Lemma T_pow_int n d f z : T n d f -> ((z < 0)%Z -> f origin <> RtoC 0) -> T n (gpow_int d z) (fun x => Cpowz (f x) z).
  Proof.
    intros H Hz. unfold gpow_int. destruct (Z.ltb_spec z 0) as [L|L].
    - destruct (Z.to_nat (- z)) as [|k] eqn:Ek; [lia|].
      replace (S k - 1)%nat with k by lia.
      apply (T_ext_all n _ (fun x => / Cpw (f x) (S k))%C); [|apply T_pow_neg; auto].
      intros x. destruct z as [|q|q]; try lia. simpl Z.opp in Ek. rewrite <- Ek. reflexivity.
    - destruct (Z.ltb_spec 0 z) as [L'|L'].
      + destruct (Z.to_nat z) as [|k] eqn:Ek; [lia|].
        apply (T_ext_all n _ (fun x => Cpw (f x) (S k))); [|apply T_pow_loop; auto].
        intros x. destruct z as [|q|q]; try lia. simpl in Ek. rewrite <- Ek. reflexivity.
      + assert (z = 0%Z) by lia. subst z.
        apply (T_ext_all n _ (fun x => (f x - f x) + h k1)%C).
        * intros x. rewrite (hom_1 h). cbn [Cpowz k1 OpsC]. ring.
        * apply T_add_gs, T_sub; auto.
  Qed.

  Definition cpowok (p a : C) : Prop := nocut p \/ p <> RtoC 0 /\ exists m, a = RtoC (IZR m).
  Lemma T_pow_series n d f (alpha : A) : T n d f -> cpowok (f origin) (h alpha) ->
    sto (gsyms d) (gord d) (gpow_series d alpha) ->
    T n (gpow_series d alpha) (fun x => Cpower (f x) (h alpha)).
  Proof.
    intros H Hp S. cc0 H.
    apply (T_comp n d (gpow_series d alpha) f (fun y => Cpower y (h alpha)) (powc (f origin) (h alpha))); auto.
    - exact (sto_wf _ _ _ S).
    - exact (sto_nz _ _ _ S).
    - left. exact (sto_ord _ _ _ S).
    - destruct Hp as [Hp|(Hp & m & Hm)]; [apply cuexp_power; auto|]. rewrite Hm. apply cuexp_power_int; auto.
    - rewrite E. apply (gpow_series_psum h); auto. destruct H; auto.
  Qed.

  Definition pow_loops (alpha : A) : bool := (keqb (kofZ (e_toint alpha)) alpha && kltb k0 alpha)%bool.
  Lemma T_pow_real n d f (alpha : A) : T n d f ->
    (pow_loops alpha = true -> exists k, e_toint alpha = Z.of_nat (S k) /\ h alpha = RtoC (INR (S k))) ->
    (pow_loops alpha = false -> cpowok (f origin) (h alpha)) ->
    T n (gpow_real d alpha) (fun x => Cpower (f x) (h alpha)).
  Proof.
    intros H H1 H2. pose proof (gpow_real_sto d (T_wf _ _ _ H) (T_nz _ _ _ H) alpha) as S.
    rewrite gpow_real_cases in *. fold (pow_loops alpha) in *. destruct (pow_loops alpha).
    - destruct (H1 eq_refl) as (k & E1 & E2). rewrite E1, Nat2Z.id.
      apply (T_ext_all n _ (fun x => Cpw (f x) (Datatypes.S k))); [|apply T_pow_loop; auto].
      intros x. rewrite E2. symmetry. apply Cpower_natS.
    - apply T_pow_series; auto.
  Qed.

  Lemma T_of_const n d f : T n d f -> gdegree d = 0%nat -> T n (gconst (constant_cf d)) f.
  Proof.
    intros [W N O Ht] D. apply (T_mk [] 0%nat); [apply sto_const|auto|].
    assert (C : isconst h d (h (constant_cf d))).
    { split; auto. assert (W' : gwf (mkG (gp d) 0)).
      { destruct W as [W1 W2]. split; auto. simpl. apply pdegree_le. unfold gdegree in D. lia. }
      pose proof (proj2 (order0_const (mkG (gp d) 0) W' eq_refl)) as E.
      rewrite (constant_cf_scc h) in E |- * by auto. exact E. }
    unfold CTaylor.tay. apply (bigO_ext _ (fun x => f x - hval h d x)%C); auto.
    intros x. rewrite (hval_const _ _ x C). f_equal. f_equal. symmetry. apply hval_const. apply (isconst_gconst h).
  Qed.
  Lemma cuexp_basepow b p n : b <> RtoC 0 -> exists c, cuexp (Cpower b) p n c.
  Proof.
    intros Hb. pose proof (cuexp_affine Cexp (Clog b) (p * Clog b)%C p n _ (cuexp_exp (p * Clog b)%C n)) as H.
    eexists. eapply cuexp_fun_all; [|exact H]. intros x. cbn beta. rewrite Cpower_exp by auto. f_equal. ring.
  Qed.
  Lemma T_pow_sg n d f (b : A) : T n d f -> h b <> RtoC 0 -> T n (gpow_sg b d) (fun x => Cpower (h b) (f x)).
  Proof.
    intros H Hb. unfold gpow_sg. destruct (Nat.eqb_spec (gdegree d) 0) as [D|D].
    - pose proof (T_of_const n d f H D) as H'. cc0 H. pose proof (T_at0 _ _ _ H') as E'.
      destruct (cuexp_basepow (h b) (f origin) 0 Hb) as (c & Hc).
      apply (T_comp n (gconst (constant_cf d)) _ f (Cpower (h b)) c); auto.
      + apply gconst_gwf.
      + apply gconst_nz.
      + simpl. pose proof (cuexp_at0 _ _ _ _ Hc) as X. rewrite <- X.
        etransitivity; [apply (gden_const h)|]. rewrite (hom_epow h), E. reflexivity.
    - apply (T_ext_all n _ (fun x => Cexp (h (e_log b) * f x)%C)).
      + intros x. rewrite (hom_log h). cbn [e_log ElemC]. rewrite Cpower_exp by auto. f_equal. ring.
      + apply (T_exp n _ (fun x => h (e_log b) * f x)%C). apply T_mul_sg; auto.
  Qed.
End TayFun.
