(** * Proofs of the properties of gduals with complex coefficients (proof file). *)

From Coq Require Import String Ascii Reals Lra Lia Psatz List ZArith Bool.
From Coquelicot Require Import Coquelicot.
From Verif Require Import Ops Syms SymsFacts Poly PolyFacts Sem Den Gdual GdualFacts Functions FunStruct Spec CoefFacts CoreProofs MiscProofs FunAlg ElemR UniFun Cplx CUni CFun CFun2 CTaylor CTayUnique CTayFun SpecCpx.
Import ListNotations.
Open Scope R_scope.

Notation idC := (fun x : C => x).

Lemma neg_nz_C (c : C) : keqb c k0 = false -> keqb (kopp c) k0 = false.
Proof. exact (@neg_nz_field C OpsC FieldLawsC c). Qed.

Lemma slit_nocut z : slit z -> nocut z.
Proof.
  unfold slit, nocut. intros H. destruct (Rlt_dec 0 (fst z)); auto. right. intros E. apply H. split; auto. lra.
Qed.
Lemma cpow_Cpw z n : cpow z n = Cpw z n.
Proof. induction n; [reflexivity|]. cbn [cpow]. rewrite IHn, Cpw_S. reflexivity. Qed.
Lemma cpowZ_Cpowz z k : Cpowz z k = cpowZ z k.
Proof.
  destruct k as [|q|q]; [reflexivity| |].
  - symmetry. apply cpow_Cpw.
  - unfold cpowZ. cbn [Z.ltb Z.compare Z.opp Cpowz]. reflexivity.
Qed.

Lemma cexpands_T n g f : cexpands n g f <-> T idC n g f.
Proof.
  unfold cexpands, ctaylor_of. split.
  - intros (V & O & B). apply valid_iff in V. destruct V as [W Z]. constructor; auto.
    unfold tay. apply (bigO_ext _ (fun x => f x - value g x)%C); [|exact B].
    intros x. rewrite (hval_value g x W). reflexivity.
  - intros [W Z O B]. split; [apply valid_iff; auto|]. split; auto.
    apply (bigO_ext _ (fun x => f x - hval idC g x)%C); [|exact B].
    intros x. rewrite (hval_value g x W). reflexivity.
Qed.
Lemma cexpands_at n g f : cexpands n g f -> f ccenter = constant_cf g.
Proof. intros H. apply cexpands_T in H. exact (T_at0 idC _ _ _ H). Qed.
Lemma cexpands_unique n a b f : valid a -> valid b -> ctaylor_of n a f -> ctaylor_of n b f -> agree n a b.
Proof.
  intros Va Vb Ha Hb. apply valid_iff in Va. apply valid_iff in Vb. apply bigO_agree; try tauto.
  apply (bigO_ext _ (fun x => (f x - value b x) - (f x - value a x))%C); [intros; ring|]. apply bigO_sub; auto.
Qed.
Lemma cexpands_fun n g f f' : (exists d, 0 < d /\ forall x, csmall x d -> f x = f' x) -> cexpands n g f -> cexpands n g f'.
Proof. intros E H. apply cexpands_T in H. apply cexpands_T. eapply T_ext; eauto. Qed.
Lemma cexpands_ext n g f f' : (forall x, f x = f' x) -> cexpands n g f -> cexpands n g f'.
Proof. intros E. apply cexpands_fun. exists 1. split; [lra|auto]. Qed.

Lemma cexpands_const n v : cexpands n (gconst v) (fun _ => v).
Proof. apply cexpands_T. exact (T_const idC n v). Qed.
Lemma cexpands_var n m v s g : (n <= m)%nat -> gvar v s m = Ok g -> cexpands n g (fun x => v + x (dsym s))%C.
Proof.
  intros L E. pose proof (gvar_spec v s m) as S. rewrite E in S. destruct S as (_ & _ & Og & _ & V).
  split; [auto|]. split; [left; unfold get_order in *; lia|].
  exists 1, 1. split; [lra|]. split; [lra|]. intros x r Hx Hr.
  assert (P : 0 <= r) by (eapply Rle_trans; [apply Cmod_pos|apply (Hx s)]).
  assert (P' : 0 <= r ^ S n) by (apply pow_le; auto).
  rewrite (gvar_value v s m g x E). destruct (Nat.eqb_spec m 0) as [->|].
  - replace n with O by lia. rewrite pow_1. replace (v + x (dsym s) - v)%C with (x (dsym s)) by ring.
    rewrite Rmult_1_l. apply Hx.
  - cbn [kadd OpsC]. replace (v + x (dsym s) - (v + x (dsym s)))%C with (RtoC 0) by ring. rewrite Cmod_m0. lra.
Qed.

Lemma cexpands_arith n a b f g : cexpands n a f -> cexpands n b g ->
  cexpands n (gadd a b) (fun x => f x + g x)%C /\
  cexpands n (gsub a b) (fun x => f x - g x)%C /\
  cexpands n (gmul a b) (fun x => f x * g x)%C /\
  cexpands n (gneg a) (fun x => - f x)%C /\
  (g ccenter <> RtoC 0 -> cexpands n (gdiv a b) (fun x => f x / g x)%C).
Proof.
  intros Ha Hb. apply cexpands_T in Ha. apply cexpands_T in Hb. rewrite !cexpands_T.
  split; [exact (T_add idC _ _ _ _ _ Ha Hb)|]. split; [exact (T_sub idC _ _ _ _ _ Ha Hb)|].
  split; [exact (T_mul idC _ _ _ _ _ Ha Hb)|]. split; [exact (T_neg idC _ _ _ neg_nz_C Ha)|].
  intros H. exact (T_div idC _ _ _ _ _ Ha Hb H).
Qed.
Lemma cexpands_scalar n a f c : cexpands n a f ->
  cexpands n (gadd_sg c a) (fun x => c + f x)%C /\ cexpands n (gadd_gs a c) (fun x => f x + c)%C /\
  cexpands n (gsub_sg c a) (fun x => c - f x)%C /\ cexpands n (gsub_gs a c) (fun x => f x - c)%C /\
  cexpands n (gmul_sg c a) (fun x => c * f x)%C /\ cexpands n (gmul_gs a c) (fun x => f x * c)%C /\
  cexpands n (gdiv_gs a c) (fun x => f x / c)%C /\
  (f ccenter <> RtoC 0 -> cexpands n (gdiv_sg c a) (fun x => c / f x)%C).
Proof.
  intros Ha. apply cexpands_T in Ha. rewrite !cexpands_T.
  split; [exact (T_add_sg idC _ c _ _ Ha)|]. split; [exact (T_add_gs idC _ c _ _ Ha)|].
  split; [exact (T_sub_sg idC _ c _ _ Ha)|]. split; [exact (T_sub_gs idC _ c _ _ Ha)|].
  split; [exact (T_mul_sg idC _ c _ _ Ha)|]. split; [exact (T_mul_gs idC _ c _ _ Ha)|].
  split; [exact (T_div_gs idC _ c _ _ Ha)|]. intros H. exact (T_div_sg idC _ c _ _ Ha H).
Qed.

Lemma cexpands_fun1 f n d u : cexpands n d u -> cdom f (u ccenter) -> cfits1 f (get_order d) ->
  cexpands n (run1 (cfun1 f) d) (fun x => cval f (u x)).
Proof.
  intros H D F. apply cexpands_T in H. apply cexpands_T. destruct f; cbn [cfun1 run1 cval cdom cfits1] in *.
  - exact (T_exp idC _ _ _ H).
  - exact (T_log idC _ _ _ H (slit_nocut _ D)).
  - exact (T_sin idC _ _ _ H F).
  - exact (T_cos idC _ _ _ H F).
  - exact (T_tan idC _ _ _ H D).
  - exact (T_sinh idC _ _ _ H).
  - exact (T_cosh idC _ _ _ H).
  - exact (T_tanh idC _ _ _ H D).
  - apply (T_ext_all idC _ _ (fun x => Catanh (u x))).
    + intros x. unfold Catanh. replace (RtoC (1 / 2)) with (/ RtoC 2)%C.
      * unfold Cdiv. ring.
      * rewrite <- RtoC_inv by lra. f_equal. field.
    + exact (T_atanh idC _ _ _ H (slit_nocut _ (proj1 D)) (slit_nocut _ (proj2 D))).
Qed.

Lemma rtoint_IZR z : rtoint (IZR z) = z.
Proof.
  unfold rtoint. destruct (Rle_dec 0 (IZR z)) as [L|L]; [apply Int_part_IZR|].
  rewrite <- opp_IZR, Int_part_IZR. lia.
Qed.
Lemma loops_true a : pow_loops (RtoC a) = true -> exists k, rtoint a = Z.of_nat (S k) /\ RtoC a = RtoC (INR (S k)).
Proof.
  unfold pow_loops. cbn [keqb kltb kofZ k0 OpsC e_toint ElemC RtoC fst].
  destruct (Ceqb (CofZ (rtoint a)) (RtoC a)) eqn:E; [|discriminate]. apply Ceqb_eq in E. unfold CofZ in E. apply RtoC_inj in E.
  unfold Rltb. destruct (Rlt_dec 0 a) as [P|]; [|discriminate]. intros _.
  assert (Pz : (0 < rtoint a)%Z) by (apply lt_IZR; lra).
  exists (Z.to_nat (rtoint a) - 1)%nat. assert (X : rtoint a = Z.of_nat (S (Z.to_nat (rtoint a) - 1))) by lia.
  split; auto. rewrite INR_IZR_INZ, <- X, E. reflexivity.
Qed.
Lemma loops_INR k : pow_loops (RtoC (INR (S k))) = true.
Proof.
  unfold pow_loops. cbn [keqb kltb kofZ k0 OpsC e_toint ElemC]. unfold RtoC at 1 2 4. cbn [fst].
  rewrite INR_IZR_INZ, rtoint_IZR. unfold CofZ.
  replace (Ceqb _ _) with true by (symmetry; apply Ceqb_eq; reflexivity).
  unfold Rltb. cbn [RtoC fst]. destruct (Rlt_dec 0 (IZR (Z.of_nat (S k)))) as [|N]; auto. exfalso. apply N. apply (IZR_lt 0). lia.
Qed.
Lemma cexpands_pow_real n d f a : cexpands n d f -> cdompow (f ccenter) a ->
  cexpands n (gpow_real d (RtoC a)) (fun x => Cpower (f x) (RtoC a)).
Proof.
  intros H D. apply cexpands_T in H. apply cexpands_T. apply (T_pow_real idC n d f (RtoC a) H).
  - exact (loops_true a).
  - intros P. destruct D as [D|[[D (z & Hz)]|(k & Hk)]].
    + left. apply slit_nocut. exact D.
    + right. split; auto. exists z. rewrite Hz. reflexivity.
    + rewrite Hk, loops_INR in P. discriminate.
Qed.
Lemma cexpands_pow_int n d f z : cexpands n d f -> ((z < 0)%Z -> f ccenter <> RtoC 0) ->
  cexpands n (gpow_int d z) (fun x => cpowZ (f x) z).
Proof.
  intros H D. apply (cexpands_ext n _ (fun x => Cpowz (f x) z)); [intros; apply cpowZ_Cpowz|].
  apply cexpands_T in H. apply cexpands_T. exact (T_pow_int idC n d f z H D).
Qed.
Lemma cexpands_pow_sg n d f b : cexpands n d f -> b <> RtoC 0 -> cexpands n (gpow_sg b d) (fun x => Cpower b (f x)).
Proof. intros H D. apply cexpands_T in H. apply cexpands_T. exact (T_pow_sg idC n d f b H D). Qed.
Lemma cexpands_pow n a b f g : cexpands n a f -> cexpands n b g -> slit (f ccenter) ->
  cexpands n (gpow a b) (fun x => Cpower (f x) (g x)).
Proof.
  intros H H' D. apply cexpands_T in H. apply cexpands_T in H'. apply cexpands_T.
  exact (T_pow idC n a b f g H H' (slit_nocut _ D)).
Qed.
