(** * Proofs of the analytic properties (proof file). *)

From Coq Require Import String Reals Lra Lia Psatz List ZArith Bool.
From Verif Require Import Ops Syms SymsFacts Poly PolyFacts Sem Den Gdual GdualFacts Functions FunStruct Spec CoefFacts CoreProofs MiscProofs FunAlg ElemR Uni UniFun UniFun2 Taylor TayUnique TayFun TayQuad SpecTaylor.
Import ListNotations.
Open Scope R_scope.

Notation idR := (fun x : R => x).

Lemma neg_nz_R (c : R) : keqb c k0 = false -> keqb (kopp c) k0 = false.
Proof. exact (@neg_nz_field R OpsR FieldLawsR c). Qed.

Lemma expands_T n g f : expands n g f <-> T idR n g f.
Proof.
  unfold expands, taylor_of. split.
  - intros (V & O & B). apply valid_iff in V. destruct V as [W Z]. constructor; auto.
    unfold tay. apply (bigO_ext _ (fun x => f x - value g x)); [|exact B].
    intros x. rewrite (hval_value g x W). reflexivity.
  - intros [W Z O B]. split; [apply valid_iff; auto|]. split; auto.
    apply (bigO_ext _ (fun x => f x - hval idR g x)); [|exact B].
    intros x. rewrite (hval_value g x W). reflexivity.
Qed.

Lemma expands_at n g f : expands n g f -> f center = constant_cf g.
Proof. intros H. apply expands_T in H. exact (T_at0 idR _ _ _ H). Qed.
Lemma expands_unique n a b f : valid a -> valid b -> taylor_of n a f -> taylor_of n b f -> agree n a b.
Proof.
  intros Va Vb Ha Hb. apply valid_iff in Va. apply valid_iff in Vb. apply bigO_agree; try tauto.
  apply (bigO_ext _ (fun x => (f x - value b x) - (f x - value a x))); [intros; ring|]. apply bigO_sub; auto.
Qed.
Lemma expands_fun n g f f' : (exists d, 0 < d /\ forall x, small x d -> f x = f' x) -> expands n g f -> expands n g f'.
Proof. intros E H. apply expands_T in H. apply expands_T. eapply T_ext; eauto. Qed.
Lemma expands_le n m g f : (n <= m)%nat -> expands m g f -> expands n g f.
Proof. intros E H. apply expands_T in H. apply expands_T. eapply T_le; eauto. Qed.

(** The operands. *)
Lemma expands_const n v : expands n (gconst v) (fun _ => v).
Proof. apply expands_T. exact (T_const idR n v). Qed.
Lemma expands_var n m v s g : (n <= m)%nat -> gvar v s m = Ok g -> expands n g (fun x => v + x (dsym s)).
Proof.
  intros L E. pose proof (gvar_spec v s m) as S. rewrite E in S. destruct S as (_ & _ & Og & _ & V).
  split; [auto|]. split; [left; unfold get_order in *; lia|].
  exists 1, 1. split; [lra|]. split; [lra|]. intros x r Hx Hr.
  assert (P : 0 <= r) by (eapply Rle_trans; [apply Rabs_pos|apply (Hx s)]).
  assert (P' : 0 <= r ^ S n) by (apply pow_le; auto).
  rewrite (gvar_value v s m g x E). destruct (Nat.eqb_spec m 0) as [->|].
  - replace n with O by lia. rewrite pow_1. replace (v + x (dsym s) - v) with (x (dsym s)) by ring.
    rewrite Rmult_1_l. apply Hx.
  - cbn [kadd OpsR]. rewrite Rminus_eq_0, Rabs_R0. lra.
Qed.

Lemma expands_arith n a b f g : expands n a f -> expands n b g ->
  expands n (gadd a b) (fun x => f x + g x) /\
  expands n (gsub a b) (fun x => f x - g x) /\
  expands n (gmul a b) (fun x => f x * g x) /\
  expands n (gneg a) (fun x => - f x) /\
  (g center <> 0 -> expands n (gdiv a b) (fun x => f x / g x)).
Proof.
  intros Ha Hb. apply expands_T in Ha. apply expands_T in Hb. rewrite !expands_T.
  split; [exact (T_add idR _ _ _ _ _ Ha Hb)|]. split; [exact (T_sub idR _ _ _ _ _ Ha Hb)|].
  split; [exact (T_mul idR _ _ _ _ _ Ha Hb)|]. split; [exact (T_neg idR _ _ _ neg_nz_R Ha)|].
  intros H. exact (T_div idR _ _ _ _ _ Ha Hb H).
Qed.
Lemma expands_scalar n a f c : expands n a f ->
  expands n (gadd_sg c a) (fun x => c + f x) /\ expands n (gadd_gs a c) (fun x => f x + c) /\
  expands n (gsub_sg c a) (fun x => c - f x) /\ expands n (gsub_gs a c) (fun x => f x - c) /\
  expands n (gmul_sg c a) (fun x => c * f x) /\ expands n (gmul_gs a c) (fun x => f x * c) /\
  expands n (gdiv_gs a c) (fun x => f x / c) /\
  (f center <> 0 -> expands n (gdiv_sg c a) (fun x => c / f x)).
Proof.
  intros Ha. apply expands_T in Ha. rewrite !expands_T.
  split; [exact (T_add_sg idR _ c _ _ Ha)|]. split; [exact (T_add_gs idR _ c _ _ Ha)|].
  split; [exact (T_sub_sg idR _ c _ _ Ha)|]. split; [exact (T_sub_gs idR _ c _ _ Ha)|].
  split; [exact (T_mul_sg idR _ c _ _ Ha)|]. split; [exact (T_mul_gs idR _ c _ _ Ha)|].
  split; [exact (T_div_gs idR _ c _ _ Ha)|]. intros H. exact (T_div_sg idR _ c _ _ Ha H).
Qed.

Lemma expands_abs n d f : expands n d f -> f center <> 0 -> expands n (gabs d) (fun x => Rabs (f x)).
Proof.
  intros H Hp. assert (E := expands_at _ _ _ H). apply expands_T in H. apply expands_T.
  apply (T_abs idR n d f neg_nz_R H Hp). change (f origin) with (f center). rewrite E in *.
  cbn [kltb keqb k0 OpsR]. unfold Rltb, Reqb.
  destruct (Rlt_dec 0 (constant_cf d)); cbn [orb]; [lra|].
  destruct (Req_EM_T (constant_cf d) 0); lra.
Qed.

Lemma expands_run1 f n d u : expands n d u -> dom1 f (u center) -> fits1 f (get_order d) ->
  expands n (run1 f d) (fun x => real1 f (u x)).
Proof.
  intros H D F. destruct f; try (apply expands_abs; assumption); apply expands_T in H; apply expands_T;
    cbn [dom1 fits1 real1 run1] in *; unfold get_order in F.
  - exact (T_exp idR _ _ _ H).
  - exact (T_log idR _ _ _ H D).
  - exact (T_sqrt idR _ _ _ H D).
  - exact (T_cbrt idR _ _ _ H D).
  - exact (T_sin idR _ _ _ H F).
  - exact (T_cos idR _ _ _ H F).
  - exact (T_tan idR _ _ _ H D).
  - exact (T_sinh idR _ _ _ H).
  - exact (T_cosh idR _ _ _ H).
  - exact (T_tanh idR _ _ _ H).
  - exact (T_atan idR _ _ _ H (or_introl F)).
  - exact (T_atanh idR _ _ _ H D).
  - exact (T_asin idR _ _ _ H D (or_introl F)).
  - exact (T_acos idR _ _ _ H D (or_introl F)).
  - exact (T_asinh idR _ _ _ H).
  - exact (T_acosh idR _ _ _ H D).
  - exact (T_tan_quad idR _ _ _ H F D).
  - exact (T_tanh_quad idR _ _ _ H).
  - exact (T_log10 idR _ _ _ H D).
  - exact (T_log2 idR _ _ _ H D).
  - exact (T_log1p idR _ _ _ H D).
  - exact (T_expm1 idR _ _ _ H).
Qed.

Lemma expands_runD f n d u r : expands n d u -> domD f (u center) ->
  (Z.of_nat (get_order d) < 2147483648)%Z -> (forall s, In s (psyms (gp d)) -> exists t, s = dsym t) ->
  runD f d = Ok r -> expands n r (fun x => realD f (u x)).
Proof.
  intros H D L N E. apply expands_T in H. apply expands_T.
  destruct f; cbn [domD realD runD] in *.
  - exact (T_atanh_d idR _ _ _ H L N r D E).
  - exact (T_atan_d idR _ _ _ H L N r E).
  - exact (T_asin_d idR _ _ _ H L N r D E).
  - exact (T_asinh_d idR _ _ _ H L N r E).
  - exact (T_acos_d idR _ _ _ H L N r D E).
  - exact (T_acosh_d idR _ _ _ H L N r D E).
  - exact (T_erf idR _ _ _ H L N r neg_nz_R E).
  - exact (T_erfc idR _ _ _ H L N r neg_nz_R E).
Qed.

Lemma rtoint_pos a : pow_loops a = true -> exists k, rtoint a = Z.of_nat (S k) /\ a = INR (S k).
Proof.
  unfold pow_loops. cbn [keqb kltb kofZ k0 OpsR e_toint ElemR]. unfold Rltb, Reqb.
  destruct (Req_EM_T (IZR (rtoint a)) a) as [E|]; [|discriminate]. destruct (Rlt_dec 0 a) as [P|]; [|discriminate]. intros _.
  assert (Pz : (0 < rtoint a)%Z) by (apply lt_IZR; lra).
  exists (Z.to_nat (rtoint a) - 1)%nat. assert (X : rtoint a = Z.of_nat (S (Z.to_nat (rtoint a) - 1))) by lia.
  split; auto. rewrite INR_IZR_INZ, <- X. auto.
Qed.
Lemma rtoint_IZR z : rtoint (IZR z) = z.
Proof.
  unfold rtoint. destruct (Rle_dec 0 (IZR z)) as [L|L]; [apply Int_part_IZR|].
  rewrite <- opp_IZR, Int_part_IZR. lia.
Qed.
Lemma pow_loops_INR k : pow_loops (INR (S k)) = true.
Proof.
  unfold pow_loops. cbn [keqb kltb kofZ k0 OpsR e_toint ElemR]. unfold Rltb, Reqb.
  rewrite INR_IZR_INZ, rtoint_IZR. destruct (Req_EM_T _ _); [|congruence].
  destruct (Rlt_dec 0 (IZR (Z.of_nat (S k)))) as [|C]; auto. exfalso. apply C. apply (IZR_lt 0). lia.
Qed.

Lemma expands_pow_real n d f a : expands n d f -> dompow (f center) a ->
  expands n (gpow_real d a) (fun x => rpow (f x) a).
Proof.
  intros H D. apply expands_T in H. apply expands_T. apply (T_pow_real idR n d f a H).
  - exact (rtoint_pos a).
  - intros P. destruct D as [D|[[D (z & Hz)]|(k & Hk)]].
    + left. exact D.
    + right. split; auto. rewrite Hz, Int_part_IZR. auto.
    + rewrite Hk, pow_loops_INR in P. discriminate.
Qed.
Lemma expands_pow_int n d f z : expands n d f -> ((z < 0)%Z -> f center <> 0) ->
  expands n (gpow_int d z) (fun x => powerRZ (f x) z).
Proof. intros H D. apply expands_T in H. apply expands_T. exact (T_pow_int idR n d f z H D). Qed.
Lemma expands_pow_sg n d f b : expands n d f -> 0 < b -> expands n (gpow_sg b d) (fun x => Rpower b (f x)).
Proof. intros H D. apply expands_T in H. apply expands_T. exact (T_pow_sg idR n d f b H D). Qed.
Lemma expands_pow n a b f g : expands n a f -> expands n b g -> 0 < f center ->
  expands n (gpow a b) (fun x => Rpower (f x) (g x)).
Proof. intros H H' D. apply expands_T in H. apply expands_T in H'. apply expands_T. exact (T_pow idR n a b f g H H' D). Qed.

(** ** Expressions *)
Section Expr.
  Variables (point : string -> R) (order : string -> nat) (M n : nat).
  Hypothesis HM : forall s, (n <= order s <= M)%nat.

  Definition at_disp (x : string -> R) : string -> R := fun s => point s + x (dsym s).
  Lemma at_center : at_disp center = point.
  Proof. apply FunctionalExtensionality.functional_extensionality. intros s. unfold at_disp, center. ring. Qed.

  Lemma calc_inv e : forall g, calc point order e = Ok g -> fits e M ->
    smooth e point -> expands n g (fun x => real e (at_disp x)) /\ reach g /\ (get_order g <= M)%nat.
  Proof.
    assert (C0 : forall e, real e (at_disp center) = real e point) by (intros; rewrite at_center; auto).
    assert (F1 : forall f k m, (k <= m)%nat -> fits1 f m -> fits1 f k) by (intros f k m L; destruct f; simpl; auto; lia).
    induction e; intros g E FT SM; cbn [calc] in E; cbn [fits] in FT; cbn [smooth] in SM; cbn [real];
      repeat match goal with
      | Ee : rbind (calc point order ?a) _ = Ok _ |- _ =>
          let q := fresh "q" in destruct (calc point order a) as [q|]; cbn [rbind] in Ee; [|discriminate]
      end;
      repeat match goal with Hh : _ /\ _ |- _ => destruct Hh end;
      repeat match goal with
      | Hh : forall gg, Ok ?q = Ok gg -> _ |- _ =>
        let A1 := fresh "EX" in let A2 := fresh "RE" in let A3 := fresh "OR" in
        destruct (Hh q eq_refl) as (A1 & A2 & A3); [assumption|assumption|clear Hh];
        pose proof (reach_valid neg_nz_R _ A2)
      end.
    - inversion E; subst. split; [apply expands_const|]. split; [apply reach_const; auto|simpl; lia].
    - split; [apply (expands_var n (order s)); [apply HM|exact E]|]. split; [econstructor; eauto|].
      pose proof (gvar_spec (point s) s (order s)) as S. rewrite E in S. destruct S as (_ & _ & O & _). specialize (HM s). lia.
    - inversion E; subst. destruct (expands_arith n q q0 _ _ EX0 EX) as (X & _). split; [exact X|]. split; [apply reach_add; auto|].
      destruct (ord_binary q q0) as (O & _); [assumption|assumption|]. rewrite O. apply Nat.max_lub; auto.
    - inversion E; subst. destruct (expands_arith n q q0 _ _ EX0 EX) as (_ & X & _). split; [exact X|]. split; [apply reach_sub; auto|].
      destruct (ord_binary q q0) as (_ & O & _); [assumption|assumption|]. rewrite O. apply Nat.max_lub; auto.
    - inversion E; subst. destruct (expands_arith n q q0 _ _ EX0 EX) as (_ & _ & X & _). split; [exact X|]. split; [apply reach_mul; auto|].
      destruct (ord_binary q q0) as (_ & _ & O & _); [assumption|assumption|]. rewrite O. apply Nat.max_lub; auto.
    - inversion E; subst. destruct (expands_arith n q q0 _ _ EX0 EX) as (_ & _ & _ & _ & X).
      split; [apply X; rewrite C0; auto|]. split; [apply reach_div; auto|].
      destruct (ord_binary q q0) as (_ & _ & _ & O & _); [assumption|assumption|]. rewrite O. apply Nat.max_lub; auto.
    - inversion E; subst. destruct (expands_arith n q q _ _ EX EX) as (_ & _ & _ & X & _). split; [exact X|]. split; [apply reach_neg; auto|].
      destruct (ord_unary q 0) as (_ & _ & _ & _ & _ & _ & _ & _ & O & _); [assumption|]. rewrite O. auto.
    - inversion E; subst. destruct (expands_scalar n q _ v EX) as (X & _). split; [exact X|]. split; [apply reach_add_sg; auto|].
      destruct (ord_unary q v) as (O & _); [assumption|]. rewrite O. auto.
    - inversion E; subst. destruct (expands_scalar n q _ v EX) as (_ & X & _). split; [exact X|]. split; [apply reach_add_gs; auto|].
      destruct (ord_unary q v) as (_ & O & _); [assumption|]. rewrite O. auto.
    - inversion E; subst. destruct (expands_scalar n q _ v EX) as (_ & _ & X & _). split; [exact X|]. split; [apply reach_sub_sg; auto|].
      destruct (ord_unary q v) as (_ & _ & O & _); [assumption|]. rewrite O. auto.
    - inversion E; subst. destruct (expands_scalar n q _ v EX) as (_ & _ & _ & X & _). split; [exact X|]. split; [apply reach_sub_gs; auto|].
      destruct (ord_unary q v) as (_ & _ & _ & O & _); [assumption|]. rewrite O. auto.
    - inversion E; subst. destruct (expands_scalar n q _ v EX) as (_ & _ & _ & _ & X & _). split; [exact X|]. split; [apply reach_mul_sg; auto|].
      destruct (ord_unary q v) as (_ & _ & _ & _ & O & _); [assumption|]. rewrite O. auto.
    - inversion E; subst. destruct (expands_scalar n q _ v EX) as (_ & _ & _ & _ & _ & X & _). split; [exact X|]. split; [apply reach_mul_gs; auto|].
      destruct (ord_unary q v) as (_ & _ & _ & _ & _ & O & _); [assumption|]. rewrite O. auto.
    - inversion E; subst. destruct (expands_scalar n q _ v EX) as (_ & _ & _ & _ & _ & _ & _ & X).
      split; [apply X; rewrite C0; auto|]. split; [apply reach_div_sg; auto|].
      destruct (ord_unary q v) as (_ & _ & _ & _ & _ & _ & O & _); [assumption|]. rewrite O. auto.
    - inversion E; subst. destruct (expands_scalar n q _ v EX) as (_ & _ & _ & _ & _ & _ & X & _). split; [exact X|]. split; [apply reach_div_gs; auto|].
      destruct (ord_unary q v) as (_ & _ & _ & _ & _ & _ & _ & O & _); [assumption|]. rewrite O. auto.
    - inversion E; subst. split; [|split; [apply reach_fun1; auto|rewrite run1_ord; auto]].
      apply (expands_run1 f n q _ EX); [rewrite C0; auto|]. eapply F1; eauto.
    - split; [|split; [eapply reach_funD; eauto|]].
      + eapply (expands_runD f n q _ g EX); [rewrite C0; auto|lia|exact (reach_dnames neg_nz_R q RE)|auto].
      + assert (Vq : valid q) by assumption. pose proof (runD_ord f q g Vq E). eapply Nat.le_trans; [eassumption|assumption].
    - inversion E; subst. split; [|split; [apply reach_pow; auto|]].
      + apply expands_pow; auto. rewrite C0; auto.
      + destruct (ord_binary q q0) as (_ & _ & _ & _ & O); [assumption|assumption|]. rewrite O. apply Nat.max_lub; auto.
    - inversion E; subst. split; [|split; [apply reach_pow_sg; auto|]].
      + apply expands_pow_sg; auto.
      + destruct (Nat.eq_dec (gdegree q) 0) as [Z|Z].
        * unfold gpow_sg. rewrite Z. cbn. lia.
        * destruct (ord_pow q) as (_ & _ & O); [assumption|]. rewrite (O v Z). auto.
    - inversion E; subst. split; [|split; [apply reach_pow_real; auto|]].
      + apply expands_pow_real; auto. rewrite C0; auto.
      + destruct (ord_pow q) as (O & _); [assumption|]. rewrite O. auto.
    - inversion E; subst. split; [|split; [apply reach_pow_int; auto|]].
      + apply expands_pow_int; auto. rewrite C0; auto.
      + destruct (ord_pow q) as (_ & O & _); [assumption|]. rewrite O. auto.
  Qed.
End Expr.
