(** * Functions computed from their derivative (proof file).

    _compose_from_derivative: the integral of dg(f) * df along the path that
    sets the variables to 0 one after the other is the Taylor expansion of
    g(f). *)

From Coq Require Import String Reals Lra Lia Psatz List ZArith Setoid Morphisms Ring Field Bool.
From Coquelicot Require Import Coquelicot.
From Verif Require Import Ops Syms SymsFacts Poly PolyFacts Sem Den Gdual GdualFacts Functions FunStruct Spec CoefFacts CalcProofs ValueProofs FunAlg ElemR Uni UniFun UniFun2 Taylor TayFun.
Import ListNotations.
Open Scope R_scope.

(** Points with one coordinate replaced. *)
Lemma update_same (x : point) s : update x s (x s) = x.
Proof.
  apply FunctionalExtensionality.functional_extensionality. intros t. unfold update.
  destruct (String.eqb_spec t s); congruence.
Qed.
Lemma update_update (x : point) s t u : update (update x s t) s u = update x s u.
Proof.
  apply FunctionalExtensionality.functional_extensionality. intros v. unfold update.
  destruct (String.eqb v s); auto.
Qed.
Lemma update_at (x : point) s t : update x s t s = t.
Proof. unfold update. rewrite String.eqb_refl. auto. Qed.
Lemma within_update x r s t : within x r -> Rabs t <= r -> within (update x s t) r.
Proof. intros H Ht v. unfold update. destruct (String.eqb v s); auto. Qed.
Lemma within_update0 x r s : within x r -> within (update x s 0) r.
Proof. intros H. apply within_update; auto. rewrite Rabs_R0. eapply within_pos; eauto. Qed.

Lemma bigO_update k s f : bigO k f -> bigO k (fun x => f (update x s 0)).
Proof.
  intros (C & d & Hd & HC & H). exists C, d. split; [auto|]. split; [auto|]. intros x r W Hr.
  apply H; auto. apply within_update0; auto.
Qed.

(** Formal derivative and primitive are the analytic ones. *)
Lemma Lf_cons_R c d m (l : sp R) F : Lf ((c, (d, m)) :: l) F = c * F d m + Lf l F.
Proof. reflexivity. Qed.

Lemma is_derive_mono (c : R) k t : is_derive (fun t => c * t ^ k) t (c * (INR k * t ^ (k - 1))).
Proof.
  auto_derive; auto. replace (pred k) with (k - 1)%nat by lia. ring.
Qed.

Lemma mset_mset m s a b : mset (mset m s a) s b = mset m s b.
Proof.
  apply FunctionalExtensionality.functional_extensionality. intros v. unfold mset.
  destruct (String.eqb s v); auto.
Qed.
Lemma mset_at m s a : mset m s a s = a.
Proof. unfold mset. rewrite String.eqb_refl. auto. Qed.

Lemma mval_update_R V (x : point) s m t : NoDup V -> In s V ->
  mval V (update x s t) m = mval V x (mset m s 0) * t ^ m s.
Proof. intros HN HS. rewrite <- (kpow_R t (m s)). exact (mval_mset V x s m t HN HS). Qed.

Lemma lev_derive V l x s t : NoDup V -> In s V ->
  is_derive (fun t => lev V l (update x s t)) t (lev V (sdiff s l) (update x s t)).
Proof.
  intros HN HS. unfold lev. induction l as [|[c [d m]] l IH].
  - simpl. apply (@is_derive_const R_AbsRing).
  - change (sdiff s ((c, (d, m)) :: l)) with ((c * kofnat (m s), ((d - 1)%nat, mset m s (m s - 1))) :: sdiff s l).
    eapply is_derive_ext; [intros u; symmetry; apply Lf_cons_R|].
    rewrite Lf_cons_R. apply (@is_derive_plus R_AbsRing); auto. unfold evF.
    apply (is_derive_ext (fun u => c * mval V x (mset m s 0) * u ^ m s)).
    { intros u. rewrite mval_update_R by auto. apply Rmult_assoc. }
    rewrite mval_update_R, mset_mset, mset_at, kofnat_R by auto.
    replace (c * INR (m s) * (mval V x (mset m s 0) * t ^ (m s - 1)))
      with (c * mval V x (mset m s 0) * (INR (m s) * t ^ (m s - 1))) by ring.
    apply is_derive_mono.
Qed.
Lemma sdiff_sint s (l : sp R) V y : lev V (sdiff s (sint s l)) y = lev V l y.
Proof.
  unfold lev. induction l as [|[c [d m]] l IH]; auto.
  change (sdiff s (sint s ((c, (d, m)) :: l))) with
    ((c / kofnat (S (m s)) * kofnat (mset m s (S (m s)) s), ((S d - 1)%nat, mset (mset m s (S (m s))) s (mset m s (S (m s)) s - 1))) :: sdiff s (sint s l)).
  rewrite !Lf_cons_R, IH, mset_at, mset_mset. unfold evF.
  replace (S (m s) - 1)%nat with (m s) by lia.
  replace (mset m s (m s)) with m.
  - f_equal. rewrite kofnat_R. field. apply not_0_INR. lia.
  - apply FunctionalExtensionality.functional_extensionality. intros v. unfold mset.
    destruct (String.eqb_spec s v); congruence.
Qed.
Lemma lev_sint0 V l x s : NoDup V -> In s V -> lev V (sint s l) (update x s 0) = 0.
Proof.
  intros HN HS. unfold lev. induction l as [|[c [d m]] l IH]; auto.
  change (sint s ((c, (d, m)) :: l)) with ((c / kofnat (S (m s)), (S d, mset m s (S (m s)))) :: sint s l).
  rewrite Lf_cons_R, IH. unfold evF. rewrite mval_update_R, mset_at by auto. simpl. ring.
Qed.
Lemma lev_subst0 V l x s : NoDup V -> In s V -> lev V (ssubst s (scon 0) l) x = lev V l (update x s 0).
Proof.
  intros HN HS. unfold lev. etransitivity; [exact (Lf_ev_subst V x s (scon 0) l HN HS)|].
  f_equal. f_equal. f_equal. apply (Lf_ev_con V x).
Qed.

(** A function whose derivative along one coordinate is small. *)
Lemma mvt_bound (G G' : R -> R) a M : (forall t, Rabs t <= Rabs a -> is_derive G t (G' t)) ->
  (forall t, Rabs t <= Rabs a -> Rabs (G' t) <= M) -> Rabs (G a - G 0) <= M * Rabs a.
Proof.
  intros D B.
  assert (In : forall t, Rmin 0 a <= t <= Rmax 0 a -> Rabs t <= Rabs a).
  { intros t Ht. unfold Rmin, Rmax in Ht. destruct (Rle_dec 0 a); [rewrite !Rabs_right|rewrite !Rabs_left1]; lra. }
  destruct (MVT_gen G 0 a G') as (t & Ht & Et).
  - intros t Ht. apply D, In. lra.
  - intros t Ht. apply continuity_pt_filterlim. apply @ex_derive_continuous. eexists. apply D, In. auto.
  - rewrite Et, Rminus_0_r, Rabs_mult. apply Rmult_le_compat_r; [apply Rabs_pos|]. apply B, In; auto.
Qed.

Section Quad.
  Context {A : Type} {oA : Ops A} {eA : Elem A}.
  Variable h : A -> R.
  Context {hh : Hom oA OpsR h} {he : HomElem eA ElemR h}.
  Notation gd := (gden h).
  Notation tay := (tay h).
  Notation hval := (hval h).
  Notation T := (T h).

  (** Variables containing a given symbol. *)
  Lemma vars_with (g : gdual A) s : exists V, NoDup V /\ In s V /\ incl (gsyms g) V.
  Proof.
    exists (nodup string_dec (s :: gsyms g)). split; [apply NoDup_nodup|]. split.
    - apply nodup_In. left; auto.
    - intros t Ht. apply nodup_In. right; auto.
  Qed.
  Lemma hval_lev V g x : gwf g -> NoDup V -> incl (gsyms g) V -> hval g x = lev V (gd g) x.
  Proof. intros W HN Hi. unfold Taylor.hval, lev, gden. apply heval_Lf; auto. apply W. Qed.

  Lemma mval_ext V (x y : point) m : (forall s, In s V -> x s = y s) -> mval V x m = mval V y m.
  Proof.
    induction V as [|v V IH]; intros E; cbn [mval]; auto.
    rewrite (E v) by (left; auto). rewrite IH; auto. intros; apply E; right; auto.
  Qed.
  Lemma hval_ext g x y : gwf g -> (forall s, In s (gsyms g) -> x s = y s) -> hval g x = hval g y.
  Proof.
    intros W E. assert (HN : NoDup (gsyms g)) by (apply ssorted_NoDup, W).
    rewrite !(hval_lev (gsyms g)) by (auto; apply incl_refl). unfold lev. f_equal.
    apply FunctionalExtensionality.functional_extensionality; intros d.
    apply FunctionalExtensionality.functional_extensionality; intros m. apply mval_ext; auto.
  Qed.

  Lemma hval_subs0 g s x : gwf g -> hval (gsubs_val g s k0) x = hval g (update x s 0).
  Proof.
    intros W. destruct (vars_with g s) as (V & HN & HS & HV).
    rewrite (hval_lev V (gsubs_val g s k0)), (hval_lev V g); auto; [|apply gsubs_val_gwf; auto].
    rewrite <- lev_subst0 by auto. unfold lev, gden. cbn [gsubs_val gp].
    pose proof (den_psubs_val h None s k0 (gp g) (gwf_swf _ W)) as E. rewrite (hom_0 h) in E.
    apply (seqv_elim E). simpl; tauto.
  Qed.
  Lemma hval_partial g s r x t : gwf g -> gpartial g s = Ok r ->
    is_derive (fun t => hval g (update x (dsym s) t)) t (hval r (update x (dsym s) t)).
  Proof.
    intros W E. destruct (gpartial_gwf _ _ _ W E) as [Wr _]. apply gpartial_Ok in E. destruct E as [_ ->].
    destruct (vars_with g (dsym s)) as (V & HN & HS & HV).
    eapply is_derive_ext; [intros u; symmetry; apply (hval_lev V); auto|].
    rewrite (hval_lev V) by auto. unfold gden. cbn [gp].
    replace (lev V (den h (pdiff (dsym s) (gp g))) (update x (dsym s) t))
      with (lev V (sdiff (dsym s) (den h (gp g))) (update x (dsym s) t)); [apply lev_derive; auto|].
    symmetry. unfold lev. pose proof (den_pdiff h None (dsym s) (gp g) (gwf_swf _ W)) as E.
    apply (seqv_elim E). simpl; tauto.
  Qed.
  Lemma hval_gint g s V x : gwf g -> NoDup V -> In (dsym s) V -> incl (gsyms g) V ->
    hval (gint g s) x = lev V (sint (dsym s) (gd g)) x.
  Proof.
    intros W HN HS HV. rewrite (hval_lev V).
    - unfold lev, gden, gint. cbn [gp]. pose proof (den_pintegrate h None (dsym s) (gp g) (gwf_swf _ W)) as E.
      apply (seqv_elim E). simpl; tauto.
    - apply gint_gwf; auto.
    - auto.
    - intros u Hu. unfold gsyms, gint in Hu. cbn [gp pintegrate psyms] in Hu. apply sinsert_In in Hu. destruct Hu as [->|]; auto.
  Qed.
  Lemma hval_gint_derive g s x t : gwf g ->
    is_derive (fun t => hval (gint g s) (update x (dsym s) t)) t (hval g (update x (dsym s) t)).
  Proof.
    intros W. destruct (vars_with g (dsym s)) as (V & HN & HS & HV).
    eapply is_derive_ext; [intros u; symmetry; apply (hval_gint g s V); auto|].
    rewrite (hval_lev V) by auto. rewrite <- (sdiff_sint (dsym s)). apply lev_derive; auto.
  Qed.
  Lemma hval_gint_0 g s x : gwf g -> hval (gint g s) (update x (dsym s) 0) = 0.
  Proof.
    intros W. destruct (vars_with g (dsym s)) as (V & HN & HS & HV).
    rewrite (hval_gint g s V) by auto. apply lev_sint0; auto.
  Qed.
  Lemma tay_integrate g s r : gwf g -> (Z.of_nat (gord g) < two31)%Z -> gintegrate g s = Ok r ->
    tay (gord g) r (hval (gint g s)).
  Proof.
    intros W L E. destruct (gintegrate_gwf _ _ _ W E) as [Wr _]. apply gintegrate_Ok in E. destruct E as [_ ->].
    apply (tay_hval h); auto.
    - apply gint_gwf; auto.
    - unfold gden. cbn [gp gint]. unfold ptruncateZ. apply (den_pfilter h). intros u _ Hu. simpl in Hu.
      rewrite as_int_small by auto. apply Z.leb_le. lia.
  Qed.

  (** One term of the path integral. *)
  Lemma quad_step N (f dg df t : gdual A) s (F F' : R -> R) :
    gwf f -> gwf dg -> gord f = N -> gord dg = N -> (Z.of_nat N < two31)%Z ->
    (exists e, 0 < e /\ forall y, Rabs (y - hval f origin) <= e -> is_derive F y (F' y)) ->
    tay N dg (fun x => F' (hval f x)) ->
    gpartial f s = Ok df -> gintegrate (gmul dg df) s = Ok t ->
    tay N t (fun x => F (hval f x) - F (hval f (update x (dsym s) 0))).
  Proof.
    intros Wf Wdg Of Odg L (e & He & D) Hdg E1 E2.
    destruct (gpartial_gwf _ _ _ Wf E1) as [Wdf Odf].
    assert (Wm : gwf (gmul dg df)) by (apply gmul_gwf; auto).
    assert (Om : gord (gmul dg df) = N) by (cbn [gmul gord]; lia).
    assert (Hm : tay N (gmul dg df) (fun x => F' (hval f x) * hval df x)).
    { apply (tay_mul h); auto; [lia|]. apply (tay_hval h); auto. reflexivity. }
    assert (Ht : tay N t (hval (gint (gmul dg df) s))).
    { rewrite <- Om at 1. apply tay_integrate; auto. rewrite Om; auto. }
    unfold Taylor.tay in *.
    apply (bigO_ext _ (fun x => (F (hval f x) - F (hval f (update x (dsym s) 0)) - hval (gint (gmul dg df) s) x)
       + (hval (gint (gmul dg df) s) x - hval t x))); [intros; ring|].
    apply bigO_add; auto.
    assert (Nr : exists d, 0 < d /\ forall x, within x d -> Rabs (hval f x - hval f origin) <= e).
    { assert (TT : Taylor.tay h 0 f (hval f)) by (apply (tay_hval h); auto; reflexivity).
      destruct (common_vars h [f]) as (V & HV); [constructor; auto|]. destruct (HV f) as [B1 B2]; [simpl; auto|].
      assert (B : bigO 1 (fun x => hval f x - hval f origin)).
      { apply (bigO_ext _ (fun x => lev V (ghat h f) x)).
        - intros x. unfold ghat. rewrite lev_sub, lev_con, B2, hval_at0, (constant_cf_scc h) by auto. ring.
        - apply bigO_vanish; [|apply ghat_vanish]. unfold ghat. apply okV_ssub; auto. apply okV_scon. }
      destruct B as (C & d & Hd & HC & B).
      exists (Rmin d (e / (C + 1))). assert (P : 0 < e / (C + 1)) by (apply Rdiv_lt_0_compat; lra).
      split; [apply Rmin_pos; auto|]. intros x Hx. set (r := Rmin d (e / (C + 1))) in *.
      assert (L1 : r <= d) by apply Rmin_l. assert (L2 : r <= e / (C + 1)) by apply Rmin_r.
      assert (P0 := within_pos x r Hx). specialize (B x r Hx L1). rewrite pow_1 in B.
      apply (Rmult_le_compat_r (C + 1)) in L2; [|lra].
      replace (e / (C + 1) * (C + 1)) with e in L2 by (field; lra). nra. }
    destruct Nr as (d1 & Hd1 & Nr). destruct Hm as (C & d & Hd & HC & Hm).
    exists C, (Rmin (Rmin d d1) 1). split; [repeat apply Rmin_pos; lra|]. split; auto.
    intros x r W Hr.
    assert (X1 : r <= d) by (eapply Rle_trans; [exact Hr|eapply Rle_trans; [apply Rmin_l|apply Rmin_l]]).
    assert (X2 : r <= d1) by (eapply Rle_trans; [exact Hr|eapply Rle_trans; [apply Rmin_l|apply Rmin_r]]).
    assert (X3 : r <= 1) by (eapply Rle_trans; [exact Hr|apply Rmin_r]).
    assert (P0 := within_pos x r W).
    set (S := dsym s) in *. set (J := hval (gint (gmul dg df) s)).
    assert (Wt : forall t, Rabs t <= Rabs (x S) -> within (update x S t) r).
    { intros u Hu. apply within_update; auto. eapply Rle_trans; [exact Hu|apply W]. }
    pose proof (mvt_bound (fun t => F (hval f (update x S t)) - J (update x S t))
      (fun t => F' (hval f (update x S t)) * hval df (update x S t) - hval (gmul dg df) (update x S t))
      (x S) (C * r ^ Datatypes.S N)) as B.
    cbv beta in B. rewrite update_same in B.
    assert (J0 : J (update x S 0) = 0) by (apply hval_gint_0; auto). rewrite J0 in B.
    eapply Rle_trans; [|eapply Rle_trans; [apply B|]].
    - right. f_equal. unfold J. ring.
    - intros u Hu. apply (@is_derive_minus R_AbsRing).
      + rewrite Rmult_comm.
        assert (Q1 : is_derive F (hval f (update x S u)) (F' (hval f (update x S u)))).
        { apply D, Nr. intros v. eapply Rle_trans; [apply (Wt u Hu)|auto]. }
        exact (is_derive_comp F (fun t => hval f (update x S t)) u _ _ Q1 (hval_partial f s df x u Wf E1)).
      + apply hval_gint_derive; auto.
    - intros u Hu. apply Hm; auto.
    - assert (Rabs (x S) <= 1) by (eapply Rle_trans; [apply W|auto]).
      assert (0 <= C * r ^ Datatypes.S N) by (apply Rmult_le_pos; auto; apply pow_le; auto).
      assert (0 <= Rabs (x S)) by apply Rabs_pos. nra.
  Qed.

  Fixpoint zeros (x : point) (l : list string) : point :=
    match l with [] => x | s :: l => update (zeros x l) s 0 end.
  Lemma zeros_in x l s : In s l -> zeros x l s = 0.
  Proof.
    induction l as [|a l IH]; intros Hi; [contradiction|]. cbn [zeros]. unfold update.
    destruct (String.eqb_spec s a); auto. destruct Hi; [congruence|auto].
  Qed.
  Lemma zeros_update x l s : zeros (update x s 0) l = update (zeros x l) s 0.
  Proof.
    induction l as [|a l IH]; auto. cbn [zeros]. rewrite IH.
    apply FunctionalExtensionality.functional_extensionality. intros v. unfold update.
    destruct (String.eqb v a), (String.eqb v s); auto.
  Qed.

  Lemma loop_tay N F F' (P : point -> R) ss : (Z.of_nat N < two31)%Z -> forall prev (f dg t r : gdual A),
    gwf f -> gwf dg -> gwf t -> gord f = N -> gord dg = N ->
    (exists e, 0 < e /\ forall y, Rabs (y - hval f origin) <= e -> is_derive F y (F' y)) ->
    tay N dg (fun x => F' (hval f x)) ->
    tay N t (fun x => P x - F (hval f (update x (dsym prev) 0))) ->
    compose_loop prev ss f dg t = Ok r ->
    tay N r (fun x => P x - F (hval f (zeros x (map dsym (prev :: ss))))).
  Proof.
    intros L. induction ss as [|s ss IH]; intros prev f dg t r Wf Wdg Wt Of Odg D Hdg Ht E.
    - cbn [compose_loop] in E. inversion E; subst. exact Ht.
    - cbn [compose_loop] in E. set (f' := gsubs_val f (dsym prev) k0) in *. set (dg' := gsubs_val dg (dsym prev) k0) in *.
      assert (Wf' : gwf f') by (apply gsubs_val_gwf; auto).
      assert (Wdg' : gwf dg') by (apply gsubs_val_gwf; auto).
      destruct (gpartial f' s) as [df|] eqn:E1; cbn [rbind] in E; [|discriminate].
      destruct (gintegrate (gmul dg' df) s) as [t'|] eqn:E2; cbn [rbind] in E; [|discriminate].
      destruct (gpartial_gwf _ _ _ Wf' E1) as [W1 _].
      destruct (gintegrate_gwf _ _ _ (gmul_gwf _ _ Wdg' W1) E2) as [W2 _].
      assert (V' : forall x, hval f' x = hval f (update x (dsym prev) 0)) by (intros; apply hval_subs0; auto).
      assert (O0 : update origin (dsym prev) 0 = origin).
      { apply FunctionalExtensionality.functional_extensionality. intros v. unfold update. destruct (String.eqb _ _); auto. }
      assert (D' : exists e, 0 < e /\ forall y, Rabs (y - hval f' origin) <= e -> is_derive F y (F' y)).
      { rewrite V', O0. auto. }
      assert (Hdg' : tay N dg' (fun x => F' (hval f' x))).
      { unfold Taylor.tay in *. apply (bigO_update _ (dsym prev)) in Hdg. eapply bigO_ext; [|exact Hdg]. intros x. cbv beta.
        rewrite V'. unfold dg'. rewrite hval_subs0 by auto. auto. }
      assert (Q := quad_step N f' dg' df t' s F F' Wf' Wdg' Of Odg L D' Hdg' E1 E2).
      apply (IH s f' dg' (gadd t t') r) in E; auto.
      + eapply (tay_ext_all h); [|exact E]. intros x. cbv beta. rewrite V'. reflexivity.
      + apply gadd_gwf; auto.
      + eapply (tay_ext_all h); [|apply (tay_add h); [auto|auto|exact Ht|exact Q]]. intros x. cbv beta. rewrite !V'. ring.
  Qed.

  Lemma compose_tay N F F' (f dg r : gdual A) g0 :
    gwf f -> gwf dg -> gord f = N -> gord dg = N -> (Z.of_nat N < two31)%Z ->
    (forall s, In s (gsyms f) -> dname s) ->
    (exists e, 0 < e /\ forall y, Rabs (y - hval f origin) <= e -> is_derive F y (F' y)) ->
    tay N dg (fun x => F' (hval f x)) -> h g0 = F (hval f origin) ->
    compose_from_derivative f dg g0 = Ok r -> tay N r (fun x => F (hval f x)).
  Proof.
    intros Wf Wdg Of Odg L Hn D Hdg H0 E.
    assert (Z : forall x, hval f (zeros x (map dsym (map undsym (gsyms f)))) = hval f origin).
    { intros x. apply hval_ext; auto. intros s Hs. apply zeros_in. rewrite map_map. apply in_map_iff.
      exists s. split; auto. apply dname_inv; auto. }
    unfold compose_from_derivative, get_symbol_set in E. fold (gsyms f) in E.
    destruct (map undsym (gsyms f)) as [|s ss] eqn:Em.
    - inversion E; subst r. eapply (tay_ext_all h); [|apply (tay_const h)]. intros x. cbv beta.
      rewrite H0. f_equal. symmetry. apply (Z x).
    - destruct (gpartial f s) as [df|] eqn:E1; cbn [rbind] in E; [|discriminate].
      destruct (gintegrate (gmul dg df) s) as [t|] eqn:E2; cbn [rbind] in E; [|discriminate].
      destruct (compose_loop s ss f dg t) as [r'|] eqn:E3; cbn [rbind] in E; [|discriminate].
      inversion E; subst r. destruct (gpartial_gwf _ _ _ Wf E1) as [W1 _].
      destruct (gintegrate_gwf _ _ _ (gmul_gwf _ _ Wdg W1) E2) as [W2 _].
      assert (Q := quad_step N f dg df t s F F' Wf Wdg Of Odg L D Hdg E1 E2).
      destruct (compose_loop_inv _ _ _ _ _ _ Wf Wdg W2 (gintegrate_nz _ _ _ E2) E3) as [W3 _].
      apply (loop_tay N F F' (fun x => F (hval f x)) ss L s f dg t r') in E3; auto.
      eapply (tay_ext_all h); [|apply (tay_add_sg h); [auto|exact E3]]. intros x. cbv beta. rewrite Z, H0. ring.
  Qed.

  (** Lipschitz bound near a point. *)
  Lemma lip_near (F F' : R -> R) p e : 0 < e -> (forall y, Rabs (y - p) <= e -> is_derive F y (F' y)) ->
    continuous F' p ->
    exists d M, 0 < d /\ 0 <= M /\ forall a b, Rabs (a - p) <= d -> Rabs (b - p) <= d -> Rabs (F a - F b) <= M * Rabs (a - b).
  Proof.
    intros He D Cn. apply continuity_pt_filterlim in Cn. destruct (Cn 1 ltac:(lra)) as (d0 & Hd0 & B).
    exists (Rmin e (d0 / 2)), (Rabs (F' p) + 1). split; [apply Rmin_pos; lra|]. split; [pose proof (Rabs_pos (F' p)); lra|].
    set (d := Rmin e (d0 / 2)). assert (L1 : d <= e) by apply Rmin_l. assert (L2 : d <= d0 / 2) by apply Rmin_r.
    assert (B' : forall y, Rabs (y - p) <= d -> Rabs (F' y) <= Rabs (F' p) + 1).
    { intros y Hy. destruct (Req_dec y p) as [->|Hne]; [lra|].
      assert (X : Rabs (F' y - F' p) < 1).
      { apply (B y). split; [split; [exact I|auto]|]. simpl. unfold R_dist. lra. }
      pose proof (Rabs_triang (F' y - F' p) (F' p)) as Tr. replace (F' y - F' p + F' p) with (F' y) in Tr by ring. lra. }
    intros a b Ha Hb.
    assert (In : forall t, Rmin b a <= t <= Rmax b a -> Rabs (t - p) <= d).
    { intros t Ht. apply Rabs_le. apply Rabs_le_between in Ha. apply Rabs_le_between in Hb.
      unfold Rmin, Rmax in Ht. destruct (Rle_dec b a); lra. }
    destruct (MVT_gen F b a F') as (t & Ht & Et).
    - intros t Ht. apply D. eapply Rle_trans; [apply In; lra|auto].
    - intros t Ht. apply continuity_pt_filterlim. apply @ex_derive_continuous. eexists. apply D.
      eapply Rle_trans; [apply In; auto|auto].
    - rewrite Et, Rabs_mult. apply Rmult_le_compat_r; [apply Rabs_pos|]. apply B', In; auto.
  Qed.

  Lemma T_hval d : gwf d -> gnz d -> T (gord d) d (hval d).
  Proof. intros W Z. constructor; auto. apply (tay_hval h); auto. reflexivity. Qed.

  Lemma T_quad n d f dg g0 r F F' :
    T n d f -> T (gord d) dg (fun x => F' (hval d x)) -> sto (gsyms d) (gord d) dg ->
    (Z.of_nat (gord d) < two31)%Z -> (forall s, In s (gsyms d) -> dname s) ->
    (exists e, 0 < e /\ forall y, Rabs (y - f origin) <= e -> is_derive F y (F' y)) ->
    continuous F' (f origin) -> h g0 = F (f origin) ->
    compose_from_derivative d dg g0 = Ok r -> T n r (fun x => F (f x)).
  Proof.
    intros Hd Hdg Sdg L Hn (e & He & D) Cn H0 E.
    assert (P0 := T_at0 h _ _ _ Hd). assert (Wd := T_wf h _ _ _ Hd). assert (Nd := T_nz h _ _ _ Hd).
    assert (Wdg := T_wf h _ _ _ Hdg).
    assert (PV : hval d origin = f origin) by (rewrite (hval_at0 h) by auto; auto).
    assert (Odg : gord dg = gord d) by apply Sdg.
    destruct (compose_inv _ _ _ _ Wd Wdg E) as [Wr Nr].
    assert (Or : gord r = gord d \/ gord r = 0%nat).
    { destruct (gsyms d) as [|v V] eqn:EV.
      - rewrite (compose_nil d dg g0) in E by auto. inversion E. auto.
      - left. assert (X : sto (v :: V) (gord d) r); [|apply X]. eapply compose_sto; [exact Hn|discriminate| |exact Sdg|exact E].
        rewrite <- EV. apply sto_self; auto. }
    assert (Q : tay (gord d) r (fun x => F (hval d x))).
    { apply (compose_tay (gord d) F F' d dg r g0); auto.
      - rewrite PV. eauto.
      - apply Hdg.
      - rewrite PV; auto. }
    constructor; auto; [destruct (T_ord h _ _ _ Hd); intuition lia|].
    assert (Q' : tay n r (fun x => F (hval d x))).
    { destruct (T_ord h _ _ _ Hd) as [Hle|Hz]; [eapply (tay_le h); eauto|].
      rewrite Hz in Q. apply (tay_order0 h n r _ (F (f origin))); auto; [intuition lia|].
      exists 1. split; [lra|]. intros x _. rewrite (hval_const h _ _ x (order0_const h d Wd Hz)). rewrite P0. auto. }
    unfold Taylor.tay in *.
    apply (bigO_ext _ (fun x => (F (f x) - F (hval d x)) + (F (hval d x) - hval r x))); [intros; ring|].
    apply bigO_add; auto.
    destruct (lip_near F F' _ e He D Cn) as (dl & M & Hdl & HM & Lip).
    destruct (T_near h _ _ _ dl Hd Hdl) as (d1 & Hd1 & N1).
    destruct (T_near h _ _ _ dl (T_hval d Wd Nd) Hdl) as (d2 & Hd2 & N2). cbv beta in N2. rewrite PV in N2.
    destruct (T_tay h _ _ _ Hd) as (C & d3 & Hd3 & HC & B).
    exists (M * C), (Rmin (Rmin d1 d2) d3). split; [repeat apply Rmin_pos; auto|]. split; [apply Rmult_le_pos; auto|].
    intros x rr W Hr.
    assert (X1 : rr <= d1) by (eapply Rle_trans; [exact Hr|eapply Rle_trans; [apply Rmin_l|apply Rmin_l]]).
    assert (X2 : rr <= d2) by (eapply Rle_trans; [exact Hr|eapply Rle_trans; [apply Rmin_l|apply Rmin_r]]).
    assert (X3 : rr <= d3) by (eapply Rle_trans; [exact Hr|apply Rmin_r]).
    eapply Rle_trans; [apply Lip|].
    - apply N1. intros s. eapply Rle_trans; [apply W|auto].
    - apply N2. intros s. eapply Rle_trans; [apply W|auto].
    - rewrite Rmult_assoc. apply Rmult_le_compat_l; auto.
  Qed.
End Quad.

(** *** The derivatives *)
Lemma is_derive_asin x : -1 < x < 1 -> is_derive asin x (1 / sqrt (1 - x * x)).
Proof.
  intros H. apply is_derive_Reals. pose proof (derive_pt_asin x H) as E. unfold derive_pt in E.
  change (1 - x * x) with (1 - Rsqr x). rewrite <- E. exact (proj2_sig (derivable_pt_asin x H)).
Qed.
Lemma is_derive_acos x : -1 < x < 1 -> is_derive acos x (- (1) / sqrt (1 - x * x)).
Proof.
  intros H. apply is_derive_Reals. pose proof (derive_pt_acos x H) as E. unfold derive_pt in E.
  change (1 - x * x) with (1 - Rsqr x). replace (- (1)) with (-1) by lra. rewrite <- E. exact (proj2_sig (derivable_pt_acos x H)).
Qed.
Lemma asinh_arg p : 0 < p + sqrt (1 + p * p).
Proof.
  assert (Q : p * p < 1 + p * p) by lra.
  apply sqrt_lt_1 in Q; [|nra|nra]. fold (Rsqr p) in Q. rewrite sqrt_Rsqr_abs in Q.
  pose proof (Rle_abs (- p)). rewrite Rabs_Ropp in *. unfold Rsqr in Q. lra.
Qed.
Lemma is_derive_asinh x : is_derive asinh_R x (1 / sqrt (1 + x * x)).
Proof.
  unfold asinh_R. assert (H := asinh_arg x). assert (S : 0 < sqrt (1 + x * x)) by (apply sqrt_lt_R0; nra).
  auto_derive; [split; [nra|split; auto]|]. field. split; lra.
Qed.
Lemma is_derive_acosh x : 1 < x -> is_derive acosh_R x (1 / sqrt ((x - 1) * (x + 1))).
Proof.
  intros Hx. unfold acosh_R. replace ((x - 1) * (x + 1)) with (x * x - 1) by ring.
  assert (S : 0 < sqrt (x * x - 1)) by (apply sqrt_lt_R0; nra).
  unfold Rminus in *. auto_derive; [split; [nra|split; auto; lra]|]. field. split; lra.
Qed.
Lemma is_derive_erf x : is_derive erf_R x (2 / sqrt PI * exp (- x * x)).
Proof.
  unfold erf_R. apply (is_derive_scal (fun y => RInt (fun t => exp (- t * t)) 0 y)).
  apply (is_derive_RInt (fun t => exp (- t * t)) _ 0 x).
  - exists (mkposreal 1 ltac:(lra)). intros y _. apply (RInt_correct (V := R_CompleteNormedModule)).
    apply ex_RInt_continuous. intros z _. apply (ex_derive_continuous (fun t => exp (- t * t))). auto_derive. auto.
  - apply (ex_derive_continuous (fun t => exp (- t * t))). auto_derive. auto.
Qed.

Section QuadFun.
  Context {A : Type} {oA : Ops A} {eA : Elem A}.
  Variable h : A -> R.
  Context {hh : Hom oA OpsR h} {he : HomElem eA ElemR h}.
  Notation T := (T h).

  Lemma near_pt (P : R -> Prop) p : (exists e, 0 < e /\ forall y : R, Rabs (y - p) <= e -> P y) -> P p.
  Proof. intros (e & He & H). apply H. rewrite Rminus_eq_0, Rabs_R0. lra. Qed.
  Lemma near_open a b p : a < p < b -> exists e, 0 < e /\ forall y, Rabs (y - p) <= e -> a < y < b.
  Proof.
    intros Hp. exists (Rmin (b - p) (p - a) / 2).
    assert (0 < Rmin (b - p) (p - a)) by (apply Rmin_pos; lra).
    split; [lra|]. intros y Hy. pose proof (Rmin_l (b - p) (p - a)). pose proof (Rmin_r (b - p) (p - a)).
    apply Rabs_le_between in Hy. lra.
  Qed.

  Section One.
    Variables (n : nat) (d : gdual A) (f : point -> R).
    Hypothesis H : T n d f.
    Hypothesis L : (Z.of_nat (gord d) < two31)%Z.
    Hypothesis Hn : forall s, In s (gsyms d) -> dname s.
    Let W := T_wf h _ _ _ H.
    Let Z := T_nz h _ _ _ H.
    Let S := T_sto h _ _ _ H.
    Let P0 := T_at0 h _ _ _ H.
    Let V := T_hval h d W Z.

    Lemma hv0 : hval h d origin = f origin.
    Proof. rewrite (hval_at0 h) by apply W. symmetry. exact P0. Qed.

    Lemma T_sq1m : T (gord d) (gsub_sg k1 (gmul d d)) (fun x => 1 - hval h d x * hval h d x).
    Proof.
      apply (T_ext_all h _ _ (fun x => h k1 - hval h d x * hval h d x)); [intros; rewrite (hom_1 h); reflexivity|].
      apply T_sub_sg; auto. apply T_mul; auto.
    Qed.
    Lemma T_sq1p : T (gord d) (gadd_sg k1 (gmul d d)) (fun x => 1 + hval h d x * hval h d x).
    Proof.
      apply (T_ext_all h _ _ (fun x => h k1 + hval h d x * hval h d x)); [intros; rewrite (hom_1 h); reflexivity|].
      apply T_add_sg; auto. apply T_mul; auto.
    Qed.

    Lemma T_atanh_d r : -1 < f origin < 1 -> gatanh_d d = Ok r -> T n r (fun x => atanh_R (f x)).
    Proof.
      intros Hp E. unfold gatanh_d in E.
      apply (T_quad h n d f _ _ r atanh_R (fun y => / (1 - y * y)) H) in E; auto.
      - apply (T_ext_all h _ _ (fun x => h k1 / (1 - hval h d x * hval h d x))); [intros; rewrite (hom_1 h); apply Rmult_1_l|].
        apply (T_div_sg h _ _ _ (fun x => 1 - hval h d x * hval h d x)); [apply T_sq1m|]. rewrite hv0. nra.
      - auto 8 with sto.
      - destruct (near_open _ _ _ Hp) as (e & He & N). exists e. split; auto. intros y Hy. apply is_derive_atanh; auto.
      - apply (ex_derive_continuous (fun y => / (1 - y * y))). auto_derive. nra.
      - rewrite (hom_atanh h), <- P0. reflexivity.
    Qed.
    Lemma T_atan_d r : gatan_d d = Ok r -> T n r (fun x => atan (f x)).
    Proof.
      intros E. unfold gatan_d in E.
      apply (T_quad h n d f _ _ r atan (fun y => / (1 + y * y)) H) in E; auto.
      - apply (T_ext_all h _ _ (fun x => h k1 / (1 + hval h d x * hval h d x))); [intros; rewrite (hom_1 h); apply Rmult_1_l|].
        apply (T_div_sg h _ _ _ (fun x => 1 + hval h d x * hval h d x)); [apply T_sq1p|]. rewrite hv0. nra.
      - auto 8 with sto.
      - exists 1. split; [lra|]. intros y _. auto_derive; auto. field. nra.
      - apply (ex_derive_continuous (fun y => / (1 + y * y))). auto_derive. nra.
      - rewrite (hom_atan h), <- P0. reflexivity.
    Qed.
    Lemma T_asin_d r : -1 < f origin < 1 -> gasin_d d = Ok r -> T n r (fun x => asin (f x)).
    Proof.
      intros Hp E. unfold gasin_d in E.
      apply (T_quad h n d f _ _ r asin (fun y => 1 / sqrt (1 - y * y)) H) in E; auto.
      - apply (T_ext_all h _ _ (fun x => h k1 / sqrt (1 - hval h d x * hval h d x))); [intros; rewrite (hom_1 h); reflexivity|].
        apply (T_div_sg h _ _ _ (fun x => sqrt (1 - hval h d x * hval h d x))).
        + apply (T_sqrt h _ _ (fun x => 1 - hval h d x * hval h d x)); [apply T_sq1m|]. rewrite hv0. nra.
        + rewrite hv0. pose proof (sqrt_lt_R0 (1 - f origin * f origin) ltac:(nra)). lra.
      - auto 8 with sto.
      - destruct (near_open _ _ _ Hp) as (e & He & N). exists e. split; auto. intros y Hy. apply is_derive_asin; auto.
      - apply (ex_derive_continuous (fun y => 1 / sqrt (1 - y * y))).
        pose proof (sqrt_lt_R0 (1 - f origin * f origin) ltac:(nra)). auto_derive. unfold Rminus in *. split; [nra|split; auto; lra].
      - rewrite (hom_asin h), <- P0. reflexivity.
    Qed.
    Lemma T_acos_d r : -1 < f origin < 1 -> gacos_d d = Ok r -> T n r (fun x => acos (f x)).
    Proof.
      intros Hp E. unfold gacos_d in E.
      apply (T_quad h n d f _ _ r acos (fun y => - (1) / sqrt (1 - y * y)) H) in E; auto.
      - apply (T_ext_all h _ _ (fun x => h (kopp k1) / sqrt (1 - hval h d x * hval h d x)));
          [intros; rewrite (hom_opp h), (hom_1 h); reflexivity|].
        apply (T_div_sg h _ _ _ (fun x => sqrt (1 - hval h d x * hval h d x))).
        + apply (T_sqrt h _ _ (fun x => 1 - hval h d x * hval h d x)); [apply T_sq1m|]. rewrite hv0. nra.
        + rewrite hv0. pose proof (sqrt_lt_R0 (1 - f origin * f origin) ltac:(nra)). lra.
      - auto 8 with sto.
      - destruct (near_open _ _ _ Hp) as (e & He & N). exists e. split; auto. intros y Hy. apply is_derive_acos; auto.
      - apply (ex_derive_continuous (fun y => - (1) / sqrt (1 - y * y))).
        pose proof (sqrt_lt_R0 (1 - f origin * f origin) ltac:(nra)). auto_derive. unfold Rminus in *. split; [nra|split; auto; lra].
      - rewrite (hom_acos h), <- P0. reflexivity.
    Qed.
    Lemma T_asinh_d r : gasinh_d d = Ok r -> T n r (fun x => asinh_R (f x)).
    Proof.
      intros E. unfold gasinh_d in E.
      apply (T_quad h n d f _ _ r asinh_R (fun y => 1 / sqrt (1 + y * y)) H) in E; auto.
      - apply (T_ext_all h _ _ (fun x => h k1 / sqrt (1 + hval h d x * hval h d x))); [intros; rewrite (hom_1 h); reflexivity|].
        apply (T_div_sg h _ _ _ (fun x => sqrt (1 + hval h d x * hval h d x))).
        + apply (T_sqrt h _ _ (fun x => 1 + hval h d x * hval h d x)); [apply T_sq1p|]. nra.
        + pose proof (sqrt_lt_R0 (1 + hval h d origin * hval h d origin) ltac:(nra)). lra.
      - auto 8 with sto.
      - exists 1. split; [lra|]. intros y _. apply is_derive_asinh.
      - apply (ex_derive_continuous (fun y => 1 / sqrt (1 + y * y))).
        pose proof (sqrt_lt_R0 (1 + f origin * f origin) ltac:(nra)). auto_derive. split; [nra|split; auto; lra].
      - rewrite (hom_asinh h), <- P0. reflexivity.
    Qed.
    Lemma T_acosh_d r : 1 < f origin -> gacosh_d d = Ok r -> T n r (fun x => acosh_R (f x)).
    Proof.
      intros Hp E. unfold gacosh_d in E.
      apply (T_quad h n d f _ _ r acosh_R (fun y => 1 / sqrt ((y - 1) * (y + 1))) H) in E; auto.
      - apply (T_ext_all h _ _ (fun x => h k1 / sqrt ((hval h d x - h k1) * (hval h d x + h k1))));
          [intros; rewrite (hom_1 h); reflexivity|].
        apply (T_div_sg h _ _ _ (fun x => sqrt ((hval h d x - h k1) * (hval h d x + h k1)))).
        + apply (T_sqrt h _ _ (fun x => (hval h d x - h k1) * (hval h d x + h k1))).
          * apply T_mul; [auto|apply T_sub_gs; auto|apply T_add_gs; auto].
          * rewrite hv0, (hom_1 h). cbn [k1 OpsR]. nra.
        + rewrite hv0, (hom_1 h). cbn [k1 OpsR]. pose proof (sqrt_lt_R0 ((f origin - 1) * (f origin + 1)) ltac:(nra)). lra.
      - auto 8 with sto.
      - destruct (near_open 1 (f origin + 1) (f origin) ltac:(lra)) as (e & He & N). exists e. split; auto. intros y Hy.
        apply is_derive_acosh. apply N; auto.
      - apply (ex_derive_continuous (fun y => 1 / sqrt ((y - 1) * (y + 1)))).
        pose proof (sqrt_lt_R0 ((f origin - 1) * (f origin + 1)) ltac:(nra)). auto_derive. unfold Rminus in *. split; [nra|split; auto; lra].
      - rewrite (hom_acosh h), <- P0. reflexivity.
    Qed.
    Lemma T_erf r : (forall c : A, keqb c k0 = false -> keqb (kopp c) k0 = false) ->
      gerf d = Ok r -> T n r (fun x => erf_R (f x)).
    Proof.
      intros Hneg E. unfold gerf in E.
      apply (T_quad h n d f _ _ r erf_R (fun y => 2 / sqrt PI * exp (- y * y)) H) in E; auto.
      - apply (T_ext_all h _ _ (fun x => h (kdiv (kofZ 2) (e_sqrt e_pi)) * exp (- hval h d x * hval h d x))).
        { intros. rewrite (hom_div h), (hom_ofZ h), (hom_sqrt h), (hom_pi h). reflexivity. }
        apply T_mul_sg; auto. apply (T_exp h _ _ (fun x => - hval h d x * hval h d x)).
        apply T_mul; auto. apply T_neg; auto.
      - assert (Sn : sto (gsyms d) (gord d) (gneg d)).
        { constructor; [apply gneg_gwf; exact W|apply (T_nz h _ _ _ (T_neg h _ _ _ Hneg V))|reflexivity|reflexivity]. }
        apply sto_mul_sg, sto_exp, sto_mul; auto.
      - exists 1. split; [lra|]. intros y _. apply is_derive_erf.
      - apply (ex_derive_continuous (fun y => 2 / sqrt PI * exp (- y * y))). auto_derive. auto.
      - rewrite (hom_erf h), <- P0. reflexivity.
    Qed.
    Lemma T_erfc r : (forall c : A, keqb c k0 = false -> keqb (kopp c) k0 = false) ->
      gerfc d = Ok r -> T n r (fun x => 1 - erf_R (f x)).
    Proof.
      intros Hneg E. unfold gerfc in E. destruct (gerf d) as [r'|] eqn:E1; cbn [rbind] in E; [|discriminate].
      inversion E; subst r.
      apply (T_ext_all h _ _ (fun x => h k1 - erf_R (f x))); [intros; rewrite (hom_1 h); reflexivity|].
      apply T_sub_sg; auto. apply T_erf; auto.
    Qed.
  End One.
End QuadFun.
