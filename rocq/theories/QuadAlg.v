(** * Quadratures from a derivative, algebraically (proof file)

    [compose_from_derivative] integrates dg * df along the axes.  Over any
    exact field its result is, up to the order, the polynomial R whose
    partial derivatives are dg * df and whose constant is g0.  With
    logarithms for R this gives atanh_d and atan_d. *)

From Coq Require Import String Ascii List Arith Bool Lia ZArith Setoid Morphisms Ring Field FunctionalExtensionality.
From Verif Require Import Ops Syms SymsFacts Poly PolyFacts Sem Den Gdual GdualFacts Functions FunStruct Spec CoefFacts CoreProofs MiscProofs FunAlg CalcProofs.
Import ListNotations.

Section QuadAlg.
  Context {K : Type} {o : Ops K} {fl : FieldLaws o}.
  Local Open Scope K_scope.
  Add Field Kfield : (fl_field (K:=K)).

  Notation idK := (fun x : K => x).
  Notation gd := (gden idK).

  (** Setting a symbol to zero. *)
  Definition sz (s : string) (l : sp K) : sp K := filter (fun t => Nat.eqb (snd (snd t) s) 0) l.
  Lemma Lf_sz s l F : Lf (sz s l) F = Lf l (fun d m => if Nat.eqb (m s) 0 then F d m else 0).
  Proof.
    unfold sz. induction l as [|t l IH]; auto. cbn [filter]. rewrite Lf_cons.
    destruct (Nat.eqb _ _); [rewrite Lf_cons|]; rewrite IH; ring.
  Qed.
  Lemma sz_proper tr s l l' : seqv tr l l' -> seqv tr (sz s l) (sz s l').
  Proof.
    intros [H]. constructor. intros F HF. rewrite !Lf_sz. apply H. intros d m Hk. rewrite HF by auto. destruct (Nat.eqb _ _); auto.
  Qed.
  Lemma sz_mul tr s a b : seqv tr (sz s (smul a b)) (smul (sz s a) (sz s b)).
  Proof.
    constructor. intros F _. rewrite Lf_sz, !Lf_smul, Lf_sz. apply Lf_ext_all. intros d m.
    destruct (Nat.eqb_spec (m s) 0) as [E|E].
    - rewrite Lf_sz. apply Lf_ext_all. intros d' m'. unfold monadd. rewrite E. reflexivity.
    - apply Lf_zero. intros d' m'. unfold monadd. destruct (Nat.eqb_spec (m s + m' s) 0); auto. lia.
  Qed.
  Lemma sz_mle s u (l : sp K) : Forall (mle u) l -> Forall (mle u) (sz s l).
  Proof. intros H. apply Forall_forall. intros t Ht. apply filter_In in Ht. rewrite Forall_forall in H. apply H, Ht. Qed.
  Lemma mset_id (m : mon) s : m s = 0%nat -> mset m s 0 = m.
  Proof. intros H. extensionality t. unfold mset. destruct (String.eqb_spec s t); subst; auto. Qed.
  Lemma gd_subs0 tr g s : gwf g -> seqv tr (gd (gsubs_val g s 0)) (sz s (gd g)).
  Proof.
    intros W. apply seqv_full. unfold gden, gsubs_val. cbn [gp]. rewrite (den_psubs_val idK None s 0) by apply W.
    constructor. intros F _. rewrite Lf_ssubst, Lf_sz. apply Lf_ext_all. intros d m.
    destruct (Nat.eqb_spec (m s) 0) as [E|E].
    - rewrite E. cbn [spow]. unfold s1. rewrite Lf_scon, mset_id, monadd_0_r by auto. rewrite Nat.sub_0_r, Nat.add_0_r. ring.
    - destruct (m s) as [|e]; [congruence|]. cbn [spow]. rewrite Lf_smul, Lf_scon. ring.
  Qed.

  (** Differentiation and integration. *)
  Lemma sdiff_None s (l l' : sp K) : seqv None l l' -> seqv None (sdiff s l) (sdiff s l').
  Proof. intros [H]. constructor. intros F _. rewrite !Lf_sdiff. apply H. intros d m []. exact I. Qed.
  Lemma sdiff_sz_other tr s u (l : sp K) : s <> u -> seqv tr (sdiff u (sz s l)) (sz s (sdiff u l)).
  Proof.
    intros N. constructor. intros F _. rewrite Lf_sdiff, !Lf_sz, Lf_sdiff. apply Lf_ext_all. intros d m.
    replace (mset m u (m u - 1) s) with (m s).
    - destruct (Nat.eqb _ _); ring.
    - unfold mset. destruct (String.eqb_spec u s); auto. congruence.
  Qed.
  Lemma sdiff_sz_same tr s (l : sp K) : seqv tr (sdiff s (sz s l)) s0.
  Proof.
    constructor. intros F _. rewrite Lf_sdiff, Lf_sz, Lf_s0. apply Lf_zero. intros d m.
    destruct (Nat.eqb_spec (m s) 0) as [->|]; auto. rewrite kofnat_0. ring.
  Qed.
  Lemma sdiff_add tr s (a b : sp K) : seqv tr (sdiff s (sadd a b)) (sadd (sdiff s a) (sdiff s b)).
  Proof. constructor. intros F _. rewrite Lf_sadd, !Lf_sdiff, Lf_sadd. reflexivity. Qed.
  Lemma sdiff_sub tr s (a b : sp K) : seqv tr (sdiff s (ssub a b)) (ssub (sdiff s a) (sdiff s b)).
  Proof. constructor. intros F _. rewrite Lf_ssub, !Lf_sdiff, Lf_ssub. reflexivity. Qed.
  Lemma sdiff_con tr s c : seqv tr (sdiff s (scon c)) s0.
  Proof. constructor. intros F _. rewrite Lf_sdiff, Lf_scon, Lf_s0. unfold mon0 at 1. rewrite kofnat_0. ring. Qed.
  Lemma con_mle u c : Forall (mle u) (scon c : sp K).
  Proof. constructor; [|constructor]. unfold mle. cbn. auto. Qed.
  Lemma smul_mle u (a b : sp K) : Forall (mle u) a -> Forall (mle u) b -> Forall (mle u) (smul a b).
  Proof.
    rewrite !Forall_forall. intros Ha Hb t Ht. unfold smul in Ht. apply in_flat_map in Ht. destruct Ht as (x & Hx & Ht).
    apply in_map_iff in Ht. destruct Ht as (y & <- & Hy). specialize (Ha x Hx). specialize (Hb y Hy).
    unfold mle, monadd in *. cbn [fst snd]. lia.
  Qed.
  Lemma sadd_mle u (a b : sp K) : Forall (mle u) a -> Forall (mle u) b -> Forall (mle u) (sadd a b).
  Proof. intros. unfold sadd. apply Forall_app. auto. Qed.
  Lemma sopp_mle u (a : sp K) : Forall (mle u) a -> Forall (mle u) (sopp a).
  Proof.
    rewrite !Forall_forall. intros Ha t Ht. unfold sopp in Ht. apply in_map_iff in Ht. destruct Ht as (x & <- & Hx). exact (Ha x Hx).
  Qed.
  Lemma spow_mle u (a : sp K) n : Forall (mle u) a -> Forall (mle u) (spow a n).
  Proof. intros H. induction n; cbn [spow]; [apply con_mle|apply smul_mle; auto]. Qed.
  Lemma psum_mle u a n (l : sp K) : Forall (mle u) l -> Forall (mle u) (psum a n l).
  Proof.
    intros H. induction n; cbn [psum]; [apply con_mle|]. apply sadd_mle; auto. apply smul_mle; [apply con_mle|apply spow_mle; auto].
  Qed.
  Lemma ghat_mle u g : gwf g -> Forall (mle u) (ghat idK g).
  Proof. intros W. unfold ghat, ssub. apply sadd_mle; [apply gd_mle; auto|apply sopp_mle, con_mle]. Qed.

  Lemma sint_sdiff tr s (l : sp K) : Forall (mle s) l -> seqv tr (sint s (sdiff s l)) (ssub l (sz s l)).
  Proof.
    intros H. constructor. intros F _. rewrite Lf_sint, Lf_sdiff, Lf_ssub, Lf_sz.
    replace (Lf l F - Lf l (fun d m => if Nat.eqb (m s) 0 then F d m else 0))
      with (Lf l (fun d m => if Nat.eqb (m s) 0 then 0 else F d m)).
    - apply Lf_ext. intros [c [d m]] Ht. cbn [fst snd]. rewrite Forall_forall in H. specialize (H _ Ht). unfold mle in H. cbn [fst snd] in H.
      destruct (m s) as [|e] eqn:E; cbn [Nat.eqb]; [rewrite kofnat_0; ring|].
      replace (mset m s (S e - 1) s) with e by (unfold mset; rewrite String.eqb_refl; lia).
      replace (S (d - 1)) with d by lia.
      replace (mset (mset m s (S e - 1)) s (S e)) with m.
      + field. apply kofnat_neq0. discriminate.
      + extensionality t. unfold mset. destruct (String.eqb_spec s t); subst; auto.
    - assert (P := Lf_plus l (fun d m => if Nat.eqb (m s) 0 then 0 else F d m) (fun d m => if Nat.eqb (m s) 0 then F d m else 0)).
      rewrite (Lf_ext_all l _ F) in P by (intros d m; destruct (Nat.eqb _ _); ring).
      rewrite P. ring.
  Qed.
  Lemma sint_proper N s (a b : sp K) : (forall n, (n < N)%nat -> seqv (Some n) a b) -> seqv (Some N) (sint s a) (sint s b).
  Proof.
    intros H. constructor. intros F HF. rewrite !Lf_sint. destruct N as [|N].
    - rewrite !Lf_zero; auto; intros d m; rewrite HF by (cbn; lia); ring.
    - destruct (H N) as [E]; [lia|]. apply E. intros d m Hd. cbn in Hd. rewrite HF by (cbn; lia). ring.
  Qed.
  Lemma gd_integrate g s r : gwf g -> (Z.of_nat (gord g) < two31)%Z -> gintegrate g s = Ok r ->
    seqv (Some (gord g)) (gd r) (sint (dsym s) (gd g)).
  Proof.
    intros W L E. apply gintegrate_Ok in E. destruct E as [_ ->]. unfold gden. cbn [gp].
    rewrite <- (den_pintegrate idK (Some (gord g)) (dsym s) (gp g)) by apply W.
    unfold ptruncateZ. apply (den_pfilter idK). intros u _ Hu. simpl in Hu. rewrite as_int_small by auto. apply Z.leb_le. lia.
  Qed.

  (** ** The loop *)
  Definition grad_ok (N : nat) (L : sp K) (f dg : gdual K) : Prop :=
    forall u n, (n < N)%nat -> seqv (Some n) (sdiff u L) (smul (gd dg) (sdiff u (gd f))).
  Fixpoint szs (l : list string) (L : sp K) : sp K :=
    match l with [] => L | s :: l => szs l (sz s L) end.

  Lemma step_alg N L f dg df t s : gwf f -> gwf dg -> gord f = N -> gord dg = N -> (Z.of_nat N < two31)%Z ->
    (forall u, Forall (mle u) L) -> grad_ok N L f dg ->
    gpartial f s = Ok df -> gintegrate (gmul dg df) s = Ok t ->
    seqv (Some N) (gd t) (ssub L (sz (dsym s) L)).
  Proof.
    intros Wf Wdg Of Odg B ML G E1 E2. destruct (gpartial_gwf _ _ _ Wf E1) as [Wdf Odf].
    assert (Wm : gwf (gmul dg df)) by (apply gmul_gwf; auto).
    assert (Om : gord (gmul dg df) = N) by (cbn [gmul gord]; lia).
    pose proof (gd_integrate _ _ _ Wm ltac:(rewrite Om; auto) E2) as I. rewrite Om in I. rewrite I.
    rewrite <- sint_sdiff by auto. apply sint_proper. intros n Hn. rewrite (G (dsym s) n Hn).
    rewrite (gden_mul idK) by (auto; lia). rewrite (gden_partial (Some n) f s df) by auto. reflexivity.
  Qed.
  Lemma grad_subs N L f dg s : gwf f -> gwf dg -> grad_ok N L f dg ->
    grad_ok N (sz s L) (gsubs_val f s 0) (gsubs_val dg s 0).
  Proof.
    intros Wf Wdg G u n Hn.
    assert (Df : seqv (Some n) (sdiff u (gd (gsubs_val f s 0))) (sdiff u (sz s (gd f)))).
    { apply seqv_full, sdiff_None, gd_subs0; auto. }
    rewrite Df, gd_subs0 by auto. destruct (string_dec s u) as [->|N'].
    - rewrite !sdiff_sz_same. constructor. intros F _. rewrite Lf_smul, Lf_s0. symmetry. apply Lf_zero. intros; apply Lf_s0.
    - rewrite !sdiff_sz_other by auto. rewrite <- sz_mul. apply sz_proper, G; auto.
  Qed.
  Lemma loop_alg N L0 ss : (Z.of_nat N < two31)%Z -> forall prev f dg t r L,
    gwf f -> gwf dg -> gwf t -> gord f = N -> gord dg = N -> (forall u, Forall (mle u) L) -> grad_ok N L f dg ->
    seqv (Some N) (gd t) (ssub L0 (sz (dsym prev) L)) ->
    compose_loop prev ss f dg t = Ok r ->
    seqv (Some N) (gd r) (ssub L0 (szs (map dsym (prev :: ss)) L)).
  Proof.
    intros B. induction ss as [|s ss IH]; intros prev f dg t r L Wf Wdg Wt Of Odg ML G Et E.
    - cbn [compose_loop] in E. inversion E; subst. exact Et.
    - cbn [compose_loop] in E. set (f' := gsubs_val f (dsym prev) 0) in *. set (dg' := gsubs_val dg (dsym prev) 0) in *.
      assert (Wf' : gwf f') by (apply gsubs_val_gwf; auto).
      assert (Wdg' : gwf dg') by (apply gsubs_val_gwf; auto).
      destruct (gpartial f' s) as [df|] eqn:E1; cbn [rbind] in E; [|discriminate].
      destruct (gintegrate (gmul dg' df) s) as [t'|] eqn:E2; cbn [rbind] in E; [|discriminate].
      destruct (gpartial_gwf _ _ _ Wf' E1) as [W1 _].
      destruct (gintegrate_gwf _ _ _ (gmul_gwf _ _ Wdg' W1) E2) as [W2 _].
      assert (G' : grad_ok N (sz (dsym prev) L) f' dg') by (apply grad_subs; auto).
      assert (ML' : forall u, Forall (mle u) (sz (dsym prev) L)) by (intros; apply sz_mle; auto).
      apply (IH s f' dg' (gadd t t') r (sz (dsym prev) L)) in E; auto.
      + apply gadd_gwf; auto.
      + rewrite (gden_add idK) by auto. rewrite Et, (step_alg N (sz (dsym prev) L) f' dg' df t' s) by auto.
        constructor. intros F _. rewrite Lf_sadd, !Lf_ssub. ring.
  Qed.

  Lemma szs_all (V : list string) : forall (L : sp K),
    (forall t, In t L -> (forall s, In s V -> snd (snd t) s = 0%nat) -> snd t = (0%nat, mon0)) ->
    seqv None (szs V L) (scon (scc (szs V L))).
  Proof.
    induction V as [|s V IH]; intros L H; cbn [szs].
    - constructor. intros F _. rewrite Lf_scon. unfold scc. rewrite <- Lf_scale_r. apply Lf_ext. intros t Ht.
      rewrite (H t Ht) by (intros ? []). cbn [fst snd Fconst]. ring.
    - apply IH. intros t Ht Hz. apply filter_In in Ht. destruct Ht as [Ht E]. apply Nat.eqb_eq in E. apply H; auto.
      intros u [->|Hu]; auto.
  Qed.
  Lemma scc_sz s (L : sp K) : (forall t, In t L -> fst (snd t) = 0%nat -> snd (snd t) = mon0) -> scc (sz s L) = scc L.
  Proof.
    intros H. unfold scc. rewrite Lf_sz. apply Lf_ext. intros [c [d m]] Ht. specialize (H _ Ht). cbn [fst snd] in *.
    destruct d; cbn [Fconst]; [rewrite H by auto; reflexivity|]. destruct (Nat.eqb _ _); auto.
  Qed.
  Lemma scc_szs (V : list string) : forall (L : sp K), okdeg L -> scc (szs V L) = scc L.
  Proof.
    induction V as [|s V IH]; intros L H; cbn [szs]; auto. rewrite IH; [apply scc_sz; exact H|].
    intros t Ht. apply filter_In in Ht. apply H, Ht.
  Qed.
  Lemma gd_only g V : gwf g -> incl (gsyms g) V ->
    forall t, In t (gd g) -> (forall s, In s V -> snd (snd t) s = 0%nat) -> snd t = (0%nat, mon0).
  Proof.
    intros [[Hs Hl Hn] _] HV t Ht Hz. unfold gden, den, tden in Ht. apply in_map_iff in Ht. destruct Ht as (x & <- & Hx). cbn [fst snd] in *.
    assert (E : expo (psyms (gp g)) (fst x) = mon0).
    { extensionality s. destruct (in_dec string_dec s (psyms (gp g))) as [Hi|Hi]; [apply Hz, HV, Hi|apply expo_not_In; auto]. }
    rewrite E. f_equal. unfold klen in Hl. rewrite Forall_forall in Hl. specialize (Hl x Hx).
    rewrite <- (map_expo_id (psyms (gp g)) (fst x)) by (auto using ssorted_NoDup). rewrite E.
    clear. induction (psyms (gp g)); cbn; auto.
  Qed.

  Theorem compose_alg N f dg g0 R r :
    gwf f -> gwf dg -> gord f = N -> gord dg = N -> (Z.of_nat N < two31)%Z ->
    (forall s, In s (gsyms f) -> dname s) -> gwf R -> incl (gsyms R) (gsyms f) ->
    grad_ok N (gd R) f dg -> constant_cf R = g0 ->
    compose_from_derivative f dg g0 = Ok r -> seqv (Some N) (gd r) (gd R).
  Proof.
    intros Wf Wdg Of Odg B Hn WR HR G H0 E.
    assert (Z : seqv (Some N) (szs (map dsym (map undsym (gsyms f))) (gd R)) (scon g0)).
    { assert (Em : map dsym (map undsym (gsyms f)) = gsyms f).
      { rewrite map_map. rewrite <- (map_id (gsyms f)) at 2. apply map_ext_in. intros s Hs. apply dname_inv; auto. }
      rewrite Em. rewrite (seqv_full (Some N) _ _ (szs_all (gsyms f) (gd R) (gd_only R _ WR HR))).
      rewrite scc_szs by apply den_okdeg. rewrite <- (constant_cf_scc idK) by auto. rewrite H0. reflexivity. }
    unfold compose_from_derivative, get_symbol_set in E. fold (gsyms f) in E.
    destruct (map undsym (gsyms f)) as [|s ss] eqn:Em.
    - inversion E; subst r. rewrite (gden_const idK). symmetry. exact Z.
    - destruct (gpartial f s) as [df|] eqn:E1; cbn [rbind] in E; [|discriminate].
      destruct (gintegrate (gmul dg df) s) as [t|] eqn:E2; cbn [rbind] in E; [|discriminate].
      destruct (compose_loop s ss f dg t) as [r'|] eqn:E3; cbn [rbind] in E; [|discriminate].
      inversion E; subst r. destruct (gpartial_gwf _ _ _ Wf E1) as [W1 _].
      destruct (gintegrate_gwf _ _ _ (gmul_gwf _ _ Wdg W1) E2) as [W2 _].
      assert (ML : forall u, Forall (mle u) (gd R)) by (intros; apply gd_mle; auto).
      assert (Q := step_alg N (gd R) f dg df t s Wf Wdg Of Odg B ML G E1 E2).
      destruct (compose_loop_inv _ _ _ _ _ _ Wf Wdg W2 (gintegrate_nz _ _ _ E2) E3) as [W3 _].
      apply (loop_alg N (gd R) ss B s f dg t r' (gd R)) in E3; auto.
      rewrite (gden_add_sg idK) by auto. rewrite E3, Z.
      constructor. intros F _. rewrite Lf_sadd, Lf_ssub. ring.
  Qed.
End QuadAlg.

Section LogD.
  Context {K : Type} {o : Ops K} {fl : FieldLaws o} {e : Elem K}.
  Local Open Scope K_scope.
  Add Field Kfield2 : (fl_field (K:=K)).
  Notation idK := (fun x : K => x).
  Notation gd := (gden idK).

  Section RT.
    Variable n : nat.
    Add Ring spring : (sp_ring_theory (K := K) (Some n)) (setoid (seqv_equiv (Some n)) (sp_ring_ext (Some n))).

    (** Chain rule for powers and power series. *)
    Lemma sdiff_pow s (l : sp K) k : Forall (mle s) l ->
      seqv (Some n) (sdiff s (spow l (S k))) (smul (smul (scon (kofnat (S k))) (spow l k)) (sdiff s l)).
    Proof.
      intros M. induction k.
      - cbn [spow]. rewrite (sdiff_mul (Some n)) by (auto; apply con_mle). unfold s1. rewrite sdiff_con.
        replace (kofnat 1) with (1 : K) by (rewrite kofnat_S, kofnat_0; ring). change (scon 1) with (s1 (K:=K)). ring.
      - change (spow l (S (S k))) with (smul l (spow l (S k))). rewrite (sdiff_mul (Some n)) by (auto using spow_mle).
        rewrite IHk. replace (scon (kofnat (S (S k)))) with (scon (1 + kofnat (S k)) : sp K).
        + rewrite scon_add, scon_1. cbn [spow]. ring.
        + f_equal. rewrite (kofnat_S (S k)). ring.
    Qed.
    Lemma sdiff_psum s (l : sp K) a M : Forall (mle s) l ->
      seqv (Some n) (sdiff s (psum a (S M) l)) (smul (psum (fun i => kofnat (S i) * a (S i)) M l) (sdiff s l)).
    Proof.
      intros H. induction M.
      - cbn [psum]. rewrite sdiff_add, sdiff_con, (sdiff_mul (Some n)), sdiff_con, sdiff_pow, scon_mul
          by (auto using con_mle, spow_mle). cbn [spow]. ring.
      - change (psum a (S (S M)) l) with (sadd (psum a (S M) l) (smul (scon (a (S (S M)))) (spow l (S (S M))))).
        rewrite sdiff_add, IHM, (sdiff_mul (Some n)), sdiff_con, sdiff_pow by (auto using con_mle, spow_mle).
        cbn [psum]. rewrite (scon_mul (Some n) (kofnat (S (S M)))). ring.
    Qed.

    Lemma inv_series (l : sp K) c : vanish 1 l -> c <> 0 ->
      seqv (Some n) (smul (psum (fun i => alt i / kpow c (S i)) n l) (sadd (scon c) l)) s1.
    Proof.
      intros V Hc. set (b := fun i => alt i / kpow c (S i)).
      assert (P : forall k, kpow c k <> 0) by (intros; apply kpow_neq0; auto).
      assert (T : forall M, seqv (Some n) (smul (psum b M l) (sadd (scon c) l)) (sadd s1 (smul (scon (b M)) (spow l (S M))))).
      { induction M; cbn [psum].
        - assert (X : seqv (Some n) (smul (scon (b 0%nat)) (scon c)) s1).
          { rewrite <- scon_mul. replace (b 0%nat * c) with (1:K); [reflexivity|]. unfold b, alt. cbn [kpow]. field. auto. }
          transitivity (sadd (smul (scon (b 0%nat)) (scon c)) (smul (scon (b 0%nat)) l)); [ring|]. rewrite X. cbn [spow]. ring.
        - assert (X : seqv (Some n) (smul (scon (b (S M))) (scon c)) (sopp (scon (b M)))).
          { rewrite <- scon_mul, <- scon_opp. replace (b (S M) * c) with (- b M); [reflexivity|]. unfold b, alt. cbn [kpow]. field.
            auto. }
          transitivity (sadd (smul (psum b M l) (sadd (scon c) l))
             (sadd (smul (smul (scon (b (S M))) (scon c)) (spow l (S M))) (smul (scon (b (S M))) (smul l (spow l (S M)))))); [ring|].
          rewrite IHM, X. cbn [spow]. ring. }
      rewrite T. assert (Hz : seqv (Some n) (spow l (S n)) s0) by (apply vanish_seqv, vanish_pow1; auto).
      rewrite Hz. ring.
    Qed.

    (** The derivative of the logarithm. *)
    Lemma log_diff d s : gwf d -> (n < gord d)%nat -> constant_cf d <> 0 ->
      seqv (Some n) (smul (gd d) (sdiff s (gd (glog d)))) (sdiff s (gd d)).
    Proof.
      intros W Hn Hc.
      assert (E := glog_psum idK (S n) d W Hn Hc).
      apply (sdiff_proper n s) in E. rewrite E. rewrite sdiff_psum by (apply ghat_mle; auto).
      rewrite (psum_ext _ (fun i => alt i / kpow (constant_cf d) (S i))).
      - assert (D : seqv (Some n) (sdiff s (ghat idK d)) (sdiff s (gd d))).
        { unfold ghat. rewrite sdiff_sub, sdiff_con. ring. }
        rewrite D. assert (G : seqv (Some n) (gd d) (sadd (scon (constant_cf d)) (ghat idK d))).
        { rewrite (ghat_eq idK n d) at 1. rewrite <- (constant_cf_scc idK) by auto. reflexivity. }
        transitivity (smul (smul (psum (fun i => alt i / kpow (constant_cf d) (S i)) n (ghat idK d)) (gd d)) (sdiff s (gd d))); [ring|].
        rewrite G at 1. rewrite inv_series by (auto; apply ghat_vanish). ring.
      - intros i _. unfold logc. field. split; [apply kpow_neq0; auto|apply kofnat_neq0; discriminate].
    Qed.

    (** gamma (log (1 + beta f) - log (1 - beta f)) has the derivative of f over 1 - beta^2 f^2. *)
    Lemma logs_diff (be ga : K) f A B dg s : gwf f -> gwf A -> gwf B -> (n < gord A)%nat -> (n < gord B)%nat ->
      constant_cf A <> 0 -> constant_cf B <> 0 ->
      seqv None (gd A) (sadd s1 (smul (scon be) (gd f))) -> seqv None (gd B) (ssub s1 (smul (scon be) (gd f))) ->
      ga * be + ga * be = 1 ->
      seqv (Some n) (smul (gd dg) (smul (gd A) (gd B))) s1 ->
      gwf (glog A) -> gwf (glog B) ->
      seqv (Some n) (sdiff s (gd (gmul_sg ga (gsub (glog A) (glog B))))) (smul (gd dg) (sdiff s (gd f))).
    Proof.
      intros Wf WA WB OA OB CA CB EA EB H1 Hd WlA WlB.
      set (u := sdiff s (gd f)).
      assert (DA : seqv (Some n) (sdiff s (gd A)) (smul (scon be) u)).
      { rewrite (seqv_full (Some n) _ _ (sdiff_None s _ _ EA)). rewrite sdiff_add. unfold s1 at 1.
        rewrite sdiff_con, (sdiff_mul (Some n)), sdiff_con by (auto using con_mle, gd_mle). fold u. ring. }
      assert (DB : seqv (Some n) (sdiff s (gd B)) (sopp (smul (scon be) u))).
      { rewrite (seqv_full (Some n) _ _ (sdiff_None s _ _ EB)). rewrite sdiff_sub. unfold s1 at 1.
        rewrite sdiff_con, (sdiff_mul (Some n)), sdiff_con by (auto using con_mle, gd_mle). fold u. ring. }
      assert (LA := log_diff A s WA OA CA). assert (LB := log_diff B s WB OB CB). rewrite DA in LA. rewrite DB in LB.
      assert (DR : seqv (Some n) (sdiff s (gd (gmul_sg ga (gsub (glog A) (glog B)))))
        (smul (scon ga) (ssub (sdiff s (gd (glog A))) (sdiff s (gd (glog B)))))).
      { assert (ER : seqv None (gd (gmul_sg ga (gsub (glog A) (glog B)))) (smul (scon ga) (ssub (gd (glog A)) (gd (glog B))))).
        { rewrite (gden_mul_sg idK), (gden_sub idK) by auto using gsub_gwf. reflexivity. }
        rewrite (seqv_full (Some n) _ _ (sdiff_None s _ _ ER)).
        rewrite (sdiff_mul (Some n)), sdiff_con, sdiff_sub.
        - ring.
        - apply con_mle.
        - unfold ssub. apply sadd_mle; [|apply sopp_mle]; apply gd_mle; auto. }
      rewrite DR. set (a := sdiff s (gd (glog A))) in *. set (b := sdiff s (gd (glog B))) in *.
      transitivity (smul (smul (gd dg) (smul (gd A) (gd B))) (smul (scon ga) (ssub a b))); [rewrite Hd; ring|].
      transitivity (smul (gd dg) (smul (scon ga) (ssub (smul (gd B) (smul (gd A) a)) (smul (gd A) (smul (gd B) b))))); [ring|].
      rewrite LA, LB, (seqv_full (Some n) _ _ EA), (seqv_full (Some n) _ _ EB).
      transitivity (smul (gd dg) (smul (sadd (smul (scon ga) (scon be)) (smul (scon ga) (scon be))) u)); [ring|].
      rewrite <- scon_mul, <- scon_add, H1, scon_1. ring.
    Qed.
  End RT.

  Lemma sto_gwf V n (g : gdual K) : sto V n g -> gwf g.
  Proof. intros H. apply H. Qed.
  Lemma scc_gd g : gwf g -> scc (gd g) = constant_cf g.
  Proof. intros W. symmetry. apply (constant_cf_scc idK). auto. Qed.

  (** The two quadratures.  [r] is the result of the call; its value is, up
      to the order, the combination of logarithms. *)
  Lemma quad_logs (be ga g0 : K) f A B D r V N : sto V N f -> sto V N A -> sto V N B -> sto V N D -> (Z.of_nat N < two31)%Z ->
    (forall s, In s V -> dname s) ->
    constant_cf A <> 0 -> constant_cf B <> 0 ->
    seqv None (gd A) (sadd s1 (smul (scon be) (gd f))) -> seqv None (gd B) (ssub s1 (smul (scon be) (gd f))) ->
    seqv (Some N) (gd D) (smul (gd A) (gd B)) ->
    ga * be + ga * be = 1 ->
    g0 = ga * (e_log (constant_cf A) - e_log (constant_cf B)) ->
    compose_from_derivative f (gdiv_sg 1 D) g0 = Ok r ->
    seqv (Some N) (gd r) (gd (gmul_sg ga (gsub (glog A) (glog B)))).
  Proof.
    intros Sf SA SB SD B2 Hn CA CB EA EB ED H1 H0 E.
    assert (Wf := sto_gwf _ _ _ Sf). assert (WA := sto_gwf _ _ _ SA). assert (WB := sto_gwf _ _ _ SB). assert (WD := sto_gwf _ _ _ SD).
    assert (SlA : sto V N (glog A)) by (apply sto_log; auto). assert (SlB : sto V N (glog B)) by (apply sto_log; auto).
    assert (WlA := sto_gwf _ _ _ SlA). assert (WlB := sto_gwf _ _ _ SlB).
    assert (SR : sto V N (gmul_sg ga (gsub (glog A) (glog B)))) by (apply sto_mul_sg, sto_sub; auto).
    assert (CD : constant_cf D = constant_cf A * constant_cf B).
    { rewrite <- !scc_gd by auto. rewrite (scc_eqv _ _ _ ED), scc_mul. reflexivity. }
    assert (ND : constant_cf D <> 0) by (rewrite CD; apply kmul_neq0; auto).
    assert (Of : gord f = N) by apply Sf. assert (OA : gord A = N) by apply SA. assert (OB : gord B = N) by apply SB.
    assert (OD : gord D = N) by apply SD.
    apply (compose_alg N f (gdiv_sg 1 D) g0); auto.
    - apply gdiv_sg_gwf; auto.
    - rewrite gdiv_sg_ord; auto.
    - intros s Hs. apply Hn. assert (X : gsyms f = V) by apply Sf. rewrite X in Hs. auto.
    - apply SR.
    - assert (X : gsyms f = V) by apply Sf. assert (Y : gsyms (gmul_sg ga (gsub (glog A) (glog B))) = V) by apply SR.
      rewrite X, Y. apply incl_refl.
    - intros s n Hl. apply (logs_diff n be); auto; try lia.
      rewrite <- (seqv_le n N _ _ ltac:(lia) ED). rewrite (gden_div_sg_mul idK) by (auto; lia). reflexivity.
    - rewrite <- scc_gd by apply SR. rewrite (scc_eqv None _ _ (gden_mul_sg idK None ga (gsub (glog A) (glog B)) (gsub_gwf _ _ WlA WlB))).
      rewrite scc_mul, scc_scon. rewrite (scc_eqv None _ _ (gden_sub idK None _ _ WlA WlB)), scc_sub, H0. f_equal.
      assert (L : forall d, gwf d -> gwf (glog d) -> constant_cf d <> 0 -> scc (gd (glog d)) = e_log (constant_cf d)).
      { intros d W _ Hc. rewrite (scc_eqv _ _ _ (glog_psum idK 0 d W (Nat.le_0_l _) Hc)). apply scc_scon. }
      rewrite !L; auto.
  Qed.
End LogD.

(** ** Any exact field *)
Section Any.
  Context {K : Type} {o : Ops K} {fl : FieldLaws o}.
  Local Open Scope K_scope.
  Add Field Kfield : (fl_field (K:=K)).
  Notation idK := (fun x : K => x).
  Notation gd := (gden idK).

  Lemma sdiff_outside u (g : gdual K) tr : gwf g -> ~ In u (gsyms g) -> seqv tr (sdiff u (gd g)) s0.
  Proof.
    intros W N. constructor. intros F _. rewrite Lf_sdiff, Lf_s0. rewrite <- (Lf_zero (gd g) (fun _ _ => 0)) by auto.
    apply Lf_ext. intros t Ht. unfold gden, den, tden in Ht. apply in_map_iff in Ht. destruct Ht as (x & <- & Hx). cbn [fst snd].
    rewrite expo_not_In by auto. rewrite kofnat_0. ring.
  Qed.

  Lemma compose_gradient (f dg R r : gdual K) : valid f -> valid dg -> valid R ->
    get_order dg = get_order f -> get_order R = get_order f -> (Z.of_nat (get_order f) < 2147483648)%Z ->
    (forall s, In s (psyms (gp f)) -> exists c t, s = dsym (String c t) /\ c <> "d"%char) ->
    incl (psyms (gp R)) (psyms (gp f)) ->
    (forall s p q, gpartial R s = Ok p -> gpartial f s = Ok q ->
       forall W k, NoDup W -> length k = length W -> (list_sum k < get_order f)%nat -> coef p W k = coef (gmul dg q) W k) ->
    compose_from_derivative f dg (constant_cf R) = Ok r -> geqb r R = true.
  Proof.
    intros Vf Vdg VR Odg OR B Hn Hi G E.
    assert (Wf := valid_gwf _ Vf). assert (Wdg := valid_gwf _ Vdg). assert (WR := valid_gwf _ VR).
    destruct (compose_inv f dg _ r Wf Wdg E) as [Wr Zr].
    unfold get_order in *.
    assert (Or : (gord r <= gord f)%nat).
    { apply (compose_ord f dg r (constant_cf R)); auto. lia. }
    assert (Q : seqv (Some (gord f)) (gd r) (gd R)).
    { apply (compose_alg (gord f) f dg (constant_cf R)); auto.
      - intros s Hs. apply good_dname. exact (Hn s Hs).
      - intros u n Hl. destruct (in_dec string_dec u (gsyms f)) as [Hu|Hu].
        + destruct (Hn u Hu) as (c & t & -> & Hc).
          assert (CK : check_var_name (String c t) = Ok tt).
          { assert (X := check_good (dsym (String c t)) ltac:(exists c, t; auto)). exact X. }
          assert (E1 : gpartial R (String c t) = Ok (mkG (pdiff (dsym (String c t)) (gp R)) (gord R))) by (unfold gpartial; rewrite CK; reflexivity).
          assert (E2 : gpartial f (String c t) = Ok (mkG (pdiff (dsym (String c t)) (gp f)) (gord f))) by (unfold gpartial; rewrite CK; reflexivity).
          destruct (gpartial_gwf _ _ _ WR E1) as [Wp Op]. destruct (gpartial_gwf _ _ _ Wf E2) as [Wq Oq].
          rewrite <- (gden_partial (Some n) R _ _ WR E1), <- (gden_partial (Some n) f _ _ Wf E2).
          rewrite <- (gden_mul idK) by (auto; lia). apply agree_iff; auto using gmul_gwf.
          intros W k HW Hk Hd. apply (G _ _ _ E1 E2); auto. lia.
        + rewrite sdiff_outside by (auto; intros X; apply Hu, Hi, X). rewrite sdiff_outside by auto.
          constructor. intros F _. rewrite Lf_smul, Lf_s0. symmetry. apply Lf_zero. intros; apply Lf_s0. }
    apply geqb_seqv; auto using valid_gnz. apply (seqv_bounded (gord f)); auto.
    - apply (den_sdle idK). eapply dle_mono; [exact Or|apply Wr].
    - apply (den_sdle idK). rewrite <- OR. apply WR.
  Qed.
  Section Sq.
    Variable n : nat.
    Add Ring springQ : (sp_ring_theory (K := K) (Some n)) (setoid (seqv_equiv (Some n)) (sp_ring_ext (Some n))).
    Lemma square_ring (a b : sp K) : seqv (Some n) (sadd (smul b a) (smul a b)) (smul (sadd a a) b).
    Proof. ring. Qed.
  End Sq.
  (** The gradient of d * d. *)
  Lemma square_gradient (f : gdual K) s p q : valid f -> gpartial (gmul f f) s = Ok p -> gpartial f s = Ok q ->
    forall W k, NoDup W -> length k = length W -> (list_sum k < get_order f)%nat -> coef p W k = coef (gmul (gadd f f) q) W k.
  Proof.
    intros V Ep Eq W k HW Hk L. assert (Wf := valid_gwf _ V). unfold get_order in *.
    destruct (gpartial_gwf _ _ _ (gmul_gwf _ _ Wf Wf) Ep) as [Wp Op]. destruct (gpartial_gwf _ _ _ Wf Eq) as [Wq Oq].
    destruct (gord f) as [|n] eqn:On; [lia|].
    assert (A : agree n (gadd (gmul q f) (gmul f q)) (gmul (gadd f f) q)).
    { apply agree_iff; auto using gmul_gwf, gadd_gwf.
      rewrite (gden_add idK) by auto using gmul_gwf. rewrite !(gden_mul idK), (gden_add idK) by (auto using gadd_gwf; cbn [gadd gord]; lia). apply square_ring. }
    rewrite <- (A W k HW Hk) by lia. apply (leibniz f f s q q p n); auto; lia.
  Qed.
  Lemma compose_square (f r : gdual K) : valid f -> (Z.of_nat (get_order f) < 2147483648)%Z ->
    (forall s, In s (psyms (gp f)) -> exists c t, s = dsym (String c t) /\ c <> "d"%char) ->
    compose_from_derivative f (gadd f f) (constant_cf (gmul f f)) = Ok r -> geqb r (gmul f f) = true.
  Proof.
    intros V B Hn E. pose proof (sto_valid f V) as S. assert (S2 := sto_mul _ _ _ _ S S). assert (S1 := sto_add _ _ _ _ S S).
    apply (compose_gradient f (gadd f f) (gmul f f) r); auto.
    - apply valid_iff. split; [apply S1|apply S1].
    - apply valid_iff. split; [apply S2|apply S2].
    - apply S1.
    - apply S2.
    - destruct S2 as [_ _ _ S2]. unfold gsyms in S2. rewrite S2. apply incl_refl.
    - intros s p q Ep Eq. apply (square_gradient f s p q); auto.
  Qed.
End Any.
