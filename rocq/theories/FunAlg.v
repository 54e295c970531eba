(** * The loops of the elementary functions as truncated power series
    (proof file).

    For every function the polynomial computed by the loop is, modulo terms of
    degree above the truncation order, a power series in the non-constant part
    of the argument.  The coefficients live in [K]; the gdual has coefficients
    in [A], mapped to [K] by a homomorphism [h] (the identity for plain
    doubles, the projection on a component for vectorized coefficients). *)

From Coq Require Import String List Arith Bool Lia ZArith Setoid Morphisms Ring Field.
From Verif Require Import Ops Syms SymsFacts Poly PolyFacts Sem Den Gdual GdualFacts Functions.
Import ListNotations.

(** Elementary functions preserved by the homomorphism. *)
Class HomElem {A K : Type} (eA : Elem A) (eK : Elem K) (h : A -> K) : Prop := mkHomElem {
  hom_exp : forall a, h (e_exp a) = e_exp (h a);
  hom_log : forall a, h (e_log a) = e_log (h a);
  hom_sqrt : forall a, h (e_sqrt a) = e_sqrt (h a);
  hom_cbrt : forall a, h (e_cbrt a) = e_cbrt (h a);
  hom_sin : forall a, h (e_sin a) = e_sin (h a);
  hom_cos : forall a, h (e_cos a) = e_cos (h a);
  hom_tan : forall a, h (e_tan a) = e_tan (h a);
  hom_sinh : forall a, h (e_sinh a) = e_sinh (h a);
  hom_cosh : forall a, h (e_cosh a) = e_cosh (h a);
  hom_tanh : forall a, h (e_tanh a) = e_tanh (h a);
  hom_asin : forall a, h (e_asin a) = e_asin (h a);
  hom_acos : forall a, h (e_acos a) = e_acos (h a);
  hom_atan : forall a, h (e_atan a) = e_atan (h a);
  hom_asinh : forall a, h (e_asinh a) = e_asinh (h a);
  hom_acosh : forall a, h (e_acosh a) = e_acosh (h a);
  hom_atanh : forall a, h (e_atanh a) = e_atanh (h a);
  hom_erf : forall a, h (e_erf a) = e_erf (h a);
  hom_epow : forall a b, h (e_pow a b) = e_pow (h a) (h b);
  hom_pi : h e_pi = e_pi;
  hom_bern : forall k, h (e_bern k) = e_bern k
}.

#[global] Instance HomElem_id {K} (e : Elem K) : HomElem e e (fun x => x).
Proof. constructor; auto. Qed.
#[global] Arguments hom_exp {A K eA eK} h {HomElem}.
#[global] Arguments hom_log {A K eA eK} h {HomElem}.
#[global] Arguments hom_sqrt {A K eA eK} h {HomElem}.
#[global] Arguments hom_cbrt {A K eA eK} h {HomElem}.
#[global] Arguments hom_sin {A K eA eK} h {HomElem}.
#[global] Arguments hom_cos {A K eA eK} h {HomElem}.
#[global] Arguments hom_tan {A K eA eK} h {HomElem}.
#[global] Arguments hom_sinh {A K eA eK} h {HomElem}.
#[global] Arguments hom_cosh {A K eA eK} h {HomElem}.
#[global] Arguments hom_tanh {A K eA eK} h {HomElem}.
#[global] Arguments hom_asin {A K eA eK} h {HomElem}.
#[global] Arguments hom_acos {A K eA eK} h {HomElem}.
#[global] Arguments hom_atan {A K eA eK} h {HomElem}.
#[global] Arguments hom_asinh {A K eA eK} h {HomElem}.
#[global] Arguments hom_acosh {A K eA eK} h {HomElem}.
#[global] Arguments hom_atanh {A K eA eK} h {HomElem}.
#[global] Arguments hom_erf {A K eA eK} h {HomElem}.
#[global] Arguments hom_epow {A K eA eK} h {HomElem}.
#[global] Arguments hom_pi {A K eA eK} h {HomElem}.
#[global] Arguments hom_bern {A K eA eK} h {HomElem}.

(** ** Algebra of [psum] *)
Section PSum2.
  Context {K : Type} {o : Ops K} {fl : FieldLaws o}.
  Local Open Scope K_scope.
  Add Field KfieldP : (fl_field (K:=K)).
  Variable tr : option nat.
  Add Ring springP : (sp_ring_theory tr) (setoid (seqv_equiv tr) (sp_ring_ext tr)).

  Lemma psum_S a N (l : sp K) : psum a (S N) l = sadd (psum a N l) (smul (scon (a (S N))) (spow l (S N))).
  Proof. reflexivity. Qed.

  Lemma psum_add a b N (l : sp K) : seqv tr (psum (fun i => a i + b i) N l) (sadd (psum a N l) (psum b N l)).
  Proof.
    induction N; cbn [psum]; rewrite scon_add; [reflexivity|]. rewrite IHN. ring.
  Qed.
  Lemma psum_scale c a N (l : sp K) : seqv tr (psum (fun i => c * a i) N l) (smul (scon c) (psum a N l)).
  Proof.
    induction N; cbn [psum]; rewrite scon_mul; [reflexivity|]. rewrite IHN. ring.
  Qed.
  Lemma psum_sub a b N (l : sp K) : seqv tr (psum (fun i => a i - b i) N l) (ssub (psum a N l) (psum b N l)).
  Proof.
    induction N; cbn [psum]; rewrite scon_sub; [reflexivity|]. rewrite IHN. ring.
  Qed.

  (** Argument multiplied by a constant. *)
  Lemma psum_arg c a N (l : sp K) : seqv tr (psum a N (smul (scon c) l)) (psum (fun i => a i * kpow c i) N l).
  Proof.
    induction N; cbn [psum].
    - cbn [kpow]. rewrite (scon_mul tr). rewrite (scon_1 tr). ring.
    - rewrite IHN. rewrite (spow_mul tr), (scon_mul tr), (scon_pow tr). ring.
  Qed.

  (** Zero constant term. *)
  Lemma psum_const0 N (l : sp K) c : (forall i, (1 <= i <= N)%nat -> c i = 0) -> seqv tr (psum c N l) (scon (c O)).
  Proof.
    induction N; intros H; cbn [psum]; [reflexivity|]. rewrite IHN by (intros; apply H; lia).
    rewrite (H (S N)) by lia. rewrite scon_0. ring.
  Qed.

  Definition evenc (a : nat -> K) (i : nat) : K := if Nat.even i then a (i / 2)%nat else 0.
  Definition oddc (a : nat -> K) (i : nat) : K := if Nat.even i then 0 else a (i / 2)%nat.

  Lemma even_2 N : Nat.even (2 * N) = true.
  Proof. rewrite Nat.even_mul. reflexivity. Qed.
  Lemma even_2_1 N : Nat.even (S (2 * N)) = false.
  Proof. rewrite Nat.even_succ, <- Nat.negb_even, even_2. reflexivity. Qed.
  Lemma half_2 N : (2 * N / 2)%nat = N.
  Proof. rewrite Nat.mul_comm, Nat.div_mul; auto. Qed.
  Lemma half_2_1 N : (S (2 * N) / 2)%nat = N.
  Proof.
    replace (S (2 * N)) with (1 + N * 2)%nat by lia. rewrite Nat.div_add by lia. reflexivity.
  Qed.

  Lemma psum_even a N (l : sp K) : seqv tr (psum a N (smul l l)) (psum (evenc a) (S (2 * N)) l).
  Proof.
    induction N.
    - cbn [psum Nat.mul Nat.add]. unfold evenc. cbn [Nat.even]. change (0 / 2)%nat with O.
      rewrite scon_0. ring.
    - rewrite psum_S, IHN. replace (2 * S N)%nat with (S (S (2 * N))) by lia.
      rewrite (psum_S _ (S (S (2 * N)))), (psum_S _ (S (2 * N))).
      unfold evenc at 3 4.
      replace (Nat.even (S (S (S (2 * N))))) with false by (symmetry; apply (even_2_1 N)).
      replace (S (S (2 * N))) with (2 * S N)%nat by lia.
      rewrite even_2, half_2. rewrite scon_0.
      rewrite (spow_mul tr). replace (2 * S N)%nat with (S N + S N)%nat by lia.
      rewrite (spow_add tr). ring.
  Qed.

  Lemma psum_odd a N (l : sp K) : seqv tr (smul l (psum a N (smul l l))) (psum (oddc a) (S (2 * N)) l).
  Proof.
    induction N.
    - cbn [psum Nat.mul Nat.add]. unfold oddc. cbn [Nat.even]. change (1 / 2)%nat with O.
      rewrite scon_0. rewrite (spow_1 tr). ring.
    - replace (2 * S N)%nat with (S (S (2 * N))) by lia.
      rewrite (psum_S _ (S (S (2 * N)))), (psum_S _ (S (2 * N))). rewrite <- IHN. rewrite psum_S.
      unfold oddc.
      replace (Nat.even (S (S (S (2 * N))))) with false by (symmetry; apply (even_2_1 N)).
      replace (S (S (2 * N))) with (2 * S N)%nat by lia.
      rewrite even_2, half_2_1. rewrite scon_0.
      rewrite (spow_mul tr). replace (S (2 * S N))%nat with (S (S N + S N))%nat by lia.
      rewrite (spow_S tr l (S N + S N)), (spow_add tr l (S N) (S N)). ring.
  Qed.
End PSum2.

Section FunAlg.
  Context {A K : Type} {oA : Ops A} {oK : Ops K} {fl : FieldLaws oK}.
  Context {eA : Elem A} {eK : Elem K}.
  Variable h : A -> K.
  Context {hh : Hom oA oK h} {he : HomElem eA eK h}.
  Local Open Scope K_scope.
  Add Field KfieldF : (fl_field (K:=K)).
  Notation gd := (gden h).
  Notation cc := (fun d => h (constant_cf d)).

  (** ** Division by a gdual that is a constant *)
  Definition isconst (b : gdual A) (c : K) : Prop := gwf b /\ seqv None (gd b) (scon c).

  Lemma isconst_cc b c : isconst b c -> h (constant_cf b) = c.
  Proof.
    intros [W E]. rewrite (constant_cf_scc h) by auto. rewrite (scc_eqv _ _ _ E). apply scc_scon.
  Qed.

  Lemma sdle_scon n c : sdle (K:=K) n (scon c).
  Proof. constructor; [simpl; lia|constructor]. Qed.

  Lemma grecip_const b c : isconst b c -> c <> 0 -> seqv None (gd (grecip_loop b)) (scon 1).
  Proof.
    intros H Hc. assert (Eb := isconst_cc b c H). destruct H as [W E].
    destruct (grecip_gwf b W) as [Wr Or].
    apply (seqv_bounded (gord b)).
    - apply (den_sdle h). rewrite <- Or. apply Wr.
    - apply sdle_scon.
    - rewrite (gden_grecip h) by (auto; rewrite Eb; auto).
      assert (Ez : seqv (Some (gord b)) (ghat h b) s0).
      { unfold ghat. rewrite <- (constant_cf_scc h) by auto. rewrite Eb. rewrite (seqv_full _ _ _ E).
        constructor. intros F _. rewrite Lf_ssub, Lf_s0. ring. }
      rewrite (psum_proper _ _ _ _ s0).
      + generalize (Nat.max 1 (gord b)). intros N.
        assert (S0 : forall M, seqv (Some (gord b)) (psum alt M s0) (scon (K:=K) 1)).
        { induction M; cbn [psum]; [reflexivity|]. rewrite IHM.
          constructor. intros F _. rewrite Lf_sadd, Lf_smul_scon. cbn [spow].
          unfold smul, s0. cbn [flat_map]. rewrite Lf_nil. ring. }
        apply S0.
      + rewrite Ez. constructor. intros F _. rewrite Lf_smul_scon, Lf_s0. ring.
  Qed.

  Section Fixed.
    Variable n : nat.
    Add Ring springF : (sp_ring_theory (Some n)) (setoid (seqv_equiv (Some n)) (sp_ring_ext (Some n))).

    Lemma gden_div_const a b c : gwf a -> isconst b c -> c <> 0 -> (n <= gord a)%nat ->
      seqv (Some n) (gd (gdiv a b)) (smul (scon (1 / c)) (gd a)).
    Proof.
      intros Wa H Hc Hn. unfold gdiv. destruct H as [W E]. destruct (grecip_gwf b W) as [Wr Or].
      rewrite (gden_div_gs h) by auto with gwf.
      rewrite (gden_mul h n) by (auto; lia).
      rewrite (seqv_full _ _ _ (grecip_const b c (conj W E) Hc)).
      rewrite (isconst_cc b c (conj W E)). rewrite scon_1. ring.
    Qed.

    (** The non-constant part as a gdual. *)
    Definition phat_of (d : gdual A) : gdual A := gsub_gs d (constant_cf d).
    Lemma phat_gwf d : gwf d -> gwf (phat_of d).
    Proof. unfold phat_of. auto with gwf. Qed.
    Lemma phat_ord d : gord (phat_of d) = gord d.
    Proof. reflexivity. Qed.
    Lemma phat_den d : gwf d -> seqv (Some n) (gd (phat_of d)) (ghat h d).
    Proof.
      intros W. unfold phat_of. rewrite (gden_sub_gs h) by auto. unfold ghat.
      rewrite <- (constant_cf_scc h) by auto. reflexivity.
    Qed.

    (** *** exp *)
    Definition kfct (i : nat) : K := kofnat (fact i).
    Lemma kofnat_1 : (kofnat 1 : K) = 1.
    Proof. rewrite kofnat_S, kofnat_0. ring. Qed.
    Lemma kfct_S i : kfct (S i) = kofnat (S i) * kfct i.
    Proof. unfold kfct. change (fact (S i)) with (S i * fact i)%nat. apply kofnat_mul. Qed.
    Lemma kfct_neq0 i : kfct i <> 0.
    Proof. apply kofnat_neq0, fact_neq_0. Qed.
    Lemma kfct_0 : kfct 0 = 1.
    Proof. unfold kfct. simpl fact. rewrite kofnat_S, kofnat_0. ring. Qed.
    Lemma kfct_1 : kfct 1 = 1.
    Proof. unfold kfct. simpl fact. rewrite kofnat_S, kofnat_0. ring. Qed.

    Lemma isconst_gconst v : isconst (gconst v) (h v).
    Proof. split; [auto with gwf|apply (gden_const h)]. Qed.
    Lemma isconst_mul_gs f c v : isconst f c -> isconst (gmul_gs f v) (c * h v).
    Proof.
      intros [W E]. split; [auto with gwf|]. rewrite (gden_mul_gs h) by auto. rewrite E.
      constructor. intros F _. rewrite Lf_smul_scon, !Lf_scon. ring.
    Qed.

    Theorem gexp_psum d : gwf d -> (n <= gord d)%nat ->
      seqv (Some n) (gd (gexp d)) (psum (fun i => e_exp (cc d) / kfct i) n (ghat h d)).
    Proof.
      intros Hd Hn. unfold gexp. fold (phat_of d). set (phat := phat_of d).
      assert (Wp := phat_gwf d Hd). assert (Ep := phat_den d Hd). fold phat in Wp, Ep.
      assert (Op : gord phat = gord d) by reflexivity.
      set (phi := ghat h d) in *. assert (Hv : vanish 1 phi) by apply ghat_vanish.
      set (F := fun '(retval, fct, ph) i => _).
      assert (G : forall j, let '(r, f, p) := fold_left F (seq 2 j) (gadd (gconst k1) phat, gconst k1, phat) in
        gwf r /\ gwf p /\ gord r = gord d /\ gord p = gord d /\
        seqv (Some n) (gd r) (psum (fun i => 1 / kfct i) (S j) phi) /\ isconst f (kfct (S j)) /\ gord f = O /\
        seqv (Some n) (gd p) (spow phi (S j))).
      { induction j.
        - cbn [seq fold_left]. conjs; auto 6 with gwf.
          + rewrite (gden_add h), (gden_const h) by auto with gwf. rewrite Ep, (hom_1 h).
            cbn [psum]. rewrite kfct_0, kfct_1, (spow_1 (Some n)).
            replace (1 / 1) with (1 : K) by (field; apply K10). rewrite scon_1. ring.
          + rewrite kfct_1. rewrite <- (hom_1 h). apply isconst_gconst.
          + rewrite Ep. cbn [spow]. ring.
        - rewrite seq_S, fold_left_app. cbn [fold_left].
          destruct (fold_left F (seq 2 j) _) as [[r f] p]. destruct IHj as (W1 & W2 & O1 & O2 & E1 & E2 & Of & E3).
          unfold F at 1. replace (2 + j)%nat with (S (S j)) by lia.
          assert (E3' : seqv (Some n) (gd (gmul p phat)) (spow phi (S (S j)))).
          { rewrite (gden_mul h n) by (auto; lia). rewrite E3, Ep. cbn [spow]. ring. }
          assert (E2' : isconst (gmul_gs f (kofnat (S (S j)))) (kfct (S (S j)))).
          { replace (kfct (S (S j))) with (kfct (S j) * h (kofnat (S (S j)))).
            - apply isconst_mul_gs; auto.
            - rewrite (hom_ofnat h), (kfct_S (S j)). ring. }
          assert (W4 : gwf (gmul p phat)) by auto with gwf.
          assert (O4 : gord (gmul p phat) = gord d) by (simpl; lia).
          assert (W3 : gwf (gdiv (gmul p phat) (gmul_gs f (kofnat (S (S j)))))).
          { apply gdiv_gwf; auto. apply E2'. }
          conjs; auto 6 with gwf.
          + cbn [gadd gord]. rewrite gdiv_ord by apply E2'. rewrite O4, gmul_gs_ord. lia.
          + rewrite (gden_add h) by auto with gwf. rewrite E1.
            rewrite (gden_div_const _ _ _ W4 E2' (kfct_neq0 _)) by lia. rewrite E3'. reflexivity.
          + rewrite gmul_gs_ord. auto. }
      specialize (G (gord d - 1)%nat).
      destruct (fold_left F _ _) as [[r f] p]. destruct G as (Wr & _ & _ & _ & E & _).
      rewrite (gden_mul_gs h) by auto. rewrite E, (hom_exp h).
      rewrite (psum_trunc _ n) by (auto; lia). rewrite <- (psum_scale (Some n)).
      rewrite (psum_ext _ (fun i => e_exp (cc d) / kfct i)); [reflexivity|].
      intros i _. field. apply kfct_neq0.
    Qed.

    (** *** log *)
    Definition logc (p0 : K) (i : nat) : K :=
      match i with O => e_log p0 | S j => alt j / (kofnat i * kpow p0 i) end.

    Theorem glog_psum d : gwf d -> (n <= gord d)%nat -> cc d <> 0 ->
      seqv (Some n) (gd (glog d)) (psum (logc (cc d)) n (ghat h d)).
    Proof.
      intros Hd Hn Hc. unfold glog. fold (phat_of d). set (c := constant_cf d) in *.
      set (phat := gdiv_gs (phat_of d) c).
      assert (Wp : gwf phat) by (unfold phat; auto using phat_gwf with gwf).
      assert (Op : gord phat = gord d) by (unfold phat; rewrite gdiv_gs_ord; reflexivity).
      set (phi := smul (scon (1 / h c)) (ghat h d)).
      assert (Ep : seqv (Some n) (gd phat) phi).
      { unfold phat. rewrite (gden_div_gs h) by auto using phat_gwf. rewrite phat_den by auto. reflexivity. }
      assert (Hv : vanish 1 phi) by (apply vanish_scale, ghat_vanish).
      set (b := fun i => match i with O => e_log (h c) | S j => alt j / kofnat i end : K).
      set (F := fun '(retval, fatt, ph) i => _).
      assert (G : forall j, let '(r, f, p) := fold_left F (seq 2 j) (gadd_sg (e_log c) phat, gconst k1, phat) in
        gwf r /\ gwf p /\ gord r = gord d /\ gord p = gord d /\
        seqv (Some n) (gd r) (psum b (S j) phi) /\ isconst f (alt j) /\ gord f = O /\
        seqv (Some n) (gd p) (spow phi (S j))).
      { induction j.
        - cbn [seq fold_left]. conjs; auto 6 with gwf.
          + rewrite (gden_add_sg h) by auto with gwf. rewrite Ep, (hom_log h).
            cbn [psum]. unfold b. rewrite (spow_1 (Some n)).
            replace (alt 0 / kofnat 1) with (1 : K).
            * rewrite scon_1. ring.
            * unfold alt. cbn [kpow]. rewrite kofnat_1. field. apply K10.
          + unfold alt. cbn [kpow]. rewrite <- (hom_1 h). apply isconst_gconst.
          + rewrite Ep. cbn [spow]. ring.
        - rewrite seq_S, fold_left_app. cbn [fold_left].
          destruct (fold_left F (seq 2 j) _) as [[r f] p]. destruct IHj as (W1 & W2 & O1 & O2 & E1 & E2 & Of & E3).
          unfold F at 1. replace (2 + j)%nat with (S (S j)) by lia.
          assert (E3' : seqv (Some n) (gd (gmul p phat)) (spow phi (S (S j)))).
          { rewrite (gden_mul h n) by (auto; lia). rewrite E3, Ep. cbn [spow]. ring. }
          assert (E2' : isconst (gmul_gs f (kopp k1)) (alt (S j))).
          { replace (alt (S j)) with (alt j * h (kopp k1)).
            - apply isconst_mul_gs; auto.
            - unfold alt. cbn [kpow]. rewrite (hom_opp h), (hom_1 h). ring. }
          assert (W4 : gwf (gmul p phat)) by auto with gwf.
          assert (O4 : gord (gmul p phat) = gord d) by (simpl; lia).
          destruct E2' as [Wf Ef].
          conjs; auto 6 with gwf.
          + cbn [gadd gord]. rewrite gdiv_gs_ord. cbn [gmul gord]. rewrite gmul_gs_ord. lia.
          + rewrite (gden_add h) by auto with gwf. rewrite E1.
            rewrite (gden_div_gs h) by auto with gwf. rewrite (gden_mul h n) by (auto; rewrite O4; lia).
            rewrite (seqv_full _ _ _ Ef), E3'. rewrite (psum_S b (S j)). unfold b at 3.
            rewrite (hom_ofnat h).
            transitivity (sadd (psum b (S j) phi) (smul (smul (scon (1 / kofnat (S (S j)))) (scon (alt (S j)))) (spow phi (S (S j))))); [ring|].
            rewrite <- scon_mul. replace (1 / kofnat (S (S j)) * alt (S j)) with (alt (S j) / kofnat (S (S j)) : K); [reflexivity|].
            field. apply kofnat_neq0. lia.
          + split; auto.
          + rewrite gmul_gs_ord. auto. }
      specialize (G (gord d - 1)%nat).
      destruct (fold_left F _ _) as [[r f] p]. destruct G as (Wr & _ & _ & _ & E & _).
      rewrite E. rewrite (psum_trunc _ n) by (auto; lia). unfold phi. rewrite (psum_arg (Some n)).
      rewrite (psum_ext _ (logc (h c))); [reflexivity|].
      intros i _. unfold b, logc. destruct i; cbn [kpow]; [ring|].
      assert (X := kpow_neq0 (h c) i Hc). assert (Y : (kofnat (S i) : K) <> 0) by (apply kofnat_neq0; lia).
      assert (Z : kpow (1 / h c) i = 1 / kpow (h c) i).
      { clear - fl Hc. induction i; cbn [kpow]; [field; apply K10|]. rewrite IHi. field.
        split; [|auto]. apply kpow_neq0; auto. }
      rewrite Z. field. auto.
    Qed.

    (** *** Generalised binomial coefficients *)
    Fixpoint gbin (a : K) (i : nat) : K :=
      match i with O => 1 | S j => gbin a j * (a - kofnat j) / kofnat (S j) end.

    Lemma hom_kbinomial (x : A) i : h (kbinomial x (S i)) = gbin (h x) (S i).
    Proof.
      unfold kbinomial. replace (S i - 1)%nat with i by lia. induction i.
      - cbn [seq fold_left gbin]. rewrite kofnat_0, kofnat_1. field. apply K10.
      - rewrite seq_S, fold_left_app. cbn [fold_left]. rewrite (hom_div h), (hom_mul h), IHi, (hom_sub h).
        rewrite !(hom_ofnat h). replace (1 + i)%nat with (S i) by lia. replace (S i + 1)%nat with (S (S i)) by lia.
        reflexivity.
    Qed.
    Lemma gbin_0 a : gbin a 0 = 1. Proof. reflexivity. Qed.
    Lemma gbin_1 a : gbin a 1 = a.
    Proof. cbn [gbin]. rewrite kofnat_0, kofnat_1. field. apply K10. Qed.

    (** *** pow with a scalar exponent: the series *)
    Definition powc (p0 alpha : K) (i : nat) : K := gbin alpha i * e_pow p0 (alpha - kofnat i).

    Definition gpow_series (d : gdual A) (alpha : A) : gdual A :=
      let p0 := constant_cf d in
      let phat := gsub_gs d p0 in
      let tmp := phat in
      let retval := gconst (e_pow p0 alpha) in
      let retval := gadd retval (gmul_gs (gmul_sg alpha phat) (e_pow p0 (ksub alpha k1))) in
      let '(retval, _) :=
        fold_left (fun '(retval, phat) i =>
                     let phat := gmul phat tmp in
                     let retval := gadd retval
                       (gmul_gs (gmul_sg (kbinomial alpha i) phat) (e_pow p0 (ksub alpha (kofnat i)))) in
                     (retval, phat))
                  (seq 2 (gord d - 1)) (retval, phat) in
      retval.
    Lemma gpow_real_cases d alpha : gpow_real d alpha =
      if (kofZ (e_toint alpha) =? alpha) && (k0 <? alpha) then gpow_loop d (Z.to_nat (e_toint alpha))
      else gpow_series d alpha.
    Proof. reflexivity. Qed.

    Theorem gpow_series_psum d alpha : gwf d -> (n <= gord d)%nat ->
      seqv (Some n) (gd (gpow_series d alpha)) (psum (powc (cc d) (h alpha)) n (ghat h d)).
    Proof.
      intros Hd Hn. unfold gpow_series. fold (phat_of d). set (phat := phat_of d).
      assert (Wp := phat_gwf d Hd). assert (Ep := phat_den d Hd). fold phat in Wp, Ep.
      assert (Op : gord phat = gord d) by reflexivity.
      set (c := constant_cf d) in *.
      set (phi := ghat h d) in *. assert (Hv : vanish 1 phi) by apply ghat_vanish.
      set (b := powc (h c) (h alpha)).
      set (F := fun '(retval, ph) i => _).
      assert (G : forall j, let '(r, p) := fold_left F (seq 2 j)
          (gadd (gconst (e_pow c alpha)) (gmul_gs (gmul_sg alpha phat) (e_pow c (ksub alpha k1))), phat) in
        gwf r /\ gwf p /\ gord r = gord d /\ gord p = gord d /\
        seqv (Some n) (gd r) (psum b (S j) phi) /\
        seqv (Some n) (gd p) (spow phi (S j))).
      { induction j.
        - cbn [seq fold_left]. split; [auto 6 with gwf|]. split; [auto|]. split.
          { cbn [gadd gord gconst]. rewrite gmul_gs_ord, gmul_sg_ord. lia. }
          split; [auto|]. split.
          + rewrite (gden_add h), (gden_const h) by auto with gwf.
            rewrite (gden_mul_gs h), (gden_mul_sg h) by auto with gwf. rewrite Ep.
            cbn [psum]. rewrite (spow_1 (Some n)). unfold b, powc.
            rewrite !(hom_epow h), (hom_sub h), (hom_1 h), gbin_0, gbin_1, kofnat_0, kofnat_1.
            replace (h alpha - 0) with (h alpha) by ring.
            rewrite !scon_mul, scon_1. ring.
          + rewrite Ep. cbn [spow]. ring.
        - rewrite seq_S, fold_left_app. cbn [fold_left].
          destruct (fold_left F (seq 2 j) _) as [r p]. destruct IHj as (W1 & W2 & O1 & O2 & E1 & E3).
          unfold F at 1. replace (2 + j)%nat with (S (S j)) by lia.
          assert (E3' : seqv (Some n) (gd (gmul p phat)) (spow phi (S (S j)))).
          { rewrite (gden_mul h n) by (auto; lia). rewrite E3, Ep. cbn [spow]. ring. }
          assert (W4 : gwf (gmul p phat)) by auto with gwf.
          assert (O4 : gord (gmul p phat) = gord d) by (simpl; lia).
          split; [auto 6 with gwf|]. split; [auto|]. split.
          { cbn [gadd gord]. rewrite gmul_gs_ord, gmul_sg_ord. lia. }
          split; [auto|]. split; [|auto].
          rewrite (gden_add h) by auto with gwf. rewrite E1.
          rewrite (gden_mul_gs h), (gden_mul_sg h) by auto with gwf. rewrite E3'.
          rewrite (psum_S b (S j)). unfold b at 3. unfold powc. rewrite hom_kbinomial, (hom_epow h), (hom_sub h), (hom_ofnat h).
          rewrite scon_mul. ring. }
      specialize (G (gord d - 1)%nat).
      destruct (fold_left F _ _) as [r p]. destruct G as (Wr & _ & _ & _ & E & _).
      rewrite E. rewrite (psum_trunc _ n) by (auto; lia). reflexivity.
    Qed.

    (** *** sqrt and cbrt *)
    Definition rootc (alpha root_p0 p0 : K) (i : nat) : K := root_p0 * gbin alpha i / kpow p0 i.

    Lemma kpow_div (x : K) i : x <> 0 -> kpow (1 / x) i = 1 / kpow x i.
    Proof.
      intros Hc. induction i; cbn [kpow]; [field; apply K10|]. rewrite IHi. field.
      split; [|auto]. apply kpow_neq0; auto.
    Qed.

    Theorem groot_psum alpha root d : gwf d -> (n <= gord d)%nat -> cc d <> 0 ->
      seqv (Some n) (gd (groot alpha root d))
        (psum (rootc (h alpha) (h (root (constant_cf d))) (cc d)) n (ghat h d)).
    Proof.
      intros Hd Hn Hc. unfold groot. fold (phat_of d). set (c := constant_cf d) in *.
      set (phat := gdiv_gs (phat_of d) c).
      assert (Wp : gwf phat) by (unfold phat; auto using phat_gwf with gwf).
      assert (Op : gord phat = gord d) by (unfold phat; rewrite gdiv_gs_ord; reflexivity).
      set (phi := smul (scon (1 / h c)) (ghat h d)).
      assert (Ep : seqv (Some n) (gd phat) phi).
      { unfold phat. rewrite (gden_div_gs h) by auto using phat_gwf. rewrite phat_den by auto. reflexivity. }
      assert (Hv : vanish 1 phi) by (apply vanish_scale, ghat_vanish).
      set (b := gbin (h alpha)).
      set (F := fun '(retval, ph) i => _).
      assert (G : forall j, let '(r, p) := fold_left F (seq 2 j)
          (gadd (gconst k1) (gmul_sg alpha phat), phat) in
        gwf r /\ gwf p /\ gord r = gord d /\ gord p = gord d /\
        seqv (Some n) (gd r) (psum b (S j) phi) /\
        seqv (Some n) (gd p) (spow phi (S j))).
      { induction j.
        - cbn [seq fold_left]. split; [auto 6 with gwf|]. split; [auto|]. split.
          { cbn [gadd gord gconst]. rewrite gmul_sg_ord. lia. }
          split; [auto|]. split.
          + rewrite (gden_add h), (gden_const h) by auto with gwf.
            rewrite (gden_mul_sg h) by auto with gwf. rewrite Ep.
            cbn [psum]. rewrite (spow_1 (Some n)). unfold b.
            rewrite (hom_1 h), gbin_0, gbin_1. reflexivity.
          + rewrite Ep. cbn [spow]. ring.
        - rewrite seq_S, fold_left_app. cbn [fold_left].
          destruct (fold_left F (seq 2 j) _) as [r p]. destruct IHj as (W1 & W2 & O1 & O2 & E1 & E3).
          unfold F at 1. replace (2 + j)%nat with (S (S j)) by lia.
          assert (E3' : seqv (Some n) (gd (gmul p phat)) (spow phi (S (S j)))).
          { rewrite (gden_mul h n) by (auto; lia). rewrite E3, Ep. cbn [spow]. ring. }
          assert (W4 : gwf (gmul p phat)) by auto with gwf.
          assert (O4 : gord (gmul p phat) = gord d) by (simpl; lia).
          split; [auto 6 with gwf|]. split; [auto|]. split.
          { cbn [gadd gord]. rewrite gmul_sg_ord. lia. }
          split; [auto|]. split; [|auto].
          rewrite (gden_add h) by auto with gwf. rewrite E1.
          rewrite (gden_mul_sg h) by auto with gwf. rewrite E3'.
          rewrite (psum_S b (S j)). unfold b at 3. rewrite hom_kbinomial. reflexivity. }
      specialize (G (gord d - 1)%nat).
      destruct (fold_left F _ _) as [r p]. destruct G as (Wr & _ & _ & _ & E & _).
      rewrite (gden_mul_gs h) by auto.
      rewrite E. rewrite (psum_trunc _ n) by (auto; lia). unfold phi. rewrite (psum_arg (Some n)).
      rewrite <- (psum_scale (Some n)).
      rewrite (psum_ext _ (rootc (h alpha) (h (root c)) (h c))); [reflexivity|].
      intros i _. unfold b, rootc. rewrite kpow_div by auto. field. apply kpow_neq0; auto.
    Qed.

    (** *** The loops of the trigonometric and hyperbolic functions *)
    Fixpoint ff (f : nat -> nat) (j : nat) : K :=
      match j with O => 1 | S i => ff f i * (kofnat (f i) * (kofnat (f i) - 1)) end.

    Lemma trig_loop_psum (f : nat -> nat) J phat2 tmp0 q t0 N :
      gwf phat2 -> gwf tmp0 -> gord phat2 = N -> (gord tmp0 <= N)%nat -> (n <= N)%nat ->
      (forall j, (j < J)%nat -> (1 <= Z.of_nat (f j) <= 65536)%Z) -> (forall j, (j <= J)%nat -> ff f j <> 0) ->
      seqv (Some n) (gd phat2) q -> seqv (Some n) (gd tmp0) t0 ->
      gwf (trig_loop phat2 tmp0 (map f (seq 0 J))) /\ (gord (trig_loop phat2 tmp0 (map f (seq 0 J))) <= N)%nat /\
      seqv (Some n) (gd (trig_loop phat2 tmp0 (map f (seq 0 J))))
        (smul t0 (psum (fun j => alt j / ff f j) J q)).
    Proof.
      intros W2 W0 O2 O0 Hn Hf Hnz Eq E0. unfold trig_loop. set (F := fun '(t, coeff, tmp, factorial) i => _).
      assert (G : forall j, (j <= J)%nat -> let '(t, cf, tmp, fa) := fold_left F (map f (seq 0 j)) (tmp0, 1%Z, tmp0, k1) in
        gwf t /\ gwf tmp /\ (gord t <= N)%nat /\ (gord tmp <= N)%nat /\ kofZ cf = alt j /\ h fa = ff f j /\
        seqv (Some n) (gd tmp) (smul t0 (spow q j)) /\
        seqv (Some n) (gd t) (smul t0 (psum (fun j => alt j / ff f j) j q))).
      { induction j; intros Hj.
        - cbn [seq map fold_left]. split; [auto|]. split; [auto|]. split; [auto|]. split; [auto|].
          split; [apply fl_ofZ1|]. split; [apply (hom_1 h)|]. split.
          + cbn [spow]. rewrite E0. ring.
          + cbn [psum ff]. unfold alt; cbn [kpow]. replace (1 / 1) with (1 : K) by (field; apply K10).
            rewrite scon_1, E0. ring.
        - specialize (IHj ltac:(lia)). rewrite seq_S, map_app, fold_left_app. cbn [map fold_left].
          destruct (fold_left F (map f (seq 0 j)) _) as [[[t cf] tmp] fa].
          destruct IHj as (Wt & Wm & Ot & Om & Ec & Ef & Em & Et). unfold F at 1.
          replace (0 + j)%nat with j by lia.
          assert (Em' : seqv (Some n) (gd (gmul tmp phat2)) (smul t0 (spow q (S j)))).
          { rewrite (gden_mul h n) by (auto; lia). rewrite Em, Eq. cbn [spow]. ring. }
          assert (Wm' : gwf (gmul tmp phat2)) by auto with gwf.
          assert (Ec' : kofZ (- cf) = alt (S j)).
          { rewrite kofZ_opp, Ec. unfold alt. cbn [kpow]. ring. }
          assert (Ef' : h (kmul fa (kofZ ((Z.of_nat (f j) * (Z.of_nat (f j) - 1)) mod two32))) = ff f (S j)).
          { rewrite (hom_mul h), Ef, (hom_ofZ h). cbn [ff]. f_equal.
            assert (B := Hf j ltac:(lia)). rewrite Z.mod_small.
            - rewrite fl_ofZmul, kofZ_sub, fl_ofZ1. reflexivity.
            - unfold two32. nia. }
          split; [auto 6 with gwf|]. split; [auto|]. split.
          { cbn [gadd gord]. rewrite gdiv_gs_ord, gmul_sg_ord. cbn [gmul gord]. lia. }
          split; [cbn [gmul gord]; lia|]. split; [auto|]. split; [auto|]. split; [auto|].
          rewrite (gden_add h) by auto 6 with gwf. rewrite (gden_div_gs h), (gden_mul_sg h) by auto with gwf.
          rewrite Ef', (hom_ofZ h), Ec', Em', Et. rewrite psum_S.
          transitivity (sadd (smul t0 (psum (fun j0 : nat => alt j0 / ff f j0) j q))
             (smul t0 (smul (smul (scon (1 / ff f (S j))) (scon (alt (S j)))) (spow q (S j))))); [ring|].
          rewrite <- scon_mul. replace (1 / ff f (S j) * alt (S j)) with (alt (S j) / ff f (S j) : K).
          + ring.
          + assert (ff f (S j) <> 0) by (apply Hnz; lia). field. auto. }
      specialize (G J ltac:(lia)).
      destruct (fold_left F _ _) as [[[t cf] tmp] fa]. destruct G as (Wt & _ & Ot & _ & _ & _ & _ & E).
      split; [auto|]. split; auto.
    Qed.

    Lemma hyp_loop_psum (f : nat -> nat) J phat2 tmp0 q t0 N :
      gwf phat2 -> gwf tmp0 -> gord phat2 = N -> (gord tmp0 <= N)%nat -> (n <= N)%nat ->
      (forall j, (j <= J)%nat -> ff f j <> 0) ->
      seqv (Some n) (gd phat2) q -> seqv (Some n) (gd tmp0) t0 ->
      gwf (hyp_loop phat2 tmp0 (map f (seq 0 J))) /\ (gord (hyp_loop phat2 tmp0 (map f (seq 0 J))) <= N)%nat /\
      seqv (Some n) (gd (hyp_loop phat2 tmp0 (map f (seq 0 J))))
        (smul t0 (psum (fun j => 1 / ff f j) J q)).
    Proof.
      intros W2 W0 O2 O0 Hn Hnz Eq E0. unfold hyp_loop. set (F := fun '(t, tmp, factorial) i => _).
      assert (G : forall j, (j <= J)%nat -> let '(t, tmp, fa) := fold_left F (map f (seq 0 j)) (tmp0, tmp0, k1) in
        gwf t /\ gwf tmp /\ (gord t <= N)%nat /\ (gord tmp <= N)%nat /\ h fa = ff f j /\
        seqv (Some n) (gd tmp) (smul t0 (spow q j)) /\
        seqv (Some n) (gd t) (smul t0 (psum (fun j => 1 / ff f j) j q))).
      { induction j; intros Hj.
        - cbn [seq map fold_left]. split; [auto|]. split; [auto|]. split; [auto|]. split; [auto|].
          split; [apply (hom_1 h)|]. split.
          + cbn [spow]. rewrite E0. ring.
          + cbn [psum ff]. replace (1 / 1) with (1 : K) by (field; apply K10).
            rewrite scon_1, E0. ring.
        - specialize (IHj ltac:(lia)). rewrite seq_S, map_app, fold_left_app. cbn [map fold_left].
          destruct (fold_left F (map f (seq 0 j)) _) as [[t tmp] fa].
          destruct IHj as (Wt & Wm & Ot & Om & Ef & Em & Et). unfold F at 1.
          replace (0 + j)%nat with j by lia.
          assert (Em' : seqv (Some n) (gd (gmul tmp phat2)) (smul t0 (spow q (S j)))).
          { rewrite (gden_mul h n) by (auto; lia). rewrite Em, Eq. cbn [spow]. ring. }
          assert (Wm' : gwf (gmul tmp phat2)) by auto with gwf.
          assert (Ef' : h (kmul fa (kmul (kofnat (f j)) (ksub (kofnat (f j)) k1))) = ff f (S j)).
          { rewrite !(hom_mul h), Ef, (hom_sub h), (hom_ofnat h), (hom_1 h). reflexivity. }
          split; [auto 6 with gwf|]. split; [auto|]. split.
          { cbn [gadd gord]. rewrite gdiv_gs_ord. cbn [gmul gord]. lia. }
          split; [cbn [gmul gord]; lia|]. split; [auto|]. split; [auto|].
          rewrite (gden_add h) by auto 6 with gwf. rewrite (gden_div_gs h) by auto with gwf.
          rewrite Ef', Em', Et. rewrite psum_S. ring. }
      specialize (G J ltac:(lia)).
      destruct (fold_left F _ _) as [[t tmp] fa]. destruct G as (Wt & _ & Ot & _ & _ & _ & E).
      split; [auto|]. split; auto.
    Qed.

    Lemma ff_even j : ff (fun j => 2 * j + 2)%nat j = kfct (2 * j).
    Proof.
      induction j; cbn [ff]; [symmetry; apply kfct_0|]. rewrite IHj.
      replace (2 * S j)%nat with (S (S (2 * j))) by lia. rewrite !kfct_S.
      replace (2 * j + 2)%nat with (S (S (2 * j))) by lia. rewrite !kofnat_S. ring.
    Qed.
    Lemma ff_odd j : ff (fun j => 2 * j + 3)%nat j = kfct (2 * j + 1).
    Proof.
      induction j; cbn [ff]; [symmetry; apply kfct_1|]. rewrite IHj.
      replace (2 * S j + 1)%nat with (S (S (2 * j + 1))) by lia. rewrite !kfct_S.
      replace (2 * j + 3)%nat with (S (S (2 * j + 1))) by lia. rewrite !kofnat_S. ring.
    Qed.

    Definition cosc : nat -> K := evenc (fun j => alt j / kfct (2 * j)).
    Definition sinc : nat -> K := oddc (fun j => alt j / kfct (2 * j + 1)).
    Definition coshc : nat -> K := evenc (fun j => 1 / kfct (2 * j)).
    Definition sinhc : nat -> K := oddc (fun j => 1 / kfct (2 * j + 1)).

    Lemma phat2_facts d : gwf d -> (n <= gord d)%nat ->
      gwf (gmul (phat_of d) (phat_of d)) /\ gord (gmul (phat_of d) (phat_of d)) = gord d /\
      seqv (Some n) (gd (gmul (phat_of d) (phat_of d))) (smul (ghat h d) (ghat h d)).
    Proof.
      intros Hd Hn. assert (Wp := phat_gwf d Hd). assert (Ep := phat_den d Hd).
      split; [auto with gwf|]. split; [simpl; lia|].
      rewrite (gden_mul h n) by (auto; simpl; lia). rewrite Ep. reflexivity.
    Qed.

    Lemma even_bound m : (m <= S (2 * (m / 2)))%nat.
    Proof. assert (X := Nat.div_mod m 2 ltac:(lia)). assert (Y := Nat.mod_upper_bound m 2 ltac:(lia)). lia. Qed.
    Lemma odd_bound m : (m <= S (S (2 * ((m - 1) / 2))))%nat.
    Proof. assert (X := even_bound (m - 1)). lia. Qed.

    Lemma cos_taylor_psum d : gwf d -> (n <= gord d)%nat -> (Z.of_nat (gord d) <= 65536)%Z ->
      gwf (cos_taylor d) /\ (gord (cos_taylor d) <= gord d)%nat /\
      seqv (Some n) (gd (cos_taylor d)) (psum cosc n (ghat h d)).
    Proof.
      intros Hd Hn Hb. destruct (phat2_facts d Hd Hn) as (W2 & O2 & E2).
      unfold cos_taylor, evens. fold (phat_of d).
      destruct (trig_loop_psum (fun j => 2 * j + 2)%nat (gord d / 2) _ (gconst k1) (smul (ghat h d) (ghat h d)) (scon 1) (gord d) W2) as (W & O & E); auto with gwf.
      - simpl; lia.
      - intros j Hj. assert (X := Nat.mul_div_le (gord d) 2 ltac:(lia)). lia.
      - intros j _. rewrite ff_even. apply kfct_neq0.
      - rewrite (gden_const h), (hom_1 h). reflexivity.
      - split; [auto|]. split; [auto|]. rewrite E. rewrite (psum_even (Some n)), scon_1.
        rewrite (psum_trunc _ n) by (try apply ghat_vanish; pose proof (even_bound (gord d)); lia).
        rewrite (psum_ext _ cosc).
        + ring.
        + intros i _. unfold cosc, evenc. rewrite ff_even. reflexivity.
    Qed.

    Lemma sin_taylor_psum d : gwf d -> (n <= gord d)%nat -> (Z.of_nat (gord d) <= 65536)%Z ->
      gwf (sin_taylor d) /\ (gord (sin_taylor d) <= gord d)%nat /\
      seqv (Some n) (gd (sin_taylor d)) (psum sinc n (ghat h d)).
    Proof.
      intros Hd Hn Hb. destruct (phat2_facts d Hd Hn) as (W2 & O2 & E2).
      unfold sin_taylor, odds. fold (phat_of d).
      destruct (trig_loop_psum (fun j => 2 * j + 3)%nat ((gord d - 1) / 2) _ (phat_of d) (smul (ghat h d) (ghat h d)) (ghat h d) (gord d) W2) as (W & O & E); auto using phat_gwf, phat_den with gwf.
      - intros j Hj. assert (X := Nat.mul_div_le (gord d - 1) 2 ltac:(lia)). lia.
      - intros j _. rewrite ff_odd. apply kfct_neq0.
      - split; [auto|]. split; [auto|]. rewrite E. rewrite (psum_odd (Some n)).
        assert (B := odd_bound (gord d)). assert (B' : (n <= S (S (2 * ((gord d - 1) / 2))))%nat) by lia.
        transitivity (psum (oddc (fun j : nat => alt j / ff (fun j0 : nat => (2 * j0 + 3)%nat) j)) (S (S (2 * ((gord d - 1) / 2)))) (ghat h d)).
        { rewrite (psum_S _ (S (2 * ((gord d - 1) / 2)))). unfold oddc at 3.
          replace (Nat.even (S (S (2 * ((gord d - 1) / 2))))) with true.
          - rewrite scon_0. ring.
          - replace (S (S (2 * ((gord d - 1) / 2)))) with (2 * S ((gord d - 1) / 2))%nat by lia. symmetry; apply even_2. }
        rewrite (psum_trunc _ n) by (try apply ghat_vanish; auto).
        rewrite (psum_ext _ sinc); [reflexivity|].
        intros i _. unfold sinc, oddc. rewrite ff_odd. reflexivity.
    Qed.

    Lemma cosh_taylor_psum d : gwf d -> (n <= gord d)%nat ->
      gwf (cosh_taylor d) /\ (gord (cosh_taylor d) <= gord d)%nat /\
      seqv (Some n) (gd (cosh_taylor d)) (psum coshc n (ghat h d)).
    Proof.
      intros Hd Hn. destruct (phat2_facts d Hd Hn) as (W2 & O2 & E2).
      unfold cosh_taylor, evens. fold (phat_of d).
      destruct (hyp_loop_psum (fun j => 2 * j + 2)%nat (gord d / 2) _ (gconst k1) (smul (ghat h d) (ghat h d)) (scon 1) (gord d) W2) as (W & O & E); auto with gwf.
      - simpl; lia.
      - intros j _. rewrite ff_even. apply kfct_neq0.
      - rewrite (gden_const h), (hom_1 h). reflexivity.
      - split; [auto|]. split; [auto|]. rewrite E. rewrite (psum_even (Some n)), scon_1.
        rewrite (psum_trunc _ n) by (try apply ghat_vanish; pose proof (even_bound (gord d)); lia).
        rewrite (psum_ext _ coshc).
        + ring.
        + intros i _. unfold coshc, evenc. rewrite ff_even. reflexivity.
    Qed.

    Lemma sinh_taylor_psum d : gwf d -> (n <= gord d)%nat ->
      gwf (sinh_taylor d) /\ (gord (sinh_taylor d) <= gord d)%nat /\
      seqv (Some n) (gd (sinh_taylor d)) (psum sinhc n (ghat h d)).
    Proof.
      intros Hd Hn. destruct (phat2_facts d Hd Hn) as (W2 & O2 & E2).
      unfold sinh_taylor, odds. fold (phat_of d).
      destruct (hyp_loop_psum (fun j => 2 * j + 3)%nat ((gord d - 1) / 2) _ (phat_of d) (smul (ghat h d) (ghat h d)) (ghat h d) (gord d) W2) as (W & O & E); auto using phat_gwf, phat_den with gwf.
      - intros j _. rewrite ff_odd. apply kfct_neq0.
      - split; [auto|]. split; [auto|]. rewrite E. rewrite (psum_odd (Some n)).
        assert (B := odd_bound (gord d)). assert (B' : (n <= S (S (2 * ((gord d - 1) / 2))))%nat) by lia.
        transitivity (psum (oddc (fun j : nat => 1 / ff (fun j0 : nat => (2 * j0 + 3)%nat) j)) (S (S (2 * ((gord d - 1) / 2)))) (ghat h d)).
        { rewrite (psum_S _ (S (2 * ((gord d - 1) / 2)))). unfold oddc at 3.
          replace (Nat.even (S (S (2 * ((gord d - 1) / 2))))) with true.
          - rewrite scon_0. ring.
          - replace (S (S (2 * ((gord d - 1) / 2)))) with (2 * S ((gord d - 1) / 2))%nat by lia. symmetry; apply even_2. }
        rewrite (psum_trunc _ n) by (try apply ghat_vanish; auto).
        rewrite (psum_ext _ sinhc); [reflexivity|].
        intros i _. unfold sinhc, oddc. rewrite ff_odd. reflexivity.
    Qed.

    Theorem gsin_psum d : gwf d -> (n <= gord d)%nat -> (Z.of_nat (gord d) <= 65536)%Z ->
      seqv (Some n) (gd (gsin d)) (psum (fun i => e_sin (cc d) * cosc i + e_cos (cc d) * sinc i) n (ghat h d)).
    Proof.
      intros Hd Hn Hb. unfold gsin. destruct (cos_taylor_psum d Hd Hn Hb) as (Wc & _ & Ec).
      destruct (sin_taylor_psum d Hd Hn Hb) as (Ws & _ & Es).
      rewrite (gden_add h) by auto with gwf. rewrite !(gden_mul_sg h) by auto with gwf.
      rewrite Ec, Es, (hom_sin h), (hom_cos h). rewrite (psum_add (Some n)), !(psum_scale (Some n)). reflexivity.
    Qed.
    Theorem gcos_psum d : gwf d -> (n <= gord d)%nat -> (Z.of_nat (gord d) <= 65536)%Z ->
      seqv (Some n) (gd (gcos d)) (psum (fun i => e_cos (cc d) * cosc i - e_sin (cc d) * sinc i) n (ghat h d)).
    Proof.
      intros Hd Hn Hb. unfold gcos. destruct (cos_taylor_psum d Hd Hn Hb) as (Wc & _ & Ec).
      destruct (sin_taylor_psum d Hd Hn Hb) as (Ws & _ & Es).
      rewrite (gden_sub h) by auto with gwf. rewrite !(gden_mul_sg h) by auto with gwf.
      rewrite Ec, Es, (hom_sin h), (hom_cos h). rewrite (psum_sub (Some n)), !(psum_scale (Some n)). reflexivity.
    Qed.
    Theorem gsinh_psum d : gwf d -> (n <= gord d)%nat ->
      seqv (Some n) (gd (gsinh d)) (psum (fun i => e_sinh (cc d) * coshc i + e_cosh (cc d) * sinhc i) n (ghat h d)).
    Proof.
      intros Hd Hn. unfold gsinh. destruct (cosh_taylor_psum d Hd Hn) as (Wc & _ & Ec).
      destruct (sinh_taylor_psum d Hd Hn) as (Ws & _ & Es).
      rewrite (gden_add h) by auto with gwf. rewrite !(gden_mul_sg h) by auto with gwf.
      rewrite Ec, Es, (hom_sinh h), (hom_cosh h). rewrite (psum_add (Some n)), !(psum_scale (Some n)). reflexivity.
    Qed.
    Theorem gcosh_psum d : gwf d -> (n <= gord d)%nat ->
      seqv (Some n) (gd (gcosh d)) (psum (fun i => e_cosh (cc d) * coshc i + e_sinh (cc d) * sinhc i) n (ghat h d)).
    Proof.
      intros Hd Hn. unfold gcosh. destruct (cosh_taylor_psum d Hd Hn) as (Wc & _ & Ec).
      destruct (sinh_taylor_psum d Hd Hn) as (Ws & _ & Es).
      rewrite (gden_add h) by auto with gwf. rewrite !(gden_mul_sg h) by auto with gwf.
      rewrite Ec, Es, (hom_sinh h), (hom_cosh h). rewrite (psum_add (Some n)), !(psum_scale (Some n)). reflexivity.
    Qed.

    (** *** tan and tanh: the series of tan and tanh at 0 *)
    Definition tan_ty (d : gdual A) : gdual A :=
      let phat := phat_of d in
      let phat2 := gmul phat phat in
      let '(tan_taylor, _, _, _) :=
        fold_left (fun '(t, phat, four_k, factorial) k =>
                     let phat := gmul phat phat2 in
                     let t := gadd t (gmul_sg
                       (kdiv (kmul (kmul (nth k (bn (gord d)) k0) four_k) (ksub k1 (kabs four_k))) factorial) phat) in
                     let four_k := kmul four_k (kofZ (-4)) in
                     let factorial := kmul factorial
                       (kmul (kadd (kmul (kofZ 2) (kofnat k)) k1) (kadd (kmul (kofZ 2) (kofnat k)) (kofZ 2))) in
                     (t, phat, four_k, factorial))
                  (ks (gord d)) (phat, phat, kofZ 16, kofZ 24) in
      tan_taylor.
    Lemma gtan_eq d : gtan d = gdiv (gadd_sg (e_tan (constant_cf d)) (tan_ty d))
                                   (gsub_sg k1 (gmul_sg (e_tan (constant_cf d)) (tan_ty d))).
    Proof.
      unfold gtan, tan_ty. fold (phat_of d). destruct (fold_left _ _ _) as [[[t p] f] g]. reflexivity.
    Qed.
    Definition tanh_ty (d : gdual A) : gdual A :=
      let phat := phat_of d in
      let phat2 := gmul phat phat in
      let '(tanh_taylor, _, _, _) :=
        fold_left (fun '(t, phat, four_k, factorial) k =>
                     let phat := gmul phat phat2 in
                     let t := gadd t (gmul_sg
                       (kdiv (kmul (kmul (nth k (bn (gord d)) k0) four_k) (ksub four_k k1)) factorial) phat) in
                     let four_k := kmul four_k (kofZ 4) in
                     let factorial := kmul factorial
                       (kmul (kadd (kofnat (2 * k)) k1) (kadd (kofnat (2 * k)) (kofZ 2))) in
                     (t, phat, four_k, factorial))
                  (ks (gord d)) (phat, phat, kofZ 16, kofZ 24) in
      tanh_taylor.
    Lemma gtanh_eq d : gtanh d = gdiv (gadd_sg (e_tanh (constant_cf d)) (tanh_ty d))
                                   (gadd_sg k1 (gmul_sg (e_tanh (constant_cf d)) (tanh_ty d))).
    Proof.
      unfold gtanh, tanh_ty. fold (phat_of d). destruct (fold_left _ _ _) as [[[t p] f] g]. reflexivity.
    Qed.

    (** The index [k] of the loops stays inside the table of Bernoulli numbers
        the code asks boost for. *)
    Lemma ks_in_range order k : In k (ks order) -> (k < length (bn (K:=A) order))%nat.
    Proof.
      unfold ks, bn. rewrite map_length, seq_length, in_seq. lia.
    Qed.
    Lemma nth_bn order k : In k (ks order) -> nth k (bn (K:=A) order) k0 = e_bern k.
    Proof.
      intros H. apply ks_in_range in H. unfold bn in *. rewrite map_length, seq_length in H.
      rewrite (nth_indep _ k0 (e_bern 0)) by (rewrite map_length, seq_length; auto).
      rewrite map_nth, seq_nth; auto.
    Qed.

    (** Coefficients of x^(2j+1). *)
    Definition tanj (j : nat) : K :=
      match j with
      | O => 1
      | S _ => e_bern (S j) * kofZ ((-4) ^ Z.of_nat (S j)) * (1 - kofZ (4 ^ Z.of_nat (S j))) / kfct (2 * S j)
      end.
    Definition tanhj (j : nat) : K :=
      match j with
      | O => 1
      | S _ => e_bern (S j) * kofZ (4 ^ Z.of_nat (S j)) * (kofZ (4 ^ Z.of_nat (S j)) - 1) / kfct (2 * S j)
      end.
    Definition tanc : nat -> K := oddc tanj.
    Definition tanhc : nat -> K := oddc tanhj.

    Lemma kofZ_nat z : (0 <= z)%Z -> kofZ z = kofnat (K:=K) (Z.to_nat z).
    Proof. intros H. unfold kofnat. rewrite Z2Nat.id; auto. Qed.
    Lemma kofZ_2 : (kofZ 2 : K) = 1 + 1.
    Proof. change 2%Z with (1 + 1)%Z. rewrite fl_ofZadd, fl_ofZ1. reflexivity. Qed.
    Lemma kofnat_2k k : (kofnat (2 * k) : K) = kofZ 2 * kofnat k.
    Proof. rewrite kofnat_mul. reflexivity. Qed.
    Lemma kfct_4 : (kofZ 24 : K) = kfct 4.
    Proof. reflexivity. Qed.

    Lemma psum_oddc_ext a J N l : vanish 1 l -> (n <= N)%nat -> (N <= S (S (2 * J)))%nat ->
      seqv (Some n) (psum (oddc a) (S (2 * J)) l) (psum (oddc (K:=K) a) n l).
    Proof.
      intros Hv Hn HN.
      transitivity (psum (oddc a) (S (S (2 * J))) l).
      { rewrite (psum_S _ (S (2 * J))). unfold oddc at 3.
        replace (Nat.even (S (S (2 * J)))) with true.
        - rewrite scon_0. ring.
        - replace (S (S (2 * J))) with (2 * S J)%nat by lia. symmetry; apply even_2. }
      apply psum_trunc; auto. lia.
    Qed.

    Lemma ks_bound N : (N <= S (S (2 * ((N + 1) / 2 - 1))))%nat.
    Proof. assert (X := Nat.div_mod (N + 1) 2 ltac:(lia)). assert (Y := Nat.mod_upper_bound (N + 1) 2 ltac:(lia)). lia. Qed.

    Lemma tan_ty_psum d : gwf d -> (n <= gord d)%nat ->
      gwf (tan_ty d) /\ gord (tan_ty d) = gord d /\
      seqv (Some n) (gd (tan_ty d)) (psum tanc n (ghat h d)).
    Proof.
      intros Hd Hn. destruct (phat2_facts d Hd Hn) as (W2 & O2 & E2).
      assert (Wp := phat_gwf d Hd). assert (Ep := phat_den d Hd).
      unfold tan_ty. set (phat := phat_of d) in *. set (phi := ghat h d) in *.
      assert (Op : gord phat = gord d) by reflexivity.
      set (F := fun '(t, ph, four_k, factorial) k => _).
      assert (G : forall j, (j <= (gord d + 1) / 2 - 1)%nat ->
        let '(t, p, fk, fa) := fold_left F (seq 2 j) (phat, phat, kofZ 16, kofZ 24) in
        gwf t /\ gwf p /\ gord t = gord d /\ gord p = gord d /\
        h fk = kofZ ((-4) ^ Z.of_nat (S (S j))) /\ h fa = kfct (2 * S (S j)) /\
        seqv (Some n) (gd p) (smul phi (spow (smul phi phi) j)) /\
        seqv (Some n) (gd t) (smul phi (psum tanj j (smul phi phi)))).
      { induction j; intros Hj.
        - cbn [seq fold_left]. split; [auto|]. split; [auto|]. split; [auto|]. split; [auto|].
          split; [rewrite (hom_ofZ h); reflexivity|]. split; [rewrite (hom_ofZ h); reflexivity|]. split.
          + cbn [spow]. rewrite Ep. ring.
          + cbn [psum tanj]. rewrite scon_1, Ep. ring.
        - specialize (IHj ltac:(lia)). rewrite seq_S, fold_left_app. cbn [fold_left].
          destruct (fold_left F (seq 2 j) _) as [[[t p] fk] fa].
          destruct IHj as (Wt & Wm & Ot & Om & Ek & Ef & Em & Et). unfold F at 1.
          replace (2 + j)%nat with (S (S j)) by lia.
          rewrite nth_bn by (unfold ks; apply in_seq; lia).
          assert (Em' : seqv (Some n) (gd (gmul p (gmul phat phat))) (smul phi (spow (smul phi phi) (S j)))).
          { rewrite (gden_mul h n) by (auto; lia). rewrite Em, E2. cbn [spow]. ring. }
          assert (Wm' : gwf (gmul p (gmul phat phat))) by auto with gwf.
          split; [auto 6 with gwf|]. split; [auto|]. split.
          { cbn [gadd gord]. rewrite gmul_sg_ord. cbn [gmul gord]. lia. }
          split; [cbn [gmul gord]; lia|]. split.
          { rewrite (hom_mul h), Ek, (hom_ofZ h), <- fl_ofZmul. f_equal.
            rewrite (Nat2Z.inj_succ (S (S j))), Z.pow_succ_r by lia. ring. }
          split.
          { rewrite !(hom_mul h), Ef, !(hom_add h), !(hom_mul h), !(hom_ofnat h), !(hom_ofZ h), (hom_1 h).
            replace (2 * S (S (S j)))%nat with (S (S (2 * S (S j)))) by lia.
            rewrite !kfct_S, !kofnat_S, kofnat_2k, !kofZ_2, !kofnat_S. ring. }
          split; [auto|].
          rewrite (gden_add h) by auto 6 with gwf. rewrite (gden_mul_sg h) by auto with gwf.
          rewrite Em', Et. rewrite psum_S.
          rewrite (hom_div h), !(hom_mul h), (hom_sub h), (hom_1 h), (hom_abs h), Ek, Ef, (hom_bern h), fl_absZ.
          rewrite Z.abs_pow. change (Z.abs (-4)) with 4%Z. unfold tanj at 3. ring. }
      specialize (G ((gord d + 1) / 2 - 1)%nat ltac:(lia)). unfold ks.
      destruct (fold_left F _ _) as [[[t p] fk] fa]. destruct G as (Wt & _ & Ot & _ & _ & _ & _ & E).
      split; [auto|]. split; [auto|]. rewrite E, (psum_odd (Some n)).
      apply (psum_oddc_ext tanj _ (gord d)); auto; [apply ghat_vanish|apply ks_bound].
    Qed.

    Lemma tanh_ty_psum d : gwf d -> (n <= gord d)%nat ->
      gwf (tanh_ty d) /\ gord (tanh_ty d) = gord d /\
      seqv (Some n) (gd (tanh_ty d)) (psum tanhc n (ghat h d)).
    Proof.
      intros Hd Hn. destruct (phat2_facts d Hd Hn) as (W2 & O2 & E2).
      assert (Wp := phat_gwf d Hd). assert (Ep := phat_den d Hd).
      unfold tanh_ty. set (phat := phat_of d) in *. set (phi := ghat h d) in *.
      assert (Op : gord phat = gord d) by reflexivity.
      set (F := fun '(t, ph, four_k, factorial) k => _).
      assert (G : forall j, (j <= (gord d + 1) / 2 - 1)%nat ->
        let '(t, p, fk, fa) := fold_left F (seq 2 j) (phat, phat, kofZ 16, kofZ 24) in
        gwf t /\ gwf p /\ gord t = gord d /\ gord p = gord d /\
        h fk = kofZ (4 ^ Z.of_nat (S (S j))) /\ h fa = kfct (2 * S (S j)) /\
        seqv (Some n) (gd p) (smul phi (spow (smul phi phi) j)) /\
        seqv (Some n) (gd t) (smul phi (psum tanhj j (smul phi phi)))).
      { induction j; intros Hj.
        - cbn [seq fold_left]. split; [auto|]. split; [auto|]. split; [auto|]. split; [auto|].
          split; [rewrite (hom_ofZ h); reflexivity|]. split; [rewrite (hom_ofZ h); reflexivity|]. split.
          + cbn [spow]. rewrite Ep. ring.
          + cbn [psum tanhj]. rewrite scon_1, Ep. ring.
        - specialize (IHj ltac:(lia)). rewrite seq_S, fold_left_app. cbn [fold_left].
          destruct (fold_left F (seq 2 j) _) as [[[t p] fk] fa].
          destruct IHj as (Wt & Wm & Ot & Om & Ek & Ef & Em & Et). unfold F at 1.
          replace (2 + j)%nat with (S (S j)) by lia.
          rewrite nth_bn by (unfold ks; apply in_seq; lia).
          assert (Em' : seqv (Some n) (gd (gmul p (gmul phat phat))) (smul phi (spow (smul phi phi) (S j)))).
          { rewrite (gden_mul h n) by (auto; lia). rewrite Em, E2. cbn [spow]. ring. }
          assert (Wm' : gwf (gmul p (gmul phat phat))) by auto with gwf.
          split; [auto 6 with gwf|]. split; [auto|]. split.
          { cbn [gadd gord]. rewrite gmul_sg_ord. cbn [gmul gord]. lia. }
          split; [cbn [gmul gord]; lia|]. split.
          { rewrite (hom_mul h), Ek, (hom_ofZ h), <- fl_ofZmul. f_equal.
            rewrite (Nat2Z.inj_succ (S (S j))), Z.pow_succ_r by lia. ring. }
          split.
          { rewrite !(hom_mul h), Ef, !(hom_add h), !(hom_ofnat h), !(hom_ofZ h), (hom_1 h).
            replace (2 * S (S (S j)))%nat with (S (S (2 * S (S j)))) by lia.
            rewrite !kfct_S, !kofnat_S, kofnat_2k, !kofZ_2, !kofnat_S. ring. }
          split; [auto|].
          rewrite (gden_add h) by auto 6 with gwf. rewrite (gden_mul_sg h) by auto with gwf.
          rewrite Em', Et. rewrite psum_S.
          rewrite (hom_div h), !(hom_mul h), (hom_sub h), (hom_1 h), Ek, Ef, (hom_bern h).
          unfold tanhj at 3. ring. }
      specialize (G ((gord d + 1) / 2 - 1)%nat ltac:(lia)). unfold ks.
      destruct (fold_left F _ _) as [[[t p] fk] fa]. destruct G as (Wt & _ & Ot & _ & _ & _ & _ & E).
      split; [auto|]. split; [auto|]. rewrite E, (psum_odd (Some n)).
      apply (psum_oddc_ext tanhj _ (gord d)); auto; [apply ghat_vanish|apply ks_bound].
    Qed.

    (** *** atanh *)
    Definition atanhc (p0 : K) (i : nat) : K :=
      match i with
      | O => e_atanh p0
      | S j => (1 / kofZ 2) * ((1 / kpow (1 - p0) i + alt j / kpow (1 + p0) i) / kofnat i)
      end.

    Theorem gatanh_psum d : gwf d -> (n <= gord d)%nat ->
      seqv (Some n) (gd (gatanh d)) (psum (atanhc (cc d)) n (ghat h d)).
    Proof.
      intros Hd Hn. unfold gatanh. fold (phat_of d). set (c := constant_cf d) in *.
      assert (Wp := phat_gwf d Hd). assert (Ep := phat_den d Hd).
      set (phat := phat_of d) in *. set (phi := ghat h d) in *.
      assert (Op : gord phat = gord d) by reflexivity.
      set (b := fun i => match i with O => 0 | S j => (1 / kpow (1 - h c) i + alt j / kpow (1 + h c) i) / kofnat i end : K).
      set (F := fun '(retval, coeff, powphat) k => _).
      assert (G : forall j, let '(r, f, p) := fold_left F (seq 1 j) (gconst k0, k1, phat) in
        gwf r /\ gwf p /\ (gord r <= gord d)%nat /\ gord p = gord d /\
        seqv (Some n) (gd r) (psum b j phi) /\ h f = alt j /\
        seqv (Some n) (gd p) (spow phi (S j))).
      { induction j.
        - cbn [seq fold_left]. split; [auto with gwf|]. split; [auto|]. split; [simpl; lia|]. split; [auto|].
          split; [rewrite (gden_const h), (hom_0 h); reflexivity|]. split; [apply (hom_1 h)|].
          rewrite Ep, (spow_1 (Some n)). reflexivity.
        - rewrite seq_S, fold_left_app. cbn [fold_left].
          destruct (fold_left F (seq 1 j) _) as [[r f] p]. destruct IHj as (W1 & W2 & O1 & O2 & E1 & E2 & E3).
          unfold F at 1. replace (1 + j)%nat with (S j) by lia.
          split; [auto 6 with gwf|]. split; [auto with gwf|]. split.
          { cbn [gadd gord]. rewrite gmul_sg_ord. lia. }
          split; [simpl; lia|]. split.
          + rewrite (gden_add h) by auto with gwf. rewrite (gden_mul_sg h) by auto with gwf.
            rewrite E1, E3. rewrite psum_S. unfold b at 3.
            rewrite (hom_div h), (hom_add h), !(hom_div h), !(hom_pow h), (hom_sub h), (hom_add h), (hom_1 h), (hom_ofnat h), E2.
            reflexivity.
          + split.
            * rewrite (hom_mul h), E2, (hom_opp h), (hom_1 h). unfold alt. cbn [kpow]. ring.
            * rewrite (gden_mul h n) by (auto; lia). rewrite E3, Ep. cbn [spow]. ring. }
      specialize (G (gord d)).
      destruct (fold_left F _ _) as [[r f] p]. destruct G as (Wr & _ & _ & _ & E & _).
      rewrite (gden_add_sg h) by auto with gwf. rewrite (gden_mul_sg h) by auto with gwf. rewrite E.
      rewrite (hom_atanh h), (hom_div h), (hom_1 h), (hom_ofZ h).
      rewrite (psum_trunc _ n) by (try apply ghat_vanish; auto).
      rewrite <- (psum_scale (Some n)).
      assert (X : seqv (Some n) (scon (e_atanh (h c))) (psum (fun i => match i with O => e_atanh (h c) | S _ => 0 end) n phi)).
      { rewrite (psum_const0 (Some n)); [reflexivity|]. intros i Hi. destruct i; [lia|reflexivity]. }
      rewrite X, <- (psum_add (Some n)). rewrite (psum_ext _ (atanhc (h c))); [reflexivity|].
      intros i _. unfold b, atanhc. destruct i; ring.
    Qed.

    (** *** atan *)
    Lemma hom_atan_odd (x : A) k : h (atan_odd x k) = atan_odd (h x) k.
    Proof.
      unfold atan_odd.
      set (F := fun '(binom, f0, cf_i) j => _). set (F' := fun '(binom, f0, cf_i) j => _).
      assert (G : forall l b f c b' f' c', h b = b' -> h f = f' -> h c = c' ->
        let '(rb, rf, rc) := fold_left F l (b, f, c) in
        let '(rb', rf', rc') := fold_left F' l (b', f', c') in h rb = rb' /\ h rf = rf' /\ h rc = rc').
      { induction l; intros b f c b' f' c' H1 H2 H3; cbn [fold_left]; [auto|].
        unfold F at 2, F' at 2. apply IHl.
        - rewrite (hom_add h), !(hom_mul h), (hom_ofZ h). congruence.
        - rewrite !(hom_mul h). congruence.
        - rewrite (hom_opp h). congruence. }
      specialize (G (seq 1 (k / 2)) k1 (kmul x x) (kopp k1) k1 (kmul (h x) (h x)) (kopp k1)
                    (hom_1 h) (hom_mul h x x)).
      specialize (G ltac:(rewrite (hom_opp h), (hom_1 h); reflexivity)).
      destruct (fold_left F _ _) as [[? ?] ?]. destruct (fold_left F' _ _) as [[? ?] ?]. apply G.
    Qed.
    Lemma hom_atan_even (x : A) k : h (atan_even x k) = atan_even (h x) k.
    Proof.
      unfold atan_even.
      set (F := fun '(binom, f0, cf_i) j => _). set (F' := fun '(binom, f0, cf_i) j => _).
      assert (G : forall l b f c b' f' c', h b = b' -> h f = f' -> h c = c' ->
        let '(rb, rf, rc) := fold_left F l (b, f, c) in
        let '(rb', rf', rc') := fold_left F' l (b', f', c') in h rb = rb' /\ h rf = rf' /\ h rc = rc').
      { induction l; intros b f c b' f' c' H1 H2 H3; cbn [fold_left]; [auto|].
        unfold F at 2, F' at 2. apply IHl.
        - rewrite (hom_add h), !(hom_mul h), (hom_ofZ h). congruence.
        - rewrite !(hom_mul h). congruence.
        - rewrite (hom_opp h). congruence. }
      specialize (G (seq 1 ((k + 1) / 2)) k0 x k1 k0 (h x) k1 (hom_0 h) eq_refl (hom_1 h)).
      destruct (fold_left F _ _) as [[? ?] ?]. destruct (fold_left F' _ _) as [[? ?] ?]. apply G.
    Qed.

    Definition atanc (p0 : K) (k : nat) : K :=
      match k with
      | O => e_atan p0
      | S _ => alt (k / 2) * (if Nat.odd k then atan_odd p0 k else atan_even p0 k)
               / (kofnat k * kpow (1 + p0 * p0) k)
      end.

    Theorem gatan_psum d : gwf d -> (n <= gord d)%nat -> 1 + cc d * cc d <> 0 ->
      seqv (Some n) (gd (gatan d)) (psum (atanc (cc d)) n (ghat h d)).
    Proof.
      intros Hd Hn Hc. unfold gatan. fold (phat_of d). set (c := constant_cf d) in *.
      set (q := kadd k1 (kmul c c)). assert (Hq : h q = 1 + h c * h c).
      { unfold q. rewrite (hom_add h), (hom_1 h), (hom_mul h). reflexivity. }
      set (phat := gdiv_gs (phat_of d) q).
      assert (Wp : gwf phat) by (unfold phat; auto using phat_gwf with gwf).
      assert (Op : gord phat = gord d) by (unfold phat; rewrite gdiv_gs_ord; reflexivity).
      set (phi := smul (scon (1 / h q)) (ghat h d)).
      assert (Ep : seqv (Some n) (gd phat) phi).
      { unfold phat. rewrite (gden_div_gs h) by auto using phat_gwf. rewrite phat_den by auto. reflexivity. }
      assert (Hv : vanish 1 phi) by (apply vanish_scale, ghat_vanish).
      set (b := fun k => match k with O => e_atan (h c) | S _ => alt (k / 2) * (if Nat.odd k then atan_odd (h c) k else atan_even (h c) k) / kofnat k end : K).
      set (F := fun '(retval, coeff1, coeff2, powphat) k => _).
      assert (G : forall j, let '(r, c1, c2, p) := fold_left F (seq 1 j) (gconst (e_atan c), k1, kopp k1, phat) in
        gwf r /\ gwf p /\ (gord r <= gord d)%nat /\ gord p = gord d /\
        seqv (Some n) (gd r) (psum b j phi) /\ h c1 = alt (S j / 2) /\ h c2 = alt (S (j / 2)) /\
        seqv (Some n) (gd p) (spow phi (S j))).
      { induction j.
        - cbn [seq fold_left]. split; [auto with gwf|]. split; [auto|]. split; [simpl; lia|]. split; [auto|].
          split; [rewrite (gden_const h), (hom_atan h); reflexivity|]. split; [apply (hom_1 h)|].
          split; [rewrite (hom_opp h), (hom_1 h); unfold alt; cbn [kpow]; change (0 / 2)%nat with O; cbn [kpow]; ring|].
          rewrite Ep, (spow_1 (Some n)). reflexivity.
        - rewrite seq_S, fold_left_app. cbn [fold_left].
          destruct (fold_left F (seq 1 j) _) as [[[r c1] c2] p].
          destruct IHj as (W1 & W2 & O1 & O2 & E1 & Ec1 & Ec2 & E3).
          unfold F at 1. replace (1 + j)%nat with (S j) by lia.
          assert (E3' : seqv (Some n) (gd (gmul p phat)) (spow phi (S (S j)))).
          { rewrite (gden_mul h n) by (auto; lia). rewrite E3, Ep. cbn [spow]. ring. }
          assert (Hk : (kofnat (S j) : K) <> 0) by (apply kofnat_neq0; lia).
          destruct (Nat.odd (S j)) eqn:Od.
          + assert (Hj : exists m, j = (2 * m)%nat).
            { rewrite Nat.odd_succ in Od. apply Nat.even_spec in Od. auto. }
            destruct Hj as [m Hm].
            split; [auto 7 with gwf|]. split; [auto with gwf|]. split.
            { cbn [gadd gord]. rewrite gdiv_gs_ord, gmul_gs_ord, gmul_sg_ord. lia. }
            split; [simpl; lia|]. split.
            * rewrite (gden_add h) by auto 7 with gwf. rewrite (gden_div_gs h), (gden_mul_gs h), (gden_mul_sg h) by auto with gwf.
              rewrite E1, E3. rewrite psum_S. unfold b at 3. rewrite Od.
              rewrite hom_atan_odd, Ec1, (hom_ofnat h).
              transitivity (sadd (psum b j phi) (smul (smul (scon (1 / kofnat (S j))) (smul (scon (alt (S j / 2))) (scon (atan_odd (h c) (S j))))) (spow phi (S j)))); [ring|].
              rewrite <- !scon_mul.
              replace (1 / kofnat (S j) * (alt (S j / 2) * atan_odd (h c) (S j))) with
                 (alt (S j / 2) * atan_odd (h c) (S j) / kofnat (S j)) by (field; auto). reflexivity.
            * split; [|split; auto].
              -- rewrite (hom_opp h), Ec1. subst j. rewrite half_2_1.
                 replace (S (S (2 * m)))%nat with (2 * S m)%nat by lia. rewrite half_2.
                 unfold alt. cbn [kpow]. ring.
              -- rewrite Ec2. subst j. rewrite half_2_1, half_2. reflexivity.
          + assert (Hj : exists m, j = S (2 * m)%nat).
            { rewrite Nat.odd_succ in Od. rewrite <- Nat.negb_odd in Od. apply negb_false_iff in Od.
              apply Nat.odd_spec in Od. destruct Od as [m ->]. exists m. lia. }
            destruct Hj as [m Hm].
            split; [auto 7 with gwf|]. split; [auto with gwf|]. split.
            { cbn [gadd gord]. rewrite gdiv_gs_ord, gmul_gs_ord, gmul_sg_ord. lia. }
            split; [simpl; lia|]. split.
            * rewrite (gden_add h) by auto 7 with gwf. rewrite (gden_div_gs h), (gden_mul_gs h), (gden_mul_sg h) by auto with gwf.
              rewrite E1, E3. rewrite psum_S. unfold b at 3. rewrite Od.
              rewrite hom_atan_even, Ec2, (hom_ofnat h).
              replace (S (j / 2)) with (S j / 2)%nat.
              2:{ subst j. rewrite half_2_1. replace (S (S (2 * m)))%nat with (2 * S m)%nat by lia. apply half_2. }
              transitivity (sadd (psum b j phi) (smul (smul (scon (1 / kofnat (S j))) (smul (scon (alt (S j / 2))) (scon (atan_even (h c) (S j))))) (spow phi (S j)))); [ring|].
              rewrite <- !scon_mul.
              replace (1 / kofnat (S j) * (alt (S j / 2) * atan_even (h c) (S j))) with
                 (alt (S j / 2) * atan_even (h c) (S j) / kofnat (S j)) by (field; auto). reflexivity.
            * split; [|split; auto].
              -- rewrite Ec1. subst j. replace (S (S (2 * m)))%nat with (2 * S m)%nat by lia.
                 rewrite half_2, half_2_1. reflexivity.
              -- rewrite (hom_opp h), Ec2. subst j. rewrite half_2_1.
                 replace (S (S (2 * m)))%nat with (2 * S m)%nat by lia. rewrite half_2.
                 unfold alt. cbn [kpow]. ring. }
      specialize (G (gord d)).
      destruct (fold_left F _ _) as [[[r c1] c2] p]. destruct G as (Wr & _ & _ & _ & E & _).
      rewrite E. rewrite (psum_trunc _ n) by auto. unfold phi. rewrite (psum_arg (Some n)).
      rewrite (psum_ext _ (atanc (h c))); [reflexivity|].
      intros i _. unfold b, atanc. rewrite Hq. destruct i; [cbn [kpow]; ring|].
      rewrite kpow_div by auto. assert (X := kpow_neq0 _ (S i) Hc).
      assert (Y : (kofnat (S i) : K) <> 0) by (apply kofnat_neq0; lia).
      field. auto.
    Qed.
  End Fixed.
End FunAlg.
