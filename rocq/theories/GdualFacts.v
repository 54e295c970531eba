(** * Facts on the gdual model: invariants and denotation (proof file) *)

From Coq Require Import String List Arith Bool Lia ZArith Setoid Morphisms Ring Field FunctionalExtensionality.
From Verif Require Import Ops Syms SymsFacts Poly PolyFacts Sem Den Gdual.
Import ListNotations.

(** Split conjunctions only. *)
Ltac conjs := repeat match goal with |- _ /\ _ => split end.

(** ** Structure, for any arithmetic *)
Section Struct.
  Context {K : Type} {o : Ops K}.

  (** The invariant of a gdual: well-formed polynomial whose degree does not
      exceed the truncation order. *)
  Record gwf (g : gdual K) : Prop := mkGwf {
    gwf_swf : swf (gp g);
    gwf_dle : dle (gord g) (pterms (gp g))
  }.

  Lemma dle_mono n m (ts : list (term K)) : n <= m -> dle n ts -> dle m ts.
  Proof. intros H. unfold dle. apply Forall_impl. intros; lia. Qed.

  Lemma gwf_dle_le g n : gwf g -> gord g <= n -> dle n (pterms (gp g)).
  Proof. intros [Hs Hd] H. eapply dle_mono; eauto. Qed.

  Lemma gconst_gwf v : gwf (gconst v).
  Proof.
    constructor; cbn [gconst gp gord].
    - apply padd_swf; auto with swf.
    - apply padd_dle; auto with swf; [constructor|apply pconst_dle].
  Qed.
  Lemma gdefault_gwf : gwf gdefault.
  Proof. constructor; cbn [gdefault gp gord]; [apply pconst_swf|apply pconst_dle]. Qed.
  Lemma gconst_ord_gwf v n : gwf (gconst_ord v n).
  Proof. constructor; cbn [gconst_ord gp gord]; [apply pconst_swf|apply pconst_dle]. Qed.

  Lemma gadd_gwf a b : gwf a -> gwf b -> gwf (gadd a b).
  Proof.
    intros Ha Hb. constructor; cbn [gadd gp gord].
    - apply padd_swf; [apply Ha|apply Hb].
    - apply padd_dle; try apply Ha; try apply Hb; apply gwf_dle_le; auto; lia.
  Qed.
  Lemma gsub_gwf a b : gwf a -> gwf b -> gwf (gsub a b).
  Proof.
    intros Ha Hb. constructor; cbn [gsub gp gord].
    - apply psub_swf; [apply Ha|apply Hb].
    - apply psub_dle; try apply Ha; try apply Hb; apply gwf_dle_le; auto; lia.
  Qed.
  Lemma gadd_sg_gwf v a : gwf a -> gwf (gadd_sg v a).
  Proof.
    intros Ha. constructor; cbn [gadd_sg gp gord].
    - apply padd_swf; [apply pconst_swf|apply Ha].
    - apply padd_dle; auto using pconst_dle; try apply Ha. apply pconst_swf.
  Qed.
  Lemma gadd_gs_gwf a v : gwf a -> gwf (gadd_gs a v).
  Proof. apply gadd_sg_gwf. Qed.
  Lemma gsub_sg_gwf v a : gwf a -> gwf (gsub_sg v a).
  Proof.
    intros Ha. constructor; cbn [gsub_sg gp gord].
    - apply psub_swf; [apply pconst_swf|apply Ha].
    - apply psub_dle; auto using pconst_dle; try apply Ha. apply pconst_swf.
  Qed.
  Lemma gsub_gs_gwf a v : gwf a -> gwf (gsub_gs a v).
  Proof.
    intros Ha. constructor; cbn [gsub_gs gp gord].
    - apply psub_swf; [apply Ha|apply pconst_swf].
    - apply psub_dle; auto using pconst_dle; try apply Ha. apply pconst_swf.
  Qed.
  Lemma gneg_gwf a : gwf a -> gwf (gneg a).
  Proof. intros [Hs Hd]. constructor; cbn [gneg gp gord]; [apply pneg_swf|apply pneg_dle]; auto. Qed.
  Lemma gmul_gwf a b : gwf a -> gwf b -> gwf (gmul a b).
  Proof.
    intros Ha Hb. constructor; cbn [gmul gp gord].
    - apply pmul_if_swf; [apply Ha|apply Hb].
    - apply ptmul_dle; [apply Ha|apply Hb].
  Qed.
  Lemma gmul_sg_gwf v a : gwf a -> gwf (gmul_sg v a).
  Proof. intros. apply gmul_gwf; auto using gconst_ord_gwf. Qed.
  Lemma gmul_gs_gwf a v : gwf a -> gwf (gmul_gs a v).
  Proof. intros. apply gmul_gwf; auto using gconst_ord_gwf. Qed.
  Lemma gdiv_gs_gwf a v : gwf a -> gwf (gdiv_gs a v).
  Proof. apply gmul_gs_gwf. Qed.
  Hint Resolve gconst_gwf gconst_ord_gwf gadd_gwf gsub_gwf gadd_sg_gwf gadd_gs_gwf gsub_sg_gwf
    gsub_gs_gwf gneg_gwf gmul_gwf gmul_sg_gwf gmul_gs_gwf gdiv_gs_gwf : gwf.

  Lemma gmul_sg_ord v (a : gdual K) : gord (gmul_sg v a) = gord a.
  Proof. simpl. lia. Qed.
  Lemma gmul_gs_ord v (a : gdual K) : gord (gmul_gs a v) = gord a.
  Proof. simpl. lia. Qed.
  Lemma gdiv_gs_ord v (a : gdual K) : gord (gdiv_gs a v) = gord a.
  Proof. apply gmul_gs_ord. Qed.

  (** Loop invariant of the reciprocal. *)
  Lemma grecip_inv (I : gdual K * K * gdual K -> Prop) (d2 : gdual K) :
    let phat := gdiv_gs (gsub_gs d2 (constant_cf d2)) (constant_cf d2) in
    I (gsub (gconst k1) phat, kopp k1, phat) ->
    (forall r f p, I (r, f, p) ->
       I (gadd r (gmul_sg (kmul (kopp k1) f) (gmul p phat)), kmul (kopp k1) f, gmul p phat)) ->
    exists f p, I (grecip_loop d2, f, p).
  Proof.
    intros phat H0 Hs. unfold grecip_loop. fold phat.
    set (F := fun '(retval, fatt, phat0) (_ : nat) => _).
    assert (G : I (fold_left F (seq 2 (gord d2 - 1)) (gsub (gconst k1) phat, kopp k1, phat))).
    { apply fold_left_inv; auto. intros [[r f] p] b _ Hi. apply Hs. exact Hi. }
    destruct (fold_left F _ _) as [[r f] p]. exists f, p. exact G.
  Qed.

  Lemma grecip_gwf d : gwf d -> gwf (grecip_loop d) /\ gord (grecip_loop d) = gord d.
  Proof.
    intros Hd.
    destruct (grecip_inv (fun '(r, _, p) => gwf r /\ gwf p /\ gord r = gord d /\ gord p = gord d) d)
      as (f & p & H1 & H2 & H3 & H4); auto.
    - conjs; auto 6 with gwf; simpl; lia.
    - intros r f p (H1 & H2 & H3 & H4).
      assert (Hp : gwf (gdiv_gs (gsub_gs d (constant_cf d)) (constant_cf d))) by auto with gwf.
      conjs; auto 6 with gwf; simpl; lia.
  Qed.
  Lemma gdiv_gwf a b : gwf a -> gwf b -> gwf (gdiv a b).
  Proof. intros Ha Hb. unfold gdiv. destruct (grecip_gwf b Hb). auto with gwf. Qed.
  Lemma gdiv_sg_gwf v b : gwf b -> gwf (gdiv_sg v b).
  Proof. intros Hb. unfold gdiv_sg. destruct (grecip_gwf b Hb). auto with gwf. Qed.
  Lemma gdiv_ord (a b : gdual K) : gwf b -> gord (gdiv a b) = Nat.max (gord a) (gord b).
  Proof.
    intros Hb. unfold gdiv. rewrite gdiv_gs_ord. cbn [gmul gord]. destruct (grecip_gwf b Hb) as [_ ->]. auto.
  Qed.
  Lemma gdiv_sg_ord v (b : gdual K) : gwf b -> gord (gdiv_sg v b) = gord b.
  Proof.
    intros Hb. unfold gdiv_sg. rewrite gdiv_gs_ord, gmul_sg_ord. apply (grecip_gwf b Hb).
  Qed.

  (** *** Symbol sets *)
  Definition gsyms (g : gdual K) : list string := psyms (gp g).

  Lemma gsyms_add a b : gsyms (gadd a b) = sunion (gsyms a) (gsyms b).
  Proof. reflexivity. Qed.
  Lemma gsyms_sub a b : gsyms (gsub a b) = sunion (gsyms a) (gsyms b).
  Proof. reflexivity. Qed.
  Lemma gsyms_mul a b : gsyms (gmul a b) = sunion (gsyms a) (gsyms b).
  Proof. reflexivity. Qed.
  Lemma gsyms_neg a : gsyms (gneg a) = gsyms a.
  Proof. reflexivity. Qed.
  Lemma gsyms_sorted a : gwf a -> ssorted (gsyms a).
  Proof. intros [[] _]. auto. Qed.
  Lemma gsyms_gsub_gs a v : gwf a -> gsyms (gsub_gs a v) = gsyms a.
  Proof. intros. apply (sunion_nil_r (gsyms a)), gsyms_sorted; auto. Qed.
  Lemma gsyms_gsub_sg v a : gsyms (gsub_sg v a) = gsyms a.
  Proof. reflexivity. Qed.
  Lemma gsyms_gadd_sg v a : gsyms (gadd_sg v a) = gsyms a.
  Proof. reflexivity. Qed.
  Lemma gsyms_gadd_gs v a : gsyms (gadd_gs a v) = gsyms a.
  Proof. reflexivity. Qed.
  Lemma gsyms_gmul_sg v a : gsyms (gmul_sg v a) = gsyms a.
  Proof. reflexivity. Qed.
  Lemma gsyms_gmul_gs a v : gwf a -> gsyms (gmul_gs a v) = gsyms a.
  Proof. intros. apply (sunion_nil_r (gsyms a)), gsyms_sorted; auto. Qed.
  Lemma gsyms_gdiv_gs a v : gwf a -> gsyms (gdiv_gs a v) = gsyms a.
  Proof. apply gsyms_gmul_gs. Qed.
  Lemma gsyms_gconst v : gsyms (gconst v) = [].
  Proof. reflexivity. Qed.

  Lemma gsyms_grecip d : gwf d -> gsyms (grecip_loop d) = gsyms d.
  Proof.
    intros Hd. assert (Hs := gsyms_sorted d Hd).
    destruct (grecip_inv (fun '(r, _, p) => gsyms r = gsyms d /\ gsyms p = gsyms d) d) as (f & p & H1 & H2); auto.
    - rewrite gsyms_sub, gsyms_gdiv_gs, gsyms_gsub_gs; auto with gwf.
    - intros r f p (H1 & H2). rewrite gsyms_add, gsyms_gmul_sg, gsyms_mul.
      rewrite gsyms_gdiv_gs, gsyms_gsub_gs; auto with gwf. rewrite H1, H2, !sunion_idem; auto.
  Qed.
  Lemma gsyms_gdiv a b : gwf a -> gwf b -> gsyms (gdiv a b) = sunion (gsyms a) (gsyms b).
  Proof.
    intros Ha Hb. unfold gdiv. destruct (grecip_gwf b Hb).
    rewrite gsyms_gdiv_gs, gsyms_mul, gsyms_grecip; auto with gwf.
  Qed.
  Lemma gsyms_gdiv_sg v b : gwf b -> gsyms (gdiv_sg v b) = gsyms b.
  Proof.
    intros Hb. unfold gdiv_sg. destruct (grecip_gwf b Hb).
    rewrite gsyms_gdiv_gs, gsyms_gmul_sg, gsyms_grecip; auto with gwf.
  Qed.

  (** *** Other operations *)
  Lemma ptruncateZ_dle (m : nat) (z : Z) (p : poly K) : (z <= Z.of_nat m)%Z -> dle m (pterms (ptruncateZ z p)).
  Proof.
    intros Hz. unfold dle; simpl. apply Forall_forall. intros t Ht. apply filter_In in Ht.
    destruct Ht as [_ Ht]. apply Z.leb_le in Ht. lia.
  Qed.
  Lemma as_int_le n : (as_int n <= Z.of_nat n)%Z.
  Proof. unfold as_int, two31, two32. destruct (Z.ltb_spec (Z.of_nat n) 2147483648); lia. Qed.

  Lemma gintegrate_gwf g s r : gwf g -> gintegrate g s = Ok r -> gwf r /\ gord r = gord g.
  Proof.
    intros [Hs Hd] H. unfold gintegrate in H. destruct (check_var_name s); simpl in H; [|discriminate].
    inversion H; subst; clear H. split; auto. constructor; cbn [gp gord].
    - unfold ptruncateZ. auto with swf.
    - apply ptruncateZ_dle, as_int_le.
  Qed.
  Lemma gpartial_gwf g s r : gwf g -> gpartial g s = Ok r -> gwf r /\ gord r = gord g.
  Proof.
    intros [Hs Hd] H. unfold gpartial in H. destruct (check_var_name s); simpl in H; [|discriminate].
    inversion H; subst; clear H. split; auto. constructor; cbn [gp gord].
    - auto with swf.
    - eapply dle_mono; [|apply pdiff_dle; eauto]. lia.
  Qed.
  Lemma gsubs_val_gwf g s v : gwf g -> gwf (gsubs_val g s v).
  Proof. intros [Hs Hd]. constructor; cbn [gsubs_val gp gord]; auto with swf. apply psubs_val_dle; auto. Qed.
  Lemma gsubs_gwf g s v : gwf g -> gwf v -> gwf (gsubs g s v).
  Proof.
    intros [Hs Hd] [Hs' _]. constructor; cbn [gsubs gp gord].
    - unfold ptruncate. auto with swf.
    - apply ptrim_dle; [unfold ptruncate; auto with swf|]. apply ptruncate_dle.
  Qed.
  Lemma gtrim_gwf g e r : gwf g -> gtrim g e = Ok r -> gwf r /\ gord r = gord g.
  Proof.
    intros [Hs Hd] H. unfold gtrim in H. destruct (kltb e k0); [discriminate|].
    inversion H; subst; clear H. split; auto. constructor; cbn [gp gord]; auto with swf. apply pfilter_dle; auto.
  Qed.
  Lemma extract_terms_gwf g n r : gwf g -> extract_terms g n = Ok r -> gwf r /\ gord r = n.
  Proof.
    intros [Hs Hd] H. unfold extract_terms in H. destruct (Nat.ltb (gord g) n); [discriminate|].
    inversion H; subst; clear H. split; auto. constructor; cbn [gp gord]; auto with swf.
    unfold dle; simpl. apply Forall_forall. intros t Ht. apply filter_In in Ht.
    destruct Ht as [_ Ht]. apply Nat.eqb_eq in Ht. lia.
  Qed.
  Lemma padd_symbols_swf l (p : poly K) : swf p -> swf (padd_symbols l p).
  Proof.
    intros. unfold padd_symbols. apply pext_swf; auto.
    apply sunion_sorted, sset_sorted.
  Qed.
  Lemma extend_gwf l g r : gwf g -> extend_symbol_set l g = Ok r -> gwf r /\ gord r = gord g.
  Proof.
    intros [Hs Hd] H. unfold extend_symbol_set in H. destruct (check_all_d l); simpl in H; [|discriminate].
    inversion H; subst; clear H. split; auto. constructor; cbn [gp gord]; auto using padd_symbols_swf.
    apply pext_dle; auto. apply ssorted_NoDup, sunion_sorted, sset_sorted.
  Qed.
  Lemma gvar_gwf v s n r : gvar v s n = Ok r -> gwf r /\ gord r = n.
  Proof.
    unfold gvar. destruct (check_order n); [|discriminate]. cbn [rbind].
    destruct (check_var_name s); [|discriminate]. cbn [rbind].
    assert (H0 : gwf (mkG (@pzero K) n)) by (constructor; simpl; auto with swf; constructor).
    destruct (Nat.eqb_spec n 0) as [->|Hn].
    - destruct (extend_symbol_set _ _) as [g|] eqn:E; [|discriminate]. cbn [rbind].
      intros H; inversion H; subst; clear H. destruct (extend_gwf _ _ _ H0 E) as [[Hs Hd] Ho].
      split; [|exact Ho]. constructor; cbn [gp gord]; auto with swf. apply padd_dle; auto with swf; apply pconst_dle.
    - cbn [rbind]. intros H; inversion H; subst; clear H. split; auto. constructor; cbn [gp gord]; auto with swf.
      apply padd_dle; auto with swf; [|apply pconst_dle]. eapply dle_mono; [|apply pvar_dle]. lia.
  Qed.
  Lemma gdegree_le g : gwf g -> gdegree g <= gord g.
  Proof. intros [_ Hd]. apply pdegree_le. exact Hd. Qed.
End Struct.
#[global] Hint Resolve gconst_gwf gconst_ord_gwf gadd_gwf gsub_gwf gadd_sg_gwf gadd_gs_gwf gsub_sg_gwf
    gsub_gs_gwf gneg_gwf gmul_gwf gmul_sg_gwf gmul_gs_gwf gdiv_gs_gwf gdiv_gwf gdiv_sg_gwf : gwf.

(** ** Formal power sums *)
Section PSum.
  Context {K : Type} {oK : Ops K} {fl : FieldLaws oK}.
  Local Open Scope K_scope.
  Add Field Kfield : (fl_field (K:=K)).

  (** sum_{i <= N} a_i l^i *)
  Fixpoint psum (a : nat -> K) (N : nat) (l : sp K) : sp K :=
    match N with
    | O => scon (a O)
    | S m => sadd (psum a m l) (smul (scon (a (S m))) (spow l (S m)))
    end.

  Lemma psum_proper tr a N l l' : seqv tr l l' -> seqv tr (psum a N l) (psum a N l').
  Proof.
    intros H. induction N; cbn [psum]; [reflexivity|]. rewrite IHN, H. reflexivity.
  Qed.
  Lemma psum_ext a b N l : (forall i, (i <= N)%nat -> a i = b i) -> psum a N l = psum b N l.
  Proof.
    intros H. induction N; cbn [psum]; rewrite H by lia; auto. rewrite IHN; auto.
  Qed.

  Lemma psum_trunc a n N l : vanish 1 l -> (n <= N)%nat -> seqv (Some n) (psum a N l) (psum a n l).
  Proof.
    intros Hv. induction N; intros Hn.
    - replace n with O by lia. reflexivity.
    - destruct (Nat.eq_dec n (S N)) as [->|Hne]; [reflexivity|].
      cbn [psum]. rewrite IHN by lia.
      assert (Hz : seqv (Some n) (spow l (S N)) s0).
      { apply vanish_seqv. apply (vanish_le _ (S N)); [lia|]. apply vanish_pow1; auto. }
      constructor. intros F HF. rewrite Lf_sadd.
      assert (E : seqv (Some n) (smul (scon (a (S N))) (spow l (S N))) s0).
      { rewrite Hz. constructor. intros G _. rewrite Lf_smul_scon, !Lf_s0. ring. }
      rewrite (seqv_elim E F HF). rewrite Lf_s0. ring.
  Qed.

  Lemma psum_ev a N l V rho : Lf (psum a N l) (evF V rho) =
    fold_right (fun i s => a i * kpow (Lf l (evF V rho)) i + s) 0 (seq 0 (S N)).
  Proof.
    induction N; cbn [psum].
    - rewrite Lf_ev_con. simpl. ring.
    - rewrite Lf_sadd, Lf_ev_mul, Lf_ev_con, Lf_ev_pow, IHN.
      rewrite (seq_S (S N) 0), fold_right_app. cbn [fold_right Nat.add].
      generalize (a (S N) * kpow (Lf l (evF V rho)) (S N)). intros c.
      generalize (seq 0 (S N)). intros L. induction L; cbn [fold_right]; [ring|]. rewrite <- IHL. ring.
  Qed.
End PSum.

(** ** Denotation of gduals *)
Section GDen.
  Context {A K : Type} {oA : Ops A} {oK : Ops K} {fl : FieldLaws oK}.
  Variable h : A -> K.
  Context {hh : Hom oA oK h}.
  Local Open Scope K_scope.
  Add Field Kfield2 : (fl_field (K:=K)).

  Definition gden (g : gdual A) : sp K := den h (gp g).

  Lemma sadd_s0_l tr (l : sp K) : seqv tr (sadd s0 l) l.
  Proof. reflexivity. Qed.

  Lemma gden_const tr v : seqv tr (gden (gconst v)) (scon (h v)).
  Proof.
    unfold gden, gconst; cbn [gp]. rewrite (den_padd h) by auto with swf. rewrite (den_pconst h).
    rewrite (den_pzero h). apply sadd_s0_l.
  Qed.
  Lemma gden_const_ord tr v n : seqv tr (gden (gconst_ord v n)) (scon (h v)).
  Proof. apply (den_pconst h). Qed.
  Lemma gden_add tr a b : gwf a -> gwf b -> seqv tr (gden (gadd a b)) (sadd (gden a) (gden b)).
  Proof. intros [Ha _] [Hb _]. apply (den_padd h); auto. Qed.
  Lemma gden_sub tr a b : gwf a -> gwf b -> seqv tr (gden (gsub a b)) (ssub (gden a) (gden b)).
  Proof. intros [Ha _] [Hb _]. apply (den_psub h); auto. Qed.
  Lemma gden_neg tr a : seqv tr (gden (gneg a)) (sopp (gden a)).
  Proof. apply (den_pneg h). Qed.
  Lemma gden_add_sg tr v a : gwf a -> seqv tr (gden (gadd_sg v a)) (sadd (scon (h v)) (gden a)).
  Proof.
    intros [Ha _]. unfold gden, gadd_sg; cbn [gp]. rewrite (den_padd h) by auto with swf.
    rewrite (den_pconst h). reflexivity.
  Qed.
  Lemma gden_add_gs tr v a : gwf a -> seqv tr (gden (gadd_gs a v)) (sadd (scon (h v)) (gden a)).
  Proof. apply gden_add_sg. Qed.
  Lemma gden_sub_sg tr v a : gwf a -> seqv tr (gden (gsub_sg v a)) (ssub (scon (h v)) (gden a)).
  Proof.
    intros [Ha _]. unfold gden, gsub_sg; cbn [gp]. rewrite (den_psub h) by auto with swf.
    rewrite (den_pconst h). reflexivity.
  Qed.
  Lemma gden_sub_gs tr v a : gwf a -> seqv tr (gden (gsub_gs a v)) (ssub (gden a) (scon (h v))).
  Proof.
    intros [Ha _]. unfold gden, gsub_gs; cbn [gp]. rewrite (den_psub h) by auto with swf.
    rewrite (den_pconst h). reflexivity.
  Qed.
  Lemma gden_mul n a b : gwf a -> gwf b -> (n <= Nat.max (gord a) (gord b))%nat ->
    seqv (Some n) (gden (gmul a b)) (smul (gden a) (gden b)).
  Proof. intros [Ha _] [Hb _] Hn. apply (den_ptmul h); auto. Qed.

  (** Polynomials of bounded degree are determined by their truncation. *)
  Definition sdle (n : nat) (l : sp K) : Prop := Forall (fun t => (fst (snd t) <= n)%nat) l.
  Lemma den_sdle n p : dle n (pterms p) -> sdle n (den h p).
  Proof. unfold sdle, den, tden, dle. rewrite Forall_map. auto. Qed.
  Lemma sdle_scale n c l : sdle n l -> sdle n (smul (scon c) l).
  Proof.
    unfold sdle, smul, scon. cbn [flat_map]. rewrite app_nil_r, Forall_map. auto.
  Qed.
  Lemma Lf_cut n l F : sdle n l -> Lf l F = Lf l (fun d m => if Nat.leb d n then F d m else 0).
  Proof.
    intros H. apply Lf_ext. intros t Ht. unfold sdle in H. rewrite Forall_forall in H.
    apply H in Ht. apply Nat.leb_le in Ht. rewrite Ht. reflexivity.
  Qed.
  Lemma seqv_bounded n l l' : sdle n l -> sdle n l' -> seqv (Some n) l l' -> seqv None l l'.
  Proof.
    intros H H' E. constructor. intros F _. rewrite (Lf_cut n l), (Lf_cut n l'); auto.
    apply (seqv_elim E). simpl. intros d m Hd. destruct (Nat.leb_spec d n); auto. lia.
  Qed.

  Lemma gden_mul_sg tr v a : gwf a -> seqv tr (gden (gmul_sg v a)) (smul (scon (h v)) (gden a)).
  Proof.
    intros Ha. apply seqv_full. apply (seqv_bounded (gord a)).
    - apply den_sdle. apply (gwf_dle_le (gmul_sg v a)); [auto with gwf|rewrite gmul_sg_ord; auto].
    - apply sdle_scale, den_sdle, Ha.
    - unfold gmul_sg. rewrite gden_mul by (auto with gwf; simpl; lia). rewrite gden_const_ord. reflexivity.
  Qed.
  Lemma gden_mul_gs tr v a : gwf a -> seqv tr (gden (gmul_gs a v)) (smul (scon (h v)) (gden a)).
  Proof.
    intros Ha. apply seqv_full. apply (seqv_bounded (gord a)).
    - apply den_sdle. apply (gwf_dle_le (gmul_gs a v)); [auto with gwf|rewrite gmul_gs_ord; auto].
    - apply sdle_scale, den_sdle, Ha.
    - unfold gmul_gs. rewrite gden_mul by (auto with gwf; simpl; lia). rewrite gden_const_ord.
      apply smul_comm.
  Qed.
  Lemma gden_div_gs tr v a : gwf a -> seqv tr (gden (gdiv_gs a v)) (smul (scon (1 / h v)) (gden a)).
  Proof.
    intros Ha. unfold gdiv_gs. rewrite gden_mul_gs by auto. rewrite (hom_div h), (hom_1 h). reflexivity.
  Qed.

  (** Constant coefficient. *)
  Lemma constant_cf_find (g : gdual A) : constant_cf g =
    match pfind (repeat 0%nat (length (gsyms g))) (gp g) with Some c => c | None => k0 end.
  Proof.
    unfold constant_cf, find_cf, get_symbol_set_size. rewrite kdeg_zero, repeat_length, Nat.eqb_refl.
    change (Z.of_nat 0 mod two32)%Z with 0%Z.
    destruct (Z.ltb_spec (Z.of_nat (gord g)) 0); [lia|]. simpl. unfold gsyms.
    destruct (pfind _ _); reflexivity.
  Qed.
  Lemma constant_cf_scc g : gwf g -> h (constant_cf g) = scc (gden g).
  Proof.
    intros [Hs _]. rewrite constant_cf_find. unfold gden. rewrite (scc_den h) by auto.
    unfold gsyms. destruct (pfind _ _); auto. apply (hom_0 h).
  Qed.

  (** The non-constant part. *)
  Definition ghat (g : gdual A) : sp K := ssub (gden g) (scon (scc (gden g))).
  Lemma ghat_vanish g : vanish 1 (ghat g).
  Proof. apply vanish_minus_cc, den_okdeg. Qed.

  Section RT.
    Variable n : nat.
    Add Ring spring : (sp_ring_theory (Some n)) (setoid (seqv_equiv (Some n)) (sp_ring_ext (Some n))).

    Lemma ghat_eq g : seqv (Some n) (gden g) (sadd (scon (scc (gden g))) (ghat g)).
    Proof. unfold ghat. ring. Qed.

    (** The geometric series sum_{i<=N} (-1)^i (phi/c)^i. *)
    Definition alt (i : nat) : K := kpow (- (1)) i.

    Lemma geom_inv l N : vanish 1 l -> (n <= N)%nat ->
      seqv (Some n) (smul (psum alt N l) (sadd s1 l)) s1.
    Proof.
      intros Hv Hn.
      assert (T : forall M, seqv (Some n) (smul (psum alt M l) (sadd s1 l))
                    (sadd s1 (smul (scon (alt M)) (spow l (S M))))).
      { induction M; cbn [psum].
        - unfold alt. cbn [kpow spow]. rewrite scon_1. ring.
        - assert (E : seqv (Some n) (scon (alt (S M))) (sopp (scon (alt M)))).
          { unfold alt. cbn [kpow]. rewrite scon_mul, scon_opp, scon_1. ring. }
          transitivity (sadd (smul (psum alt M l) (sadd s1 l)) (smul (smul (scon (alt (S M))) (spow l (S M))) (sadd s1 l))); [ring|].
          rewrite IHM, E. cbn [spow]. ring. }
      rewrite T.
      assert (Hz : seqv (Some n) (spow l (S N)) s0).
      { apply vanish_seqv. apply (vanish_le _ (S N)); [lia|]. apply vanish_pow1; auto. }
      rewrite Hz. ring.
    Qed.

    (** The reciprocal loop computes the geometric series of phi/c. *)
    Lemma gden_grecip d : gwf d -> (n <= gord d)%nat -> h (constant_cf d) <> 0 ->
      seqv (Some n) (gden (grecip_loop d))
        (psum alt (Nat.max 1 (gord d)) (smul (scon (1 / h (constant_cf d))) (ghat d))).
    Proof.
      intros Hd Hn Hc. set (c := constant_cf d) in *.
      set (phi := smul (scon (1 / h c)) (ghat d)).
      unfold grecip_loop. fold c. set (phat := gdiv_gs (gsub_gs d c) c).
      assert (Wp : gwf phat) by (unfold phat; auto with gwf).
      assert (Op : gord phat = gord d) by (unfold phat; rewrite gdiv_gs_ord; reflexivity).
      assert (Ep : seqv (Some n) (gden phat) phi).
      { unfold phat. rewrite gden_div_gs by auto with gwf. rewrite gden_sub_gs by auto.
        unfold phi, ghat. rewrite <- constant_cf_scc by auto. reflexivity. }
      set (F := fun '(retval, fatt, phat0) (_ : nat) => _).
      assert (G : forall j, let '(r, f, p) := fold_left F (seq 2 j) (gsub (gconst k1) phat, kopp k1, phat) in
        gwf r /\ gwf p /\ gord r = gord d /\ gord p = gord d /\
        seqv (Some n) (gden r) (psum alt (S j) phi) /\ h f = alt (S j) /\
        seqv (Some n) (gden p) (spow phi (S j))).
      { induction j.
        - cbn [seq fold_left]. conjs; auto 6 with gwf.
          + rewrite gden_sub, gden_const by auto with gwf. rewrite Ep, (hom_1 h).
            cbn [psum]. unfold alt; cbn [kpow spow]. rewrite scon_mul, scon_opp, scon_1. ring.
          + rewrite (hom_opp h), (hom_1 h). unfold alt; cbn [kpow]. ring.
          + rewrite Ep. cbn [spow]. ring.
        - rewrite seq_S, fold_left_app. cbn [fold_left].
          destruct (fold_left F (seq 2 j) _) as [[r f] p]. destruct IHj as (W1 & W2 & O1 & O2 & E1 & E2 & E3).
          unfold F at 1. cbn [Nat.add].
          assert (E3' : seqv (Some n) (gden (gmul p phat)) (spow phi (S (S j)))).
          { rewrite gden_mul by (auto; lia). rewrite E3, Ep. cbn [spow]. ring. }
          assert (E2' : h (kmul (kopp k1) f) = alt (S (S j))).
          { rewrite (hom_mul h), (hom_opp h), (hom_1 h), E2. reflexivity. }
          conjs; auto 6 with gwf.
          + simpl. lia.
          + simpl. lia.
          + rewrite gden_add, gden_mul_sg by auto with gwf. rewrite E1, E2', E3'. reflexivity. }
      specialize (G (gord d - 1)%nat).
      destruct (fold_left F _ _) as [[r f] p]. destruct G as (_ & _ & _ & _ & E & _).
      rewrite E. replace (S (gord d - 1)) with (Nat.max 1 (gord d)) by lia. reflexivity.
    Qed.

    Lemma grecip_inverse d : gwf d -> (n <= gord d)%nat -> h (constant_cf d) <> 0 ->
      seqv (Some n) (smul (gden (grecip_loop d)) (gden d)) (scon (h (constant_cf d))).
    Proof.
      intros Hd Hn Hc. rewrite gden_grecip by auto.
      set (c := h (constant_cf d)) in *. set (phi := smul (scon (1 / c)) (ghat d)).
      assert (Hphi : vanish 1 phi) by (apply vanish_scale, ghat_vanish).
      assert (E : seqv (Some n) (gden d) (smul (scon c) (sadd s1 phi))).
      { rewrite (ghat_eq d) at 1. rewrite <- constant_cf_scc by auto. fold c. unfold phi.
        transitivity (sadd (scon c) (smul (smul (scon c) (scon (1/c))) (ghat d))).
        - rewrite scon_inv by auto. ring.
        - ring. }
      rewrite E.
      transitivity (smul (scon c) (smul (psum alt (Nat.max 1 (gord d)) phi) (sadd s1 phi))); [ring|].
      rewrite geom_inv by (auto; lia). ring.
    Qed.

    Lemma gden_div_mul a b : gwf a -> gwf b -> (n <= gord b)%nat -> h (constant_cf b) <> 0 ->
      seqv (Some n) (smul (gden (gdiv a b)) (gden b)) (gden a).
    Proof.
      intros Ha Hb Hn Hc. unfold gdiv. destruct (grecip_gwf b Hb) as [Wr Or].
      rewrite gden_div_gs by auto with gwf. rewrite gden_mul by (auto; lia).
      transitivity (smul (smul (scon (1 / h (constant_cf b))) (gden a)) (smul (gden (grecip_loop b)) (gden b))); [ring|].
      rewrite grecip_inverse by auto.
      transitivity (smul (smul (scon (h (constant_cf b))) (scon (1 / h (constant_cf b)))) (gden a)); [ring|].
      rewrite scon_inv by auto. ring.
    Qed.
    Lemma gden_div_sg_mul v b : gwf b -> (n <= gord b)%nat -> h (constant_cf b) <> 0 ->
      seqv (Some n) (smul (gden (gdiv_sg v b)) (gden b)) (scon (h v)).
    Proof.
      intros Hb Hn Hc. unfold gdiv_sg. destruct (grecip_gwf b Hb) as [Wr Or].
      rewrite gden_div_gs by auto with gwf. rewrite gden_mul_sg by auto.
      transitivity (smul (smul (scon (1 / h (constant_cf b))) (scon (h v))) (smul (gden (grecip_loop b)) (gden b))); [ring|].
      rewrite grecip_inverse by auto.
      transitivity (smul (smul (scon (h (constant_cf b))) (scon (1 / h (constant_cf b)))) (scon (h v))); [ring|].
      rewrite scon_inv by auto. ring.
    Qed.

    (** Cancellation: multiplication by a polynomial with an inverse. *)
    Lemma smul_cancel x y l i : seqv (Some n) (smul l i) s1 -> seqv (Some n) (smul x l) (smul y l) ->
      seqv (Some n) x y.
    Proof.
      intros Hi H. transitivity (smul x (smul l i)); [rewrite Hi; ring|].
      transitivity (smul (smul x l) i); [ring|]. rewrite H.
      transitivity (smul y (smul l i)); [ring|]. rewrite Hi. ring.
    Qed.
  End RT.
End GDen.
