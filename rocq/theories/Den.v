(** * Denotation of model polynomials as formal polynomials, and the
    homomorphism lemmas (proof file). *)

From Coq Require Import String List Arith Bool Lia ZArith Setoid Morphisms Ring Field FunctionalExtensionality.
From Verif Require Import Ops Syms SymsFacts Poly PolyFacts Sem.
Import ListNotations.

Section Den.
  Context {A K : Type} {oA : Ops A} {oK : Ops K} {fl : FieldLaws oK}.
  Variable h : A -> K.
  Context {hh : Hom oA oK h}.
  Local Open Scope K_scope.
  Add Field Kfield : (fl_field (K:=K)).

  Definition tden (V : list string) (ts : list (term A)) : sp K :=
    map (fun t => (h (snd t), (kdeg (fst t), expo V (fst t)))) ts.
  Definition den (p : poly A) : sp K := tden (psyms p) (pterms p).

  Lemma Lf_tden V ts F :
    Lf (tden V ts) F = fold_right (fun t a => h (snd t) * F (kdeg (fst t)) (expo V (fst t)) + a) 0 ts.
  Proof. unfold tden. induction ts as [|t ts IH]; simpl; auto. rewrite IH. reflexivity. Qed.

  Lemma Lf_add_term V k c l F :
    Lf (tden V (add_term k c l)) F = Lf (tden V l) F + h c * F (kdeg k) (expo V k).
  Proof.
    induction l as [|[x cx] l IH]; simpl.
    - destruct (keqb c k0) eqn:E; simpl; [|ring].
      rewrite (hom_zero h c E). ring.
    - destruct (key_eqb x k) eqn:E.
      + apply key_eqb_spec in E. subst x.
        destruct (keqb (kadd cx c) k0) eqn:E0; simpl.
        * apply (hom_zero h) in E0. rewrite (hom_add h) in E0.
          transitivity (Lf (tden V l) F + (h cx + h c) * F (kdeg k) (expo V k)); [rewrite E0|]; ring.
        * rewrite (hom_add h). ring.
      + simpl. rewrite IH. ring.
  Qed.

  Lemma Lf_add_terms V ts acc F :
    Lf (tden V (add_terms ts acc)) F = Lf (tden V acc) F + Lf (tden V ts) F.
  Proof.
    unfold add_terms. revert acc. induction ts as [|t ts IH]; intros acc; simpl; [ring|].
    rewrite IH, Lf_add_term. ring.
  Qed.

  (** Folds of conditional insertions. *)
  Lemma Lf_fold_add {B} V (f : list (term A) -> B -> list (term A)) (v : B -> K) F l acc :
    (forall b acc, In b l -> Lf (tden V (f acc b)) F = Lf (tden V acc) F + v b) ->
    Lf (tden V (fold_left f l acc)) F = Lf (tden V acc) F + fold_right (fun b a => v b + a) 0 l.
  Proof.
    revert acc. induction l as [|b l IH]; intros acc H; simpl; [ring|].
    rewrite IH by (intros; apply H; right; auto). rewrite H by (left; auto). ring.
  Qed.

  Lemma Lf_fold_add0 {B} V (f : list (term A) -> B -> list (term A)) (v : B -> K) F l :
    (forall b acc, In b l -> Lf (tden V (f acc b)) F = Lf (tden V acc) F + v b) ->
    Lf (tden V (fold_left f l [])) F = fold_right (fun b a => v b + a) 0 l.
  Proof. intros H. rewrite (Lf_fold_add V f v F l [] H). unfold tden at 1, Lf at 1, map at 1. cbn [fold_right]. ring. Qed.

  Lemma den_pext tr W p : swf p -> NoDup W -> incl (psyms p) W -> seqv tr (den (pext W p)) (den p).
  Proof.
    intros Hp HW Hi. constructor. intros F _. unfold den, pext; simpl. rewrite !Lf_tden.
    assert (Hl := swf_len p Hp). unfold klen in Hl. assert (HN := swf_NoDup p Hp).
    induction (pterms p) as [|t ts IH]; simpl; auto. inversion Hl; subst.
    rewrite IH by auto. rewrite kdeg_rekey by auto. rewrite expo_rekey_fun by auto. reflexivity.
  Qed.

  Lemma union_NoDup (p q : poly A) : swf q -> NoDup (sunion (psyms p) (psyms q)).
  Proof. intros. apply ssorted_NoDup, sunion_sorted, H. Qed.

  Lemma den_padd tr p q : swf p -> swf q -> seqv tr (den (padd p q)) (sadd (den p) (den q)).
  Proof.
    intros Hp Hq. assert (HN := union_NoDup p q Hq).
    rewrite <- (den_pext tr (sunion (psyms p) (psyms q)) p) at 1 by auto.
    rewrite <- (den_pext tr (sunion (psyms p) (psyms q)) q) at 1 by auto.
    constructor. intros F _. rewrite Lf_sadd. unfold den, padd; simpl. rewrite Lf_add_terms. reflexivity.
  Qed.

  Lemma den_pneg tr p : seqv tr (den (pneg p)) (sopp (den p)).
  Proof.
    constructor. intros F _. rewrite Lf_sopp. unfold den, pneg; simpl. rewrite !Lf_tden.
    induction (pterms p) as [|t ts IH]; simpl; [ring|]. rewrite IH, (hom_opp h). ring.
  Qed.

  Lemma den_psub tr p q : swf p -> swf q -> seqv tr (den (psub p q)) (ssub (den p) (den q)).
  Proof.
    intros Hp Hq. unfold psub. rewrite den_padd by auto with swf. rewrite den_pneg. reflexivity.
  Qed.

  Lemma den_pconst tr c : seqv tr (den (pconst c)) (scon (h c)).
  Proof.
    constructor. intros F _. rewrite Lf_scon. unfold den, pconst; cbn [psyms pterms].
    rewrite Lf_add_term. replace (expo [] []) with mon0 by (extensionality s; reflexivity). simpl. ring.
  Qed.

  Lemma den_pzero : den pzero = s0.
  Proof. reflexivity. Qed.

  Lemma expo_single s : expo [s] [1%nat] = mon1 s.
  Proof. extensionality t. simpl. reflexivity. Qed.

  Lemma den_pvar tr s : seqv tr (den (pvar s)) (svar s).
  Proof.
    constructor. intros F _. unfold den, pvar; cbn [psyms pterms].
    rewrite Lf_add_term. rewrite (hom_1 h). unfold svar.
    replace (expo [s] [1%nat]) with (mon1 s) by (symmetry; apply expo_single).
    simpl. ring.
  Qed.

  Lemma den_pmul_if tr ok p q : swf p -> swf q -> (forall d, keep tr d -> ok d = true) ->
    seqv tr (den (pmul_if ok p q)) (smul (den p) (den q)).
  Proof.
    intros Hp Hq Hok. assert (HN := union_NoDup p q Hq).
    rewrite <- (den_pext tr (sunion (psyms p) (psyms q)) p) at 1 by auto.
    rewrite <- (den_pext tr (sunion (psyms p) (psyms q)) q) at 1 by auto.
    constructor. intros F HF. rewrite Lf_smul.
    set (W := sunion (psyms p) (psyms q)).
    unfold den, pmul_if. cbn [psyms pterms]. fold W.
    assert (L1 := fun t => pext_len_In W p t). assert (L2 := fun t => pext_len_In W q t).
    change (map (fun t => (rekey (psyms q) W (fst t), snd t)) (pterms q)) with (pterms (pext W q)).
    change (map (fun t => (rekey (psyms p) W (fst t), snd t)) (pterms p)) with (pterms (pext W p)).
    change (psyms (pext W p)) with W. change (psyms (pext W q)) with W.
    set (tp := pterms (pext W p)) in *. set (tq := pterms (pext W q)) in *.
    rewrite (Lf_fold_add0 W _
      (fun t1 => h (snd t1) * Lf (tden W tq) (fun d' m' => F (kdeg (fst t1) + d')%nat (monadd (expo W (fst t1)) m')))).
    - rewrite (Lf_tden W tp). reflexivity.
    - intros t1 acc H1.
      rewrite (Lf_fold_add W _
        (fun t2 => h (snd t1) * (h (snd t2) * F (kdeg (fst t1) + kdeg (fst t2))%nat
                                   (monadd (expo W (fst t1)) (expo W (fst t2)))))).
      + f_equal. rewrite Lf_tden. clear - fl. induction tq as [|t tq IH]; simpl; [ring|]. rewrite IH. ring.
      + intros t2 acc' H2. specialize (L1 t1 H1). specialize (L2 t2 H2).
        destruct (ok _) eqn:E.
        * rewrite Lf_add_term, (hom_mul h). rewrite kdeg_kplus by congruence.
          replace (expo W (kplus (fst t1) (fst t2))) with (monadd (expo W (fst t1)) (expo W (fst t2))).
          { ring. }
          extensionality s. symmetry. apply expo_kplus; auto.
        * rewrite HF; [ring|]. intros Hk. apply Hok in Hk. congruence.
  Qed.

  Lemma den_ptmul n m p q : swf p -> swf q -> (n <= m)%nat ->
    seqv (Some n) (den (ptmul m p q)) (smul (den p) (den q)).
  Proof.
    intros. apply den_pmul_if; auto. intros d Hd. simpl in Hd. apply Nat.leb_le. lia.
  Qed.

  Lemma den_pmul tr p q : swf p -> swf q -> seqv tr (den (pmul p q)) (smul (den p) (den q)).
  Proof. intros. apply den_pmul_if; auto. Qed.

  Lemma den_ppow tr p n : swf p -> seqv tr (den (ppow p n)) (spow (den p) n).
  Proof.
    intros Hp. induction n; simpl.
    - rewrite den_pconst. rewrite (hom_1 h). reflexivity.
    - rewrite den_pmul by auto with swf. rewrite IHn. reflexivity.
  Qed.

  Lemma den_pfilter tr f p :
    (forall t, In t (pterms p) -> keep tr (kdeg (fst t)) -> f t = true) ->
    seqv tr (den (pfilter f p)) (den p).
  Proof.
    intros Hf. constructor. intros F HF. unfold den, pfilter; simpl. rewrite !Lf_tden.
    induction (pterms p) as [|t ts IH]; simpl; auto.
    destruct (f t) eqn:E; simpl.
    - rewrite IH; auto. intros; apply Hf; auto; right; auto.
    - rewrite IH by (intros; apply Hf; auto; right; auto).
      rewrite HF; [ring|]. intros Hk. rewrite Hf in E; auto; [discriminate|left; auto].
  Qed.

  Lemma den_ptruncate n m p : (n <= m)%nat -> seqv (Some n) (den (ptruncate m p)) (den p).
  Proof.
    intros. apply den_pfilter. intros t _ Hk. simpl in Hk. apply Nat.leb_le. lia.
  Qed.

  Lemma den_ptrim tr p : swf p -> seqv tr (den (ptrim p)) (den p).
  Proof.
    intros Hp. constructor. intros F _. rewrite ptrim_eq. unfold den; cbn [psyms pterms].
    rewrite !Lf_tden.
    assert (G : forall ts, incl ts (pterms p) ->
      fold_right (fun t a => h (snd t) * F (kdeg (fst t)) (expo (usyms p) (fst t)) + a) 0
        (map (fun t => (rekey (psyms p) (usyms p) (fst t), snd t)) ts) =
      fold_right (fun t a => h (snd t) * F (kdeg (fst t)) (expo (psyms p) (fst t)) + a) 0 ts).
    { induction ts as [|t ts IH]; intros Hi; simpl; auto.
      rewrite IH by (intros x Hx; apply Hi; right; auto).
      rewrite ptrim_kdeg by (auto; apply Hi; left; auto).
      rewrite ptrim_expo by (apply Hi; left; auto). reflexivity. }
    apply G. apply incl_refl.
  Qed.

  (** Degree-0 monomials are trivial. *)
  Lemma den_okdeg p : okdeg (den p).
  Proof.
    intros t Ht. unfold den, tden in Ht. apply in_map_iff in Ht. destruct Ht as (x & <- & Hx). simpl.
    intros H0. extensionality s. unfold mon0. apply kdeg_0_inv in H0. rewrite H0. apply expo_zero.
  Qed.

  (** Formal differentiation, integration and substitution. *)
  Definition mset (m : mon) (s : string) (e : nat) : mon :=
    fun t => if String.eqb s t then e else m t.

  Definition sdiff (s : string) (l : sp K) : sp K :=
    map (fun t => (fst t * kofnat (snd (snd t) s),
                   ((fst (snd t) - 1)%nat, mset (snd (snd t)) s (snd (snd t) s - 1)%nat))) l.
  Definition sint (s : string) (l : sp K) : sp K :=
    map (fun t => (fst t / kofnat (S (snd (snd t) s)),
                   (S (fst (snd t)), mset (snd (snd t)) s (S (snd (snd t) s))))) l.

  Lemma Lf_sdiff s l F : Lf (sdiff s l) F =
    Lf l (fun d m => kofnat (m s) * F (d - 1)%nat (mset m s (m s - 1)%nat)).
  Proof.
    unfold sdiff, Lf. induction l as [|[c [d m]] l IHl]; cbn [map fold_right fst snd]; auto. rewrite IHl. ring.
  Qed.
  Lemma Lf_sint s l F : Lf (sint s l) F =
    Lf l (fun d m => 1 / kofnat (S (m s)) * F (S d) (mset m s (S (m s)))).
  Proof.
    unfold sint, Lf. induction l as [|[c [d m]] l IHl]; cbn [map fold_right fst snd]; auto. rewrite IHl.
    field. apply kofnat_neq0. lia.
  Qed.

  Lemma hom_ofnat n : h (kofnat n) = kofnat n.
  Proof. apply (hom_ofZ h). Qed.
  Lemma hom_pow a n : h (kpow a n) = kpow (h a) n.
  Proof. induction n; simpl; [apply (hom_1 h)|]. rewrite (hom_mul h), IHn. reflexivity. Qed.

  Lemma expo_kset_fun V k s e : length k = length V -> In s V ->
    expo V (kset V k s e) = mset (expo V k) s e.
  Proof. intros. extensionality t. apply expo_kset; auto. Qed.

  Lemma den_pdiff tr s p : swf p -> seqv tr (den (pdiff s p)) (sdiff s (den p)).
  Proof.
    intros Hp. constructor. intros F _. rewrite Lf_sdiff. unfold den, pdiff. cbn [psyms pterms].
    set (V := psyms p).
    assert (Hl := swf_len p Hp). unfold klen in Hl. rewrite Forall_forall in Hl. fold V in Hl.
    rewrite (Lf_fold_add0 V _ (fun t => h (snd t) * (kofnat (expo V (fst t) s) *
        F (kdeg (fst t) - 1)%nat (mset (expo V (fst t)) s (expo V (fst t) s - 1)%nat)))).
    - rewrite Lf_tden. reflexivity.
    - intros t acc Hin. destruct (expo V (fst t) s) as [|e] eqn:E.
      + rewrite kofnat_0. ring.
      + rewrite Lf_add_term, (hom_mul h), hom_ofnat.
        assert (HsV : In s V).
        { destruct (in_dec string_dec s V); auto. rewrite expo_not_In in E; auto. discriminate. }
        rewrite expo_kset_fun by auto.
        assert (Hk := kdeg_kset V (fst t) s e (Hl t Hin) HsV). rewrite E in Hk.
        replace (kdeg (kset V (fst t) s e)) with (kdeg (fst t) - 1)%nat by lia.
        replace (S e - 1)%nat with e by lia. ring.
  Qed.

  Lemma den_pintegrate tr s p : swf p -> seqv tr (den (pintegrate s p)) (sint s (den p)).
  Proof.
    intros Hp. constructor. intros F HF0.
    set (W := sinsert s (psyms p)).
    assert (HW : NoDup W) by (apply ssorted_NoDup, sinsert_sorted, Hp).
    assert (E := den_pext None W p Hp HW (sinsert_incl s (psyms p))). 
    rewrite Lf_sint. rewrite <- (seqv_elim E) by (simpl; tauto).
    unfold den, pintegrate. cbn [psyms pterms]. fold W.
    assert (L := fun t => pext_len_In W p t).
    change (map (fun t => (rekey (psyms p) W (fst t), snd t)) (pterms p)) with (pterms (pext W p)).
    change (psyms (pext W p)) with W.
    rewrite (Lf_fold_add0 W _ (fun t => h (snd t) * (1 / kofnat (S (expo W (fst t) s)) *
        F (S (kdeg (fst t))) (mset (expo W (fst t)) s (S (expo W (fst t) s)))))).
    - rewrite Lf_tden. reflexivity.
    - intros t acc Hin. rewrite Lf_add_term, (hom_div h), hom_ofnat.
      assert (HsV : In s W) by (apply sinsert_In; auto).
      rewrite expo_kset_fun by auto.
      assert (Hk := kdeg_kset W (fst t) s (S (expo W (fst t) s)) (L t Hin) HsV).
      replace (kdeg (kset W (fst t) s (S (expo W (fst t) s)))) with (S (kdeg (fst t))) by lia.
      field. apply kofnat_neq0. lia.
  Qed.

  (** Substitution of a formal polynomial for a symbol. *)
  Definition smono (m : mon) (d : nat) : sp K := [(1, (d, m))].
  Lemma Lf_smono m d F : Lf (smono m d) F = F d m.
  Proof. unfold smono, Lf. cbn [fold_right fst snd]. ring. Qed.
  Definition ssubst (s : string) (q : sp K) (l : sp K) : sp K :=
    flat_map (fun t => smul (smul (scon (fst t)) (smono (mset (snd (snd t)) s 0)
                                   (fst (snd t) - snd (snd t) s)%nat))
                            (spow q (snd (snd t) s))) l.

  Lemma Lf_ssubst s q l F : Lf (ssubst s q l) F =
    Lf l (fun d m => Lf (spow q (m s)) (fun d' m' => F ((d - m s) + d')%nat (monadd (mset m s 0) m'))).
  Proof.
    unfold ssubst. induction l as [|[c [d m]] l IH]; cbn [flat_map]; auto.
    rewrite Lf_app, IH, Lf_cons. cbn [fst snd].
    f_equal. rewrite !Lf_smul, Lf_scon, Lf_smono, monadd_0_l. reflexivity.
  Qed.

  Lemma kset_0_facts V k s : length k = length V -> 
    kdeg (kset V k s 0) = (kdeg k - expo V k s)%nat /\ expo V (kset V k s 0) = mset (expo V k) s 0.
  Proof.
    intros Hl. destruct (in_dec string_dec s V) as [H|H].
    - split; [|apply expo_kset_fun; auto]. assert (Hk := kdeg_kset V k s 0 Hl H). lia.
    - rewrite kset_not_In, (expo_not_In V k s) by auto. split; [lia|].
      extensionality t. unfold mset. destruct (String.eqb_spec s t); auto. subst.
      apply expo_not_In; auto.
  Qed.

  Lemma den_psubs_val tr s v p : swf p -> seqv tr (den (psubs_val s v p)) (ssubst s (scon (h v)) (den p)).
  Proof.
    intros Hp. constructor. intros F _. rewrite Lf_ssubst. unfold den, psubs_val. cbn [psyms pterms].
    set (V := psyms p).
    assert (Hl := swf_len p Hp). unfold klen in Hl. rewrite Forall_forall in Hl. fold V in Hl.
    rewrite (Lf_fold_add0 V _ (fun t => h (snd t) *
       Lf (spow (scon (h v)) (expo V (fst t) s)) (fun d' m' => F (kdeg (fst t) - expo V (fst t) s + d')%nat
             (monadd (mset (expo V (fst t)) s 0) m')))).
    - rewrite Lf_tden. reflexivity.
    - intros t acc Hin. rewrite Lf_add_term, (hom_mul h), hom_pow.
      destruct (kset_0_facts V (fst t) s (Hl t Hin)) as [-> ->].
      rewrite <- (seqv_elim (scon_pow None (h v) (expo V (fst t) s))) by (simpl; tauto).
      rewrite Lf_scon. rewrite monadd_0_r, Nat.add_0_r. ring.
  Qed.

  Lemma den_single tr V k c : seqv tr (den (mkPoly V (add_term k c [])))
     (smul (scon (h c)) (smono (expo V k) (kdeg k))).
  Proof.
    constructor. intros F _. unfold den. cbn [psyms pterms].
    rewrite Lf_add_term, Lf_smul, Lf_scon, Lf_smono, monadd_0_l. cbn [tden map Nat.add].
    rewrite Lf_nil. ring.
  Qed.

  Lemma den_psubs_poly tr s q p : swf p -> swf q ->
    seqv tr (den (psubs_poly s q p)) (ssubst s (den q) (den p)).
  Proof.
    intros Hp Hq. apply seqv_full. unfold psubs_poly.
    assert (Hl := swf_len p Hp). unfold klen in Hl. rewrite Forall_forall in Hl.
    assert (G : forall ts acc, incl ts (pterms p) -> swf acc ->
      seqv None (den (fold_left (fun acc t =>
         padd acc
           (pmul (mkPoly (psyms p) (add_term (kset (psyms p) (fst t) s 0) (snd t) []))
                 (ppow q (expo (psyms p) (fst t) s)))) ts acc))
        (sadd (den acc) (ssubst s (den q) (tden (psyms p) ts)))).
    { induction ts as [|t ts IH]; intros acc Hi Ha; cbn [fold_left tden map ssubst flat_map fst snd].
      - constructor. intros F _. rewrite Lf_sadd. simpl. ring.
      - assert (Ht : In t (pterms p)) by (apply Hi; left; auto).
        assert (Hm : swf (mkPoly (psyms p) (add_term (kset (psyms p) (fst t) s 0) (snd t) []))).
        { constructor; simpl.
          - apply Hp.
          - destruct (keqb (snd t) k0); repeat constructor. simpl. rewrite kset_length; auto.
          - destruct (keqb (snd t) k0); repeat constructor. simpl. tauto. }
        rewrite IH; [|intros x Hx; apply Hi; right; auto|].
        2:{ apply padd_swf; auto. apply pmul_if_swf; auto with swf. }
        rewrite den_padd by (auto; apply pmul_if_swf; auto with swf).
        rewrite den_pmul by (auto with swf). rewrite den_ppow by auto.
        rewrite den_single.
        destruct (kset_0_facts (psyms p) (fst t) s (Hl t Ht)) as [-> ->].
        constructor. intros F _. rewrite !Lf_sadd, Lf_app.
        unfold ssubst, tden. rewrite <- (Radd_assoc (F_R fl_field)). reflexivity. }
    rewrite G; [|apply incl_refl|].
    - constructor. intros F _. rewrite Lf_sadd. unfold den at 1. cbn [psyms pterms tden map].
      rewrite Lf_nil. fold (den p). ring.
    - constructor; simpl; [apply sunion_sorted, Hq|constructor|constructor].
  Qed.

  (** ** Coefficients

      [mcoef p W k]: the coefficient in [p] of the monomial whose exponents
      over the variables [W] are [k]. *)
  Definition mcoef (p : poly A) (W : list string) (k : key) : K :=
    if forallb (fun s => orb (str_in s (psyms p)) (Nat.eqb (expo W k s) 0)) W
    then match pfind (map (expo W k) (psyms p)) p with Some c => h c | None => 0 end
    else 0.

  Definition ind (U : list string) (mu : mon) (dg : nat) : nat -> mon -> K :=
    fun d m => if andb (Nat.eqb d dg) (key_eqb (map m U) (map mu U)) then 1 else 0.

  Lemma Lf_ind p U W k : swf p -> NoDup W -> incl (psyms p) U -> incl W U -> length k = length W ->
    Lf (den p) (ind U (expo W k) (kdeg k)) = mcoef p W k.
  Proof.
    intros Hp HW HU HWU Hk. unfold mcoef, den. rewrite Lf_tden.
    set (V := psyms p) in *.
    assert (Hl := swf_len p Hp). unfold klen in Hl. fold V in Hl.
    assert (HV := swf_NoDup p Hp). fold V in HV.
    destruct (forallb _ W) eqn:Ef.
    - rewrite forallb_forall in Ef.
      assert (Hout : forall s, ~ In s V -> expo W k s = 0%nat).
      { intros s Hs. destruct (in_dec string_dec s W) as [Hi|Hi]; [|apply expo_not_In; auto].
        specialize (Ef s Hi). apply orb_true_iff in Ef. destruct Ef as [Ef|Ef].
        - apply str_in_spec in Ef. contradiction.
        - apply Nat.eqb_eq; auto. }
      assert (Hsum : ssum V (expo W k) = kdeg k).
      { rewrite (kdeg_ssum W k) by auto.
        transitivity (ssum (sunion W (sset V)) (expo W k)).
        - symmetry. apply ssum_incl; auto.
          + apply ssorted_NoDup, sunion_sorted, sset_sorted.
          + intros x Hx. apply sunion_In. right. apply sset_In. auto.
        - apply ssum_incl; auto.
          + apply ssorted_NoDup, sunion_sorted, sset_sorted.
          + intros s Hs. apply expo_not_In; auto. }
      assert (Hind : forall t, In t (pterms p) ->
        ind U (expo W k) (kdeg k) (kdeg (fst t)) (expo V (fst t)) =
        if key_eqb (fst t) (map (expo W k) V) then 1 else 0).
      { intros t Ht. rewrite Forall_forall in Hl. specialize (Hl t Ht).
        unfold ind. destruct (key_eqb (fst t) (map (expo W k) V)) eqn:E.
        - apply key_eqb_spec in E.
          replace (Nat.eqb (kdeg (fst t)) (kdeg k)) with true.
          2:{ symmetry. apply Nat.eqb_eq. rewrite E. exact Hsum. }
          replace (key_eqb _ _) with true; auto. symmetry. apply key_eqb_spec.
          apply map_ext_in. intros s Hs. rewrite E.
          destruct (in_dec string_dec s V); [apply expo_map; auto|].
          rewrite expo_not_In by auto. symmetry; auto.
        - replace (key_eqb (map (expo V (fst t)) U) (map (expo W k) U)) with false.
          { rewrite andb_false_r. reflexivity. }
          symmetry. apply key_eqb_false. intros E'. apply key_eqb_false in E. apply E.
          rewrite <- (map_expo_id V (fst t)) by auto. apply map_ext_in. intros s Hs.
          assert (Hext : forall s, In s U -> expo V (fst t) s = expo W k s).
          { apply map_ext_in_iff. exact E'. }
          apply Hext. auto. }
      assert (Hd := swf_dist p Hp). unfold kdist in Hd. unfold pfind.
      clear Hl. induction (pterms p) as [|t ts IH]; simpl; auto.
      inversion Hd; subst. rewrite IH; auto; [|intros; apply Hind; right; auto].
      rewrite Hind by (left; auto). destruct t as [kt ct]. cbn [fst snd] in *.
      destruct (key_eqb kt (map (expo W k) V)) eqn:E.
      + apply key_eqb_spec in E. subst kt.
        replace (tfind (map (expo W k) V) ts) with (@None A); [ring|].
        symmetry. apply tfind_None. auto.
      + ring.
    - assert (Hs : exists s, In s W /\ ~ In s V /\ expo W k s <> 0%nat).
      { apply not_true_iff_false in Ef. rewrite forallb_forall in Ef.
        assert (G : forall l, incl l W -> ~ (forall s, In s l -> (str_in s V || Nat.eqb (expo W k s) 0)%bool = true) ->
           exists s, In s W /\ ~ In s V /\ expo W k s <> 0%nat).
        { induction l as [|s l IH]; intros Hi Hn.
          - exfalso. apply Hn. intros s [].
          - destruct (str_in s V || Nat.eqb (expo W k s) 0)%bool eqn:E.
            + apply IH; [intros x Hx; apply Hi; right; auto|]. intros Hall. apply Hn.
              intros x [<-|Hx]; auto.
            + apply orb_false_iff in E. destruct E as [E1 E2]. exists s. repeat split.
              * apply Hi; left; auto.
              * intros Hin. apply str_in_spec in Hin. congruence.
              * apply Nat.eqb_neq; auto. }
        apply (G W); auto. apply incl_refl. }
      destruct Hs as (s & HsW & HsV & Hs0).
      assert (Hind : forall t : term A, ind U (expo W k) (kdeg k) (kdeg (fst t)) (expo V (fst t)) = 0).
      { intros t. unfold ind. destruct (key_eqb _ _) eqn:E; [|rewrite andb_false_r; reflexivity].
        exfalso. apply key_eqb_spec in E.
        assert (Hext : forall s, In s U -> expo V (fst t) s = expo W k s).
        { apply map_ext_in_iff. exact E. }
        rewrite <- Hext in Hs0 by auto. apply Hs0. apply expo_not_In; auto. }
      induction (pterms p) as [|t ts IH]; simpl; auto. inversion Hl; subst.
      rewrite IH by auto. rewrite (Hind t). ring.
  Qed.

  Lemma ind_keep tr U mu dg : keep tr dg -> forall d m, ~ keep tr d -> ind U mu dg d m = 0.
  Proof.
    intros Hk d m Hd. unfold ind. destruct (Nat.eqb_spec d dg); auto. subst. contradiction.
  Qed.

  (** Equality up to order [n] determines the coefficients up to order [n]. *)
  Lemma seqv_mcoef tr p q W k : swf p -> swf q -> NoDup W -> length k = length W ->
    keep tr (kdeg k) -> seqv tr (den p) (den q) -> mcoef p W k = mcoef q W k.
  Proof.
    intros Hp Hq HW Hk Hkeep E.
    set (U := (W ++ psyms p ++ psyms q)%list).
    rewrite <- (Lf_ind p U W k), <- (Lf_ind q U W k); auto.
    - apply (seqv_elim E). apply ind_keep; auto.
    - intros x Hx. unfold U. rewrite !in_app_iff. auto.
    - intros x Hx. unfold U. rewrite !in_app_iff. auto.
    - intros x Hx. unfold U. rewrite !in_app_iff. auto.
    - intros x Hx. unfold U. rewrite !in_app_iff. auto.
  Qed.

  Lemma mcoef_own p k : swf p -> length k = length (psyms p) ->
    mcoef p (psyms p) k = match pfind k p with Some c => h c | None => 0 end.
  Proof.
    intros Hp Hk. unfold mcoef.
    replace (forallb _ (psyms p)) with true.
    - rewrite map_expo_id; auto. apply swf_NoDup; auto.
    - symmetry. apply forallb_forall. intros s Hs. apply orb_true_iff. left. apply str_in_spec; auto.
  Qed.

  (** The degree-0 coefficient. *)
  Lemma scc_den p : swf p -> scc (den p) =
    match pfind (repeat 0%nat (length (psyms p))) p with Some c => h c | None => 0 end.
  Proof.
    intros Hp. rewrite <- mcoef_own by (auto; apply repeat_length).
    rewrite <- (Lf_ind p (psyms p) (psyms p)); auto using incl_refl with swf; [|apply repeat_length].
    unfold scc, den. rewrite !Lf_tden.
    induction (pterms p) as [|t ts IH]; simpl; auto. rewrite IH. f_equal. f_equal.
    unfold Fconst, ind. rewrite kdeg_zero. destruct (kdeg (fst t)) eqn:E; simpl; auto.
    replace (key_eqb _ _) with true; auto. symmetry. apply key_eqb_spec. apply map_ext_in.
    intros s Hs. apply kdeg_0_inv in E. rewrite E, !expo_zero. reflexivity.
  Qed.

  (** ** Evaluation *)
  Fixpoint mval (V : list string) (rho : string -> K) (m : mon) : K :=
    match V with [] => 1 | v :: V' => kpow (rho v) (m v) * mval V' rho m end.
  Definition evF (V : list string) (rho : string -> K) : nat -> mon -> K := fun _ m => mval V rho m.

  Lemma mval_add V rho a b : mval V rho (monadd a b) = mval V rho a * mval V rho b.
  Proof.
    induction V as [|v V IH]; simpl; [ring|]. rewrite IH. unfold monadd. rewrite kpow_add. ring.
  Qed.
  Lemma mval_0 V rho : mval V rho mon0 = 1.
  Proof. induction V; simpl; auto. rewrite IHV. ring. Qed.
  Lemma mval_ext V rho a b : (forall s, In s V -> a s = b s) -> mval V rho a = mval V rho b.
  Proof.
    induction V as [|v V IH]; simpl; auto. intros H. rewrite IH, (H v); auto.
  Qed.
  Lemma mval_out V rho a : (forall s, In s V -> a s = 0%nat) -> mval V rho a = 1.
  Proof. intros H. rewrite (mval_ext V rho a mon0) by auto. apply mval_0. Qed.

  Lemma Lf_ev_mul V rho l l' : Lf (smul l l') (evF V rho) = Lf l (evF V rho) * Lf l' (evF V rho).
  Proof.
    rewrite Lf_smul, <- Lf_scale_r. apply Lf_ext_all. intros d m. unfold evF.
    rewrite <- Lf_scale. apply Lf_ext_all. intros d' m'. apply mval_add.
  Qed.
  Lemma Lf_ev_con V rho c : Lf (scon c) (evF V rho) = c.
  Proof. rewrite Lf_scon. unfold evF. rewrite mval_0. ring. Qed.
  Lemma Lf_ev_pow V rho l n : Lf (spow l n) (evF V rho) = kpow (Lf l (evF V rho)) n.
  Proof.
    induction n; simpl; [apply Lf_ev_con|]. rewrite Lf_ev_mul, IHn. reflexivity.
  Qed.

  (** Reference evaluation of a polynomial at a point, through [h]. *)
  Definition heval (p : poly A) (rho : string -> K) : K :=
    fold_right (fun t a => h (snd t) * monoval (psyms p) rho (fst t) + a) 0 (pterms p).

  Lemma monoval_mval V rho k : NoDup V -> length k = length V ->
    monoval V rho k = mval V rho (expo V k).
  Proof.
    revert k. induction V as [|v V IH]; intros [|e k] HN Hl; simpl in *; try lia; auto.
    inversion HN; subst. rewrite String.eqb_refl. rewrite IH by (auto; lia). f_equal.
    apply mval_ext. intros s Hs. destruct (String.eqb_spec v s); auto. subst; contradiction.
  Qed.

  Lemma mval_perm_incl V W rho m : NoDup V -> NoDup W -> incl V W ->
    (forall s, ~ In s V -> m s = 0%nat) -> mval W rho m = mval V rho m.
  Proof.
    revert W m. induction V as [|v V IH]; intros W m HV HW Hi Hz.
    - apply mval_out. intros s _. apply Hz. intros [].
    - inversion HV as [|? ? Hnv HV']; subst.
      destruct (in_split v W) as (W1 & W2 & ->); [apply Hi; left; auto|].
      assert (HW' := NoDup_remove_1 _ _ _ HW). assert (Hnv' := NoDup_remove_2 _ _ _ HW).
      assert (Happ : forall X Y m, mval (X ++ Y) rho m = mval X rho m * mval Y rho m).
      { induction X; intros; simpl; [ring|]. rewrite IHX. ring. }
      set (g := mset m v 0).
      assert (E3 : mval (W1 ++ W2) rho g = mval V rho g).
      { apply IH; auto.
        - intros s Hs. assert (Hsw := Hi s (or_intror Hs)). apply in_app_or in Hsw.
          apply in_or_app. destruct Hsw as [|[->|]]; auto. contradiction.
        - intros s Hs. unfold g, mset. destruct (String.eqb_spec v s); auto.
          apply Hz. intros [|]; auto. }
      assert (E1 : mval (W1 ++ W2) rho m = mval (W1 ++ W2) rho g).
      { apply mval_ext. intros s Hs. unfold g, mset. destruct (String.eqb_spec v s); auto. subst; contradiction. }
      assert (E2 : mval V rho m = mval V rho g).
      { apply mval_ext. intros s Hs. unfold g, mset. destruct (String.eqb_spec v s); auto. subst; contradiction. }
      simpl. rewrite E2, <- E3, <- E1, !Happ. simpl. ring.
  Qed.

  Lemma heval_Lf p V rho : swf p -> NoDup V -> incl (psyms p) V ->
    heval p rho = Lf (den p) (evF V rho).
  Proof.
    intros Hp HV Hi. unfold heval, den. rewrite Lf_tden.
    assert (Hl := swf_len p Hp). unfold klen in Hl. assert (HN := swf_NoDup p Hp).
    induction (pterms p) as [|t ts IH]; simpl; auto. inversion Hl; subst.
    rewrite IH by auto. f_equal. f_equal. rewrite monoval_mval by auto. unfold evF. symmetry.
    apply mval_perm_incl; auto. intros s Hs. apply expo_not_In; auto.
  Qed.

  (** Equal formal polynomials evaluate alike. *)
  Lemma seqv_heval p q rho : swf p -> swf q -> seqv None (den p) (den q) -> heval p rho = heval q rho.
  Proof.
    intros Hp Hq E. set (V := sunion (psyms p) (psyms q)).
    assert (HV : NoDup V) by (apply union_NoDup; auto).
    rewrite (heval_Lf p V), (heval_Lf q V); auto; try apply sunion_incl2; try apply sunion_incl1.
    apply (seqv_elim E). simpl. tauto.
  Qed.
End Den.
