(** * Values of polynomials: evaluation, substitution, equality (proof file) *)

From Coq Require Import String Ascii List Arith Bool Lia ZArith Sorting.Sorted Setoid Morphisms Ring Field.
From Verif Require Import Ops Syms SymsFacts Poly PolyFacts Sem Den Gdual GdualFacts Functions FunStruct Spec CoefFacts CoreProofs CalcProofs.
Import ListNotations.

Section Identity.
  Context {K : Type} {o : Ops K} {fl : FieldLaws o}.
  Local Open Scope K_scope.
  Add Field Kfield : (fl_field (K:=K)).

  (** ** A dense univariate polynomial with infinitely many zeros is zero *)
  Definition horner (c : list K) (x : K) : K := fold_right (fun a r => a + x * r) 0 c.
  Fixpoint quot (c : list K) (a : K) : list K :=
    match c with
    | [] => []
    | _ :: c' => match c' with [] => [] | _ => horner c' a :: quot c' a end
    end.
  Lemma quot_length c a : length (quot c a) = pred (length c).
  Proof.
    induction c as [|x c IH]; auto. cbn [quot]. destruct c; auto. cbn [length] in *. rewrite IH. reflexivity.
  Qed.
  Lemma horner_cons y c x : horner (y :: c) x = y + x * horner c x.
  Proof. reflexivity. Qed.
  Lemma quot_spec c a x : horner c x - horner c a = (x - a) * horner (quot c a) x.
  Proof.
    induction c as [|y c IH]; cbn [quot].
    - simpl. ring.
    - destruct c as [|z c].
      + simpl. ring.
      + rewrite (horner_cons y), (horner_cons y), (horner_cons (horner (z :: c) a)).
        replace (y + x * horner (z :: c) x - (y + a * horner (z :: c) a))
          with ((x - a) * horner (z :: c) a + x * (horner (z :: c) x - horner (z :: c) a)) by ring.
        rewrite IH. ring.
  Qed.
  Lemma quot_zero c a : Forall (fun y => y = 0) (quot c a) -> horner c a = 0 -> Forall (fun y => y = 0) c.
  Proof.
    induction c as [|y c IH]; cbn [quot]; auto. intros Hq H0. destruct c as [|z c].
    - constructor; auto. simpl in H0. rewrite <- H0. ring.
    - assert (A := Forall_inv Hq). assert (B := Forall_inv_tail Hq). cbn beta in A. constructor; auto.
      rewrite (horner_cons y) in H0. rewrite A in H0. rewrite <- H0. ring.
  Qed.
  Lemma dense_zero n : forall (c : list K) N, length c <= n ->
    (forall m, N <= m -> horner c (kofnat m) = 0) -> Forall (fun y => y = 0) c.
  Proof.
    induction n as [|n IH]; intros c N Hn H.
    - destruct c; [constructor|simpl in Hn; lia].
    - apply (quot_zero c (kofnat N)); [|apply H; lia]. apply (IH _ (S N)).
      + rewrite quot_length. lia.
      + intros m Hm. assert (E := quot_spec c (kofnat N) (kofnat m)). rewrite !H in E by lia.
        assert (Hd : (kofnat m : K) - kofnat N <> 0).
        { replace m with ((m - N) + N)%nat by lia. rewrite kofnat_add.
          replace (kofnat (m - N) + kofnat N - kofnat N) with (kofnat (m - N) : K) by ring. apply kofnat_neq0. lia. }
        replace (horner (quot c (kofnat N)) (kofnat m)) with
          (((kofnat m - kofnat N) * horner (quot c (kofnat N)) (kofnat m)) / (kofnat m - kofnat N)) by (field; auto).
        rewrite <- E. field. auto.
  Qed.
  Lemma horner_map_add {A} (f g : A -> K) l t : horner (map (fun x => f x + g x) l) t = horner (map f l) t + horner (map g l) t.
  Proof.
    induction l as [|x l IH]; cbn [map]; [simpl; ring|]. rewrite !horner_cons, IH. ring.
  Qed.
  Lemma horner_delta j x t n : forall a,
    horner (map (fun e => if Nat.eqb j e then x else 0) (seq a n)) t =
    if Nat.leb a j && Nat.ltb j (a + n) then kpow t (j - a) * x else 0.
  Proof.
    induction n as [|n IH]; intros a; cbn [seq map].
    - simpl. destruct (Nat.leb_spec a j); destruct (Nat.ltb_spec j (a + 0)); auto; lia.
    - rewrite horner_cons, IH. destruct (Nat.eqb_spec j a).
      + subst. rewrite Nat.sub_diag. destruct (Nat.leb_spec (S a) a); [lia|]. simpl.
        destruct (Nat.leb_spec a a); [|lia]. destruct (Nat.ltb_spec a (a + S n)); [|lia]. simpl. ring.
      + destruct (Nat.leb_spec (S a) j); destruct (Nat.ltb_spec j (S a + n)); destruct (Nat.leb_spec a j);
          destruct (Nat.ltb_spec j (a + S n)); try lia; cbn [andb]; try ring.
        replace (j - a)%nat with (S (j - S a)) by lia. cbn [kpow]. ring.
  Qed.

  (** ** Extracting the coefficient of a power of one variable *)
  Definition mbound (v : string) (l : sp K) : nat := fold_right (fun t n => Nat.max (snd (snd t) v) n) 0%nat l.
  Lemma horner_Lf v G t M : forall l, (mbound v l <= M)%nat ->
    horner (map (fun e => Lf l (fun d m => if Nat.eqb (m v) e then G d m else 0)) (seq 0 (S M))) t =
    Lf l (fun d m => kpow t (m v) * G d m).
  Proof.
    induction l as [|[c [d m]] l IH]; intros HM.
    - assert (Z : forall n a, horner (map (fun _ : nat => 0) (seq a n)) t = 0).
      { induction n; intros a; cbn [seq map]; auto. rewrite horner_cons, IHn. ring. }
      apply (Z (S M) 0%nat).
    - cbn [mbound fold_right fst snd] in HM. fold (mbound v l) in HM.
      rewrite (map_ext _ (fun e => (if Nat.eqb (m v) e then c * G d m else 0) +
                                   Lf l (fun d m => if Nat.eqb (m v) e then G d m else 0))).
      2:{ intros e. rewrite Lf_cons. cbn [fst snd]. destruct (Nat.eqb (m v) e); ring. }
      rewrite horner_map_add, horner_delta, IH by lia. rewrite Lf_cons. cbn [fst snd].
      destruct (Nat.leb_spec 0 (m v)); [|lia]. destruct (Nat.ltb_spec (m v) (0 + S M)); [|lia].
      cbn [andb]. rewrite Nat.sub_0_r. ring.
  Qed.
  Lemma extract_power v G l : (forall t, Lf l (fun d m => kpow t (m v) * G d m) = 0) ->
    forall e, Lf l (fun d m => if Nat.eqb (m v) e then G d m else 0) = 0.
  Proof.
    intros H e. set (M := Nat.max (mbound v l) e).
    assert (F := dense_zero _ (map (fun e => Lf l (fun d m => if Nat.eqb (m v) e then G d m else 0)) (seq 0 (S M))) 0 (le_n _)).
    assert (F' := F (fun m _ => eq_trans (horner_Lf v G (kofnat m) M l ltac:(lia)) (H (kofnat m)))).
    rewrite Forall_forall in F'. apply F'. apply in_map_iff. exists e. split; auto. apply in_seq. lia.
  Qed.

  Lemma mval_update V rho v (t : K) m : ~ In v V -> mval V (update rho v t) m = mval V rho m.
  Proof.
    induction V as [|w V IH]; intros H; cbn [mval]; auto. rewrite IH by (intros Hi; apply H; right; auto).
    unfold update at 1. destruct (String.eqb_spec w v); auto. subst. exfalso. apply H. left; auto.
  Qed.
  Lemma separate V : NoDup V -> forall l w, (forall rho, Lf l (fun d m => w d m * mval V rho m) = 0) ->
    forall mu : key, length mu = length V -> Lf l (fun d m => w d m * (if key_eqb (map m V) mu then 1 else 0)) = 0.
  Proof.
    induction V as [|v V IH]; intros HN l w H mu Hmu.
    - destruct mu; [|discriminate]. rewrite <- (H (fun _ => 0)). apply Lf_ext_all. intros d m. reflexivity.
    - destruct mu as [|e mu]; [discriminate|]. inversion HN as [|? ? Hv HN']; subst.
      assert (Hmu' : length mu = length V) by (simpl in Hmu; lia).
      etransitivity; [|apply (IH HN' l (fun d m => if Nat.eqb (m v) e then w d m else 0)) with (mu := mu); auto].
      + apply Lf_ext_all. intros d m. cbn [map key_eqb]. destruct (Nat.eqb (m v) e); cbn [andb]; ring.
      + intros rho. rewrite (Lf_ext_all l _ (fun d m => if Nat.eqb (m v) e then w d m * mval V rho m else 0)).
        2:{ intros d m. destruct (Nat.eqb (m v) e); ring. }
        apply extract_power. intros t. rewrite <- (H (update rho v t)). apply Lf_ext_all. intros d m. cbn [mval].
        rewrite mval_update by auto. unfold update. rewrite String.eqb_refl. ring.
  Qed.
End Identity.

Section Values.
  Context {K : Type} {o : Ops K} {fl : FieldLaws o}.
  Local Open Scope K_scope.
  Add Field Kfield2 : (fl_field (K:=K)).
  #[local] Hint Resolve (@valid_gwf K o) (@valid_gnz K o) : gwf.
  Notation idK := (fun x : K => x).
  Notation gd := (gden idK).

  Lemma mono_at_mval V k (rho : string -> K) : mono_at V k rho = mval V rho (expo V k).
  Proof.
    unfold mono_at. generalize (expo V k). intros m. induction V; simpl; auto. rewrite IHV. reflexivity.
  Qed.
  Lemma value_peval g rho : gwf g -> value g rho = peval (gp g) rho.
  Proof.
    intros [[Hs Hl _] _]. apply ssorted_NoDup in Hs. unfold value, sum_list, peval. unfold klen in Hl.
    induction (pterms (gp g)) as [|t l IH]; auto. inversion Hl; subst. simpl. rewrite IH by auto.
    rewrite mono_at_mval, monoval_mval by auto. reflexivity.
  Qed.
  Lemma value_Lf g V rho : gwf g -> NoDup V -> incl (gsyms g) V -> value g rho = Lf (gd g) (evF V rho).
  Proof.
    intros Hg HN Hi. rewrite value_peval by auto. rewrite <- (heval_Lf idK (gp g) V rho); auto. apply Hg.
  Qed.
  Definition joinV (l : list (list string)) : list string := fold_right sunion [] l.
  Lemma joinV_sorted l : ssorted (joinV l).
  Proof. induction l; simpl; [constructor|apply sunion_sorted; auto]. Qed.
  Lemma joinV_incl l x : In x l -> incl x (joinV l).
  Proof.
    induction l as [|y l IH]; intros []; simpl; intros z Hz; apply sunion_In; [left; subst; auto|right; apply IH; auto].
  Qed.

  (** Values determine the coefficients. *)
  Lemma value_coef a b W k : gwf a -> gwf b -> (forall rho, value a rho = value b rho) ->
    NoDup W -> length k = length W -> coef a W k = coef b W k.
  Proof.
    intros Ha Hb H HW Hk. set (U := joinV [gsyms a; gsyms b; W]).
    assert (HU : NoDup U) by apply ssorted_NoDup, joinV_sorted.
    assert (Ia : incl (gsyms a) U) by (apply joinV_incl; simpl; auto).
    assert (Ib : incl (gsyms b) U) by (apply joinV_incl; simpl; auto).
    assert (IW : incl W U) by (apply joinV_incl; simpl; auto).
    rewrite (coef_Lf a W k U), (coef_Lf b W k U) by auto.
    assert (Z : Lf (ssub (gd a) (gd b)) (fun d m => 1 * (if key_eqb (map m U) (map (expo W k) U) then 1 else 0)) = 0).
    { apply (separate U HU); [|rewrite !map_length; auto]. intros rho.
      rewrite (Lf_ext_all _ _ (evF U rho)) by (intros; unfold evF; ring).
      rewrite Lf_ssub, <- !value_Lf, H by auto. ring. }
    rewrite Lf_ssub in Z.
    assert (G : forall g, gwf g -> incl (gsyms g) U ->
      Lf (gd g) (fun d m => 1 * (if key_eqb (map m U) (map (expo W k) U) then 1 else 0)) = Lf (gd g) (Fk U W k)).
    { intros g Hg Ig. apply (Lf_proper_ext U); [apply gd_proper; auto|]. intros d m Hd. unfold Fk.
      replace (monb U W k d m) with (key_eqb (map m U) (map (expo W k) U)); [ring|]. symmetry.
      apply monb_bool; auto. rewrite key_eqb_spec. split.
      - intros E. apply map_ext_in. auto.
      - intros E s Hs. rewrite <- (expo_map U m s), <- (expo_map U (expo W k) s), E by auto. reflexivity. }
    rewrite !G in Z by auto.
    replace (Lf (gd a) (Fk U W k)) with ((Lf (gd a) (Fk U W k) - Lf (gd b) (Fk U W k)) + Lf (gd b) (Fk U W k)) by ring.
    rewrite Z. ring.
  Qed.
  Lemma value_eq_iff a b : valid a -> valid b -> geqb a b = true <-> (forall rho, value a rho = value b rho).
  Proof.
    intros Ha Hb. split.
    - intros E rho. apply geqb_seqv in E; auto with gwf.
      set (U := sunion (gsyms a) (gsyms b)).
      assert (HU : NoDup U) by (apply ssorted_NoDup, sunion_sorted, gsyms_sorted; auto with gwf).
      rewrite (value_Lf a U), (value_Lf b U) by (auto with gwf; intros x Hx; apply sunion_In; auto).
      destruct E as [E]. apply E. intros d m []; exact I.
    - intros H. apply geqb_same; auto. intros W k HW Hk. apply value_coef; auto with gwf.
  Qed.

  (** ** Values of results *)
  Lemma value_seqv a l V rho : gwf a -> NoDup V -> incl (gsyms a) V -> seqv None (gd a) l -> value a rho = Lf l (evF V rho).
  Proof.
    intros Ha HV Hi [E]. rewrite (value_Lf a V) by auto. apply E. intros d m []; exact I.
  Qed.
  Lemma sunion_incl a b V : incl a V -> incl b V -> incl (sunion a b) V.
  Proof. intros Ha Hb x Hx. apply sunion_In in Hx. destruct Hx; auto. Qed.
  Lemma value_add a b rho : valid a -> valid b -> value (gadd a b) rho = value a rho + value b rho.
  Proof.
    intros Ha Hb. set (U := sunion (gsyms a) (gsyms b)).
    assert (HU : NoDup U) by (apply ssorted_NoDup, sunion_sorted, gsyms_sorted; auto with gwf).
    rewrite (value_seqv _ (sadd (gd a) (gd b)) U rho); auto with gwf.
    - rewrite Lf_sadd. rewrite (value_Lf a U), (value_Lf b U) by (auto with gwf; intros x Hx; apply sunion_In; auto). reflexivity.
    - rewrite gsyms_add. apply incl_refl.
    - apply (gden_add idK); auto with gwf.
  Qed.
  Lemma value_sub a b rho : valid a -> valid b -> value (gsub a b) rho = value a rho - value b rho.
  Proof.
    intros Ha Hb. set (U := sunion (gsyms a) (gsyms b)).
    assert (HU : NoDup U) by (apply ssorted_NoDup, sunion_sorted, gsyms_sorted; auto with gwf).
    rewrite (value_seqv _ (ssub (gd a) (gd b)) U rho); auto with gwf.
    - rewrite Lf_ssub. rewrite (value_Lf a U), (value_Lf b U) by (auto with gwf; intros x Hx; apply sunion_In; auto). reflexivity.
    - rewrite gsyms_sub. apply incl_refl.
    - apply (gden_sub idK); auto with gwf.
  Qed.
  Lemma value_neg a rho : valid a -> value (gneg a) rho = - value a rho.
  Proof.
    intros Ha. assert (HU : NoDup (gsyms a)) by (apply ssorted_NoDup, gsyms_sorted; auto with gwf).
    rewrite (value_seqv _ (sopp (gd a)) (gsyms a) rho); auto with gwf.
    - rewrite Lf_sopp, (value_Lf a (gsyms a)) by (auto using incl_refl with gwf). reflexivity.
    - rewrite gsyms_neg. apply incl_refl.
    - apply (gden_neg idK).
  Qed.
  Lemma value_mul_sg v a rho : valid a -> value (gmul_sg v a) rho = v * value a rho.
  Proof.
    intros Ha. assert (HU : NoDup (gsyms a)) by (apply ssorted_NoDup, gsyms_sorted; auto with gwf).
    rewrite (value_seqv _ (smul (scon v) (gd a)) (gsyms a) rho); auto with gwf.
    - rewrite Lf_ev_mul, Lf_ev_con, (value_Lf a (gsyms a)) by (auto using incl_refl with gwf). reflexivity.
    - rewrite gsyms_gmul_sg. apply incl_refl.
    - apply (gden_mul_sg idK); auto with gwf.
  Qed.
  Lemma value_const v rho : value (gconst v) rho = v.
  Proof.
    rewrite (value_seqv _ (scon v) [] rho); auto with gwf.
    - apply Lf_ev_con.
    - constructor.
    - rewrite gsyms_gconst. apply incl_refl.
    - apply (gden_const idK).
  Qed.
  (** No truncation happens when the degrees fit. *)
  Lemma sdle_smul n m (l l' : sp K) : sdle n l -> sdle m l' -> sdle (n + m) (smul l l').
  Proof.
    unfold sdle, smul. rewrite !Forall_forall. intros H H' t Ht. apply in_flat_map in Ht. destruct Ht as (x & Hx & Ht).
    apply in_map_iff in Ht. destruct Ht as (y & <- & Hy). cbn [fst snd]. specialize (H x Hx). specialize (H' y Hy). lia.
  Qed.
  Lemma value_mul a b rho : valid a -> valid b -> (gdegree a + gdegree b <= Nat.max (gord a) (gord b))%nat ->
    value (gmul a b) rho = value a rho * value b rho.
  Proof.
    intros Ha Hb Hd. set (U := sunion (gsyms a) (gsyms b)).
    assert (HU : NoDup U) by (apply ssorted_NoDup, sunion_sorted, gsyms_sorted; auto with gwf).
    rewrite (value_seqv _ (smul (gd a) (gd b)) U rho); auto with gwf.
    - rewrite Lf_ev_mul. rewrite (value_Lf a U), (value_Lf b U) by (auto with gwf; intros x Hx; apply sunion_In; auto). reflexivity.
    - rewrite gsyms_mul. apply incl_refl.
    - apply (seqv_bounded (Nat.max (gord a) (gord b))).
      + apply (den_sdle idK). apply (gwf_dle (gmul a b)). auto with gwf.
      + assert (S : sdle (gdegree a + gdegree b) (smul (gd a) (gd b))).
        { apply sdle_smul; apply (den_sdle idK); apply pdegree_le; unfold gdegree; auto. }
        unfold sdle in *. eapply Forall_impl; [|exact S]. cbn beta. intros; lia.
      + apply (gden_mul idK); auto with gwf.
  Qed.
  Lemma value_zero g : valid g -> value g (fun _ => 0) = constant_cf g.
  Proof.
    intros Hg. set (V := gsyms g). assert (HV : NoDup V) by (apply ssorted_NoDup, gsyms_sorted; auto with gwf).
    rewrite (value_Lf g V) by (auto using incl_refl with gwf).
    rewrite (constant_cf_scc idK g) by auto with gwf. unfold scc.
    apply (Lf_proper_ext V); [apply gd_proper; auto using incl_refl with gwf|]. intros d m ->. unfold evF, Fconst.
    clear HV Hg. induction V as [|v V IH]; [reflexivity|]. cbn [mval]. rewrite IH.
    unfold ssum. cbn [map kdeg fold_right]. destruct (m v) as [|e]; simpl; [|ring].
    unfold kdeg. destruct (fold_right Nat.add 0%nat (map m V)); ring.
  Qed.

  (** ** Substitution *)
  Lemma mval_mset V rho (s : string) m x : NoDup V -> In s V ->
    mval V (update rho s x) m = mval V rho (mset m s 0) * kpow x (m s).
  Proof.
    intros HN HS. induction HN as [|v V Hv HN IH]; [destruct HS|]. cbn [mval].
    unfold update at 1. unfold mset at 1. rewrite (String.eqb_sym v s). destruct (String.eqb_spec s v).
    - subst v. rewrite mval_update by auto. rewrite (mval_ext V rho m (mset m s 0)).
      + simpl. ring.
      + intros t Ht. unfold mset. destruct (String.eqb_spec s t); auto. subst; contradiction.
    - destruct HS as [->|HS]; [congruence|]. rewrite IH by auto. ring.
  Qed.
  Lemma Lf_ev_subst V rho s q l : NoDup V -> In s V ->
    Lf (ssubst s q l) (evF V rho) = Lf l (evF V (update rho s (Lf q (evF V rho)))).
  Proof.
    intros HN HS. rewrite Lf_ssubst. apply Lf_ext_all. intros d m. unfold evF at 2. rewrite mval_mset by auto.
    rewrite <- Lf_ev_pow, <- Lf_scale. apply Lf_ext_all. intros d' m'. unfold evF. apply mval_add.
  Qed.
  Lemma value_subs_val g s v rho : valid g -> value (gsubs_val g s v) rho = value g (update rho s v).
  Proof.
    intros Hg. set (U := sunion (gsyms g) (sset [s])).
    assert (HU : NoDup U) by (apply ssorted_NoDup, sunion_sorted, sset_sorted).
    assert (HS : In s U) by (apply sunion_In; right; apply (proj2 (sset_In [s] s)); simpl; auto).
    assert (HI : incl (gsyms g) U) by (intros x Hx; apply sunion_In; auto).
    rewrite (value_seqv _ (ssubst s (scon v) (gd g)) U rho); auto with gwf.
    - rewrite Lf_ev_subst by auto. rewrite Lf_ev_con. symmetry. apply value_Lf; auto with gwf.
    - apply gsubs_val_gwf; auto with gwf.
    - apply (den_psubs_val idK). apply valid_gwf in Hg. apply Hg.
  Qed.

  Definition sfree (s : string) (l : sp K) : Prop := Forall (fun t => snd (snd t) s = 0%nat) l.
  Lemma sfree_mul s l l' : sfree s l -> sfree s l' -> sfree s (smul l l').
  Proof.
    unfold sfree, smul. rewrite !Forall_forall. intros H H' t Ht. apply in_flat_map in Ht. destruct Ht as (x & Hx & Ht).
    apply in_map_iff in Ht. destruct Ht as (y & <- & Hy). cbn [fst snd]. unfold monadd.
    assert (A : snd (snd x) s = 0%nat) by exact (H x Hx). assert (B : snd (snd y) s = 0%nat) by exact (H' y Hy).
    rewrite A, B. reflexivity.
  Qed.
  Lemma sfree_con s c : sfree s (scon c).
  Proof. repeat constructor. Qed.
  Lemma sfree_pow s l n : sfree s l -> sfree s (spow l n).
  Proof. intros H. induction n; simpl; [apply sfree_con|apply sfree_mul; auto]. Qed.
  Lemma sfree_subst s q l : sfree s q -> sfree s (ssubst s q l).
  Proof.
    intros H. unfold sfree, ssubst. apply Forall_forall. intros t Ht. apply in_flat_map in Ht. destruct Ht as (x & Hx & Ht).
    assert (G : sfree s (smul (smul (scon (fst x)) (smono (mset (snd (snd x)) s 0) (fst (snd x) - snd (snd x) s)%nat)) (spow q (snd (snd x) s)))).
    { repeat apply sfree_mul; auto using sfree_con, sfree_pow. repeat constructor. simpl. unfold mset. rewrite String.eqb_refl. reflexivity. }
    unfold sfree in G. rewrite Forall_forall in G. apply G. exact Ht.
  Qed.
  Lemma sfree_coef a l s W k : gwf a -> seqv None (gd a) l -> sfree s l -> NoDup W -> length k = length W ->
    expo W k s <> 0%nat -> coef a W k = 0.
  Proof.
    intros Ha [E] Hf HW Hk H0. set (U := sunion W (gsyms a)).
    assert (HU : NoDup U) by (apply ssorted_NoDup, sunion_sorted, gsyms_sorted; auto).
    assert (HWU : incl W U) by (intros x Hx; apply sunion_In; auto).
    assert (HgU : incl (gsyms a) U) by (intros x Hx; apply sunion_In; auto).
    rewrite (coef_Lf a W k U) by auto. rewrite E by (intros d m []; exact I).
    rewrite (Lf_ext l _ (fun _ _ => 0)); [apply Lf_zero; auto|]. intros t Ht. unfold sfree in Hf. rewrite Forall_forall in Hf.
    specialize (Hf t Ht). unfold Fk. replace (monb _ _ _ _ _) with false; [auto|]. symmetry.
    apply Bool.not_true_iff_false. rewrite monb_spec. intros (_ & Em & _).
    assert (HS : In s W).
    { destruct (in_dec string_dec s W); auto. rewrite expo_not_In in H0 by auto. congruence. }
    apply H0. rewrite <- Em, expo_map by auto. exact Hf.
  Qed.
  Lemma subs_val_free g s v W k : valid g -> NoDup W -> length k = length W -> expo W k s <> 0%nat ->
    coef (gsubs_val g s v) W k = 0.
  Proof.
    intros Hg HW Hk H0. apply (sfree_coef _ (ssubst s (scon v) (gd g)) s); auto.
    - apply gsubs_val_gwf; auto with gwf.
    - apply (den_psubs_val idK). apply valid_gwf in Hg. apply Hg.
    - apply sfree_subst, sfree_con.
  Qed.

  (** The untruncated composition. *)
  Definition gcomp (g : gdual K) s (v : gdual K) : gdual K :=
    mkG (psubs_poly s (gp v) (gp g)) (pdegree (psubs_poly s (gp v) (gp g))).
  Lemma gcomp_valid g s v : valid g -> valid v -> valid (gcomp g s v).
  Proof.
    intros Hg Hv. apply valid_gwf in Hg, Hv. apply valid_iff. split.
    - constructor; cbn [gcomp gp gord]; [apply psubs_poly_swf; [apply Hg|apply Hv]|]. apply pdegree_le. auto.
    - apply psubs_poly_nz.
  Qed.
  Lemma gcomp_value g s v rho : valid g -> valid v -> value (gcomp g s v) rho = value g (update rho s (value v rho)).
  Proof.
    intros Hg Hv. set (U := joinV [[s]; gsyms g; gsyms v; gsyms (gcomp g s v)]).
    assert (HU : NoDup U) by apply ssorted_NoDup, joinV_sorted.
    rewrite (value_seqv _ (ssubst s (gd v) (gd g)) U rho); auto.
    - rewrite Lf_ev_subst; auto; [|apply (joinV_incl _ [s]); simpl; auto].
      rewrite (value_Lf v U), (value_Lf g U) by (auto with gwf; apply joinV_incl; simpl; auto). reflexivity.
    - apply valid_gwf, gcomp_valid; auto.
    - apply joinV_incl; simpl; auto.
    - apply (den_psubs_poly idK); [apply valid_gwf in Hg; apply Hg|apply valid_gwf in Hv; apply Hv].
  Qed.
  Lemma coef_trim g n W k : gwf g -> gwf (mkG (ptrim (gp g)) n) -> NoDup W -> length k = length W ->
    coef (mkG (ptrim (gp g)) n) W k = coef g W k.
  Proof.
    intros Hg Hn HW Hk. apply (seqv_coef None); auto; [exact I|]. apply (den_ptrim idK). apply Hg.
  Qed.
  Lemma subs_spec g s v : valid g -> valid v ->
    exists c, valid c /\ (forall rho, value c rho = value g (update rho s (value v rho))) /\
      forall W k, NoDup W -> length k = length W ->
        coef (gsubs g s v) W k = if Nat.leb (list_sum k) (gord g) then coef c W k else 0.
  Proof.
    intros Hg Hv. exists (gcomp g s v). split; [apply gcomp_valid; auto|]. split; [intros; apply gcomp_value; auto|].
    intros W k HW Hk. assert (Hc := valid_gwf _ (gcomp_valid g s v Hg Hv)).
    set (t := mkG (ptruncate (gord g) (psubs_poly s (gp v) (gp g))) (gord g)).
    assert (Ht : gwf t).
    { constructor; cbn [t gp gord]; [|apply ptruncate_dle]. apply pfilter_swf. apply Hc. }
    change (gsubs g s v) with (mkG (ptrim (gp t)) (gord g)).
    rewrite coef_trim; auto.
    2:{ apply (gsubs_gwf g s v); auto with gwf. }
    unfold t. apply (coef_filter (gcomp g s v) (gord g) W k _ (fun d => Nat.leb d (gord g))); auto.
  Qed.
  (** The substituted symbol disappears unless the replacement uses it. *)
  Lemma subs_symbols g s v : valid g -> valid v -> In s (psyms (gp (gsubs g s v))) -> In s (psyms (gp v)).
  Proof.
    intros Hg Hv Hs. destruct (in_dec string_dec s (psyms (gp v))) as [H|H]; auto. exfalso.
    assert (Hc := valid_gwf _ (gcomp_valid g s v Hg Hv)).
    set (t := mkG (ptruncate (gord g) (psubs_poly s (gp v) (gp g))) (gord g)).
    change (psyms (gp (gsubs g s v))) with (usyms (gp t)) in Hs. apply filter_In in Hs. destruct Hs as [Hs Hu].
    unfold used in Hu. apply existsb_exists in Hu. destruct Hu as (x & Hx & Hu).
    cbn [t gp ptruncate pfilter pterms psyms] in *. apply filter_In in Hx. destruct Hx as [Hx _].
    apply negb_true_iff, Nat.eqb_neq in Hu.
    assert (C := coef_own (gcomp g s v) x Hc Hx).
    rewrite (sfree_coef (gcomp g s v) (ssubst s (gd v) (gd g)) s) in C; auto.
    - assert (Z := proj1 (Forall_forall _ _) (psubs_poly_nz s (gp v) (gp g)) x Hx). cbn beta in Z.
      rewrite <- C, keqb_refl in Z. discriminate.
    - apply (den_psubs_poly idK); [apply valid_gwf in Hg; apply Hg|apply valid_gwf in Hv; apply Hv].
    - apply sfree_subst. unfold sfree, gden, den, tden. rewrite Forall_map. apply Forall_forall. intros y _. cbn [snd].
      apply expo_not_In. auto.
    - apply ssorted_NoDup. apply (gsyms_sorted (gcomp g s v)); auto.
    - apply (proj1 (Forall_forall _ _) (swf_len _ (gwf_swf _ Hc)) x Hx).
  Qed.
End Values.
