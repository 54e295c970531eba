(** * A function has at most one Taylor polynomial (proof file). *)

From Coq Require Import String Reals Lra Lia Psatz List ZArith Setoid Morphisms Ring Field Bool.
From Coquelicot Require Import Coquelicot.
From Verif Require Import Ops Syms SymsFacts Poly PolyFacts Sem Den Gdual GdualFacts Functions Spec CoefFacts CoreProofs CalcProofs ValueProofs FunAlg ElemR Cplx CUni CFun CFun2 CTaylor.
Import ListNotations.
Open Scope R_scope.

Lemma Cpw_add z a b : Cpw z (a + b) = (Cpw z a * Cpw z b)%C.
Proof. induction a; cbn [Nat.add]; [rewrite Cpw_0; ring|]. rewrite !Cpw_S, IHa. ring. Qed.
Lemma Cpw_mult z w n : Cpw (z * w)%C n = (Cpw z n * Cpw w n)%C.
Proof. induction n; [rewrite !Cpw_0; ring|]. rewrite !Cpw_S, IHn. ring. Qed.
Lemma cusum_zero n z : cusum (fun _ => RtoC 0) n z = RtoC 0.
Proof. induction n; [reflexivity|]. rewrite cusum_S, IHn. ring. Qed.
Lemma pow_le_self x n : 0 <= x <= 1 -> x ^ S n <= x.
Proof. intros H. simpl. assert (0 <= x ^ n <= 1); [|nra]. split; [apply pow_le; lra|]. rewrite <- (pow1 n). apply pow_incr. lra. Qed.

Lemma clin_small (a : C) K d : 0 < d -> 0 <= K -> (forall x, 0 < x <= d -> Cmod a <= K * x) -> a = RtoC 0.
Proof.
  intros Hd HK H. apply Cmod_eq_0. assert (P := Cmod_pos a). destruct (Rle_lt_or_eq_dec _ _ P) as [Q|Q]; auto. exfalso.
  assert (L : 0 < Cmod a / (2 * (K + 1))) by (apply Rdiv_lt_0_compat; lra).
  specialize (H (Rmin d (Cmod a / (2 * (K + 1))))). specialize (H (conj (Rmin_pos _ _ Hd L) (Rmin_l _ _))).
  assert (X := Rmin_r d (Cmod a / (2 * (K + 1)))). apply (Rmult_le_compat_l (K + 1)) in X; [|lra].
  replace ((K + 1) * (Cmod a / (2 * (K + 1)))) with (Cmod a / 2) in X by (field; lra).
  assert (Y := Rmin_pos _ _ Hd L). nra.
Qed.
Lemma cusum_small c n K d : 0 < d -> 0 <= K -> (forall x, 0 < x <= d -> Cmod (cusum c n (RtoC x)) <= K * x ^ S n) ->
  forall i, (i <= n)%nat -> c i = RtoC 0.
Proof.
  revert c K d. induction n; intros c K d Hd HK H i Hi.
  - replace i with O by lia. apply (clin_small (c O) K d); auto. intros x Hx. specialize (H x Hx).
    rewrite cusum_0, pow_1 in H. exact H.
  - assert (MX : forall x, 0 < x -> Cmod (RtoC x) = x) by (intros x Hx; rewrite Cmod_R, Rabs_right; lra).
    assert (H0 : c O = RtoC 0).
    { destruct (cusum_bound (fun i => c (S i)) n) as (M & HM & HB). apply (clin_small (c O) (K + M) (Rmin d 1)).
      - apply Rmin_pos; lra.
      - lra.
      - intros x [Px Hx]. assert (X1 : x <= d) by (eapply Rle_trans; [exact Hx|apply Rmin_l]).
        assert (X2 : x <= 1) by (eapply Rle_trans; [exact Hx|apply Rmin_r]).
        specialize (H x ltac:(lra)). specialize (HB (RtoC x) ltac:(rewrite MX; lra)).
        replace (c O) with (cusum c (S n) (RtoC x) - RtoC x * cusum (fun i => c (S i)) n (RtoC x))%C by (rewrite cusum_shift; ring).
        eapply Rle_trans; [apply Cmod_sub|]. rewrite Cmod_mult, MX by lra.
        assert (L := pow_le_self x (S n) ltac:(lra)).
        assert (K * x ^ S (S n) <= K * x) by (apply Rmult_le_compat_l; auto).
        assert (x * Cmod (cusum (fun i => c (S i)) n (RtoC x)) <= x * M) by (apply Rmult_le_compat_l; lra). lra. }
    assert (Hs : forall j, (j <= n)%nat -> c (S j) = RtoC 0).
    { apply (IHn (fun i => c (S i)) K d); auto. intros x Hx. specialize (H x Hx).
      rewrite cusum_shift, H0, Cplus_0_l, Cmod_mult, MX in H by lra.
      apply (Rmult_le_reg_l x); [lra|]. change (x ^ S (S n)) with (x * x ^ S n) in H. lra. }
    destruct i; auto. apply Hs. lia.
Qed.
Lemma cuexp_unique F p n c c' : cuexp F p n c -> cuexp F p n c' -> forall i, (i <= n)%nat -> c i = c' i.
Proof.
  intros (K & d & Hd & HK & H) (K' & d' & Hd' & HK' & H') i Hi. apply Csub0.
  apply (cusum_small (fun i => c i - c' i)%C n (K + K') (Rmin d d')); auto.
  - apply Rmin_pos; auto.
  - lra.
  - intros x [Px Hx]. assert (X1 : x <= d) by (eapply Rle_trans; [exact Hx|apply Rmin_l]).
    assert (X2 : x <= d') by (eapply Rle_trans; [exact Hx|apply Rmin_r]).
    assert (MX : Cmod (RtoC x) = x) by (rewrite Cmod_R, Rabs_right; lra).
    specialize (H (RtoC x) ltac:(rewrite MX; lra)). specialize (H' (RtoC x) ltac:(rewrite MX; lra)).
    rewrite MX in H, H'. rewrite cusum_minus.
    replace (cusum c n (RtoC x) - cusum c' n (RtoC x))%C with ((F (p + RtoC x) - cusum c' n (RtoC x)) - (F (p + RtoC x) - cusum c n (RtoC x)))%C by ring.
    eapply Rle_trans; [apply Cmod_sub|]. lra.
Qed.

Definition scalep (t : C) (U : list string) (x : point) : point :=
  fun s => if in_dec string_dec s U then (t * x s)%C else RtoC 0.

Lemma mval_scale t U x m V : incl V U -> mval V (scalep t U x) m = (Cpw t (msum V m) * mval V x m)%C.
Proof.
  induction V as [|v V IH]; intros Hi; cbn [mval msum].
  - rewrite Cpw_0. cbn [k1 OpsC]. ring.
  - rewrite IH by (intros s Hs; apply Hi; right; auto). unfold scalep at 1.
    destruct (in_dec string_dec v U) as [Hv|Hv]; [|exfalso; apply Hv, Hi; left; auto].
    cbn [kmul OpsC]. rewrite Cpw_mult, Cpw_add. ring.
Qed.

(** The part of degree [i] of a formal polynomial. *)
Definition part (V : list string) (l : sp C) (x : point) (i : nat) : C :=
  Lf l (fun d m => if Nat.eqb d i then mval V x m else RtoC 0).

Lemma lev_scale V l x N t : okV V l -> (forall u, In u l -> (fst (snd u) <= N)%nat) ->
  lev V l (scalep t V x) = cusum (part V l x) N t.
Proof.
  intros Hok HN. unfold lev, part. induction l as [|u l IH].
  - cbn [Lf fold_right]. symmetry. exact (cusum_zero N t).
  - rewrite Lf_cons.
    rewrite (cusum_ext _ (fun i => (if Nat.eqb (fst (snd u)) i then fst u * mval V x (snd (snd u)) else RtoC 0) +
       Lf l (fun d m => if Nat.eqb d i then mval V x m else RtoC 0))%C).
    2:{ intros i _. rewrite Lf_cons. destruct (Nat.eqb (fst (snd u)) i); cbn [kadd kmul k0 OpsC]; ring. }
    rewrite cusum_plus. rewrite IH; [|intros w Hw; apply Hok; right; auto|intros w Hw; apply HN; right; auto].
    cbn [kadd kmul OpsC]. f_equal. unfold evF. rewrite mval_scale by apply incl_refl.
    rewrite <- (Hok u) by (left; auto).
    assert (G : forall N j c, (j <= N)%nat -> cusum (fun i => if Nat.eqb j i then c else RtoC 0) N t = (c * Cpw t j)%C).
    { clear. induction N; intros j c L.
      - replace j with O by lia. rewrite cusum_0, Cpw_0. simpl. ring.
      - rewrite cusum_S. destruct (Nat.eqb_spec j (S N)) as [->|Ne].
        + rewrite (cusum_ext _ (fun _ => RtoC 0)), cusum_zero; [ring|].
          intros i Hi. destruct (Nat.eqb_spec (S N) i); auto. lia.
        + rewrite IHN by lia. ring. }
    rewrite G; [ring|]. apply HN. left; auto.
Qed.

Lemma part_zero V l x n i : okV V l -> bigO (S n) (lev V l) -> (i <= n)%nat -> part V l x i = RtoC 0.
Proof.
  intros Hok (K & d & Hd & HK & H) Hi.
  set (N := Nat.max n (fold_right (fun u a => Nat.max (fst (snd u)) a) 0%nat l)).
  assert (HN : forall u, In u l -> (fst (snd u) <= N)%nat).
  { intros u Hu. assert (fst (snd u) <= fold_right (fun u a => Nat.max (fst (snd u)) a) 0 l)%nat; [|lia].
    clear - Hu. induction l; destruct Hu; simpl; [subst; lia|]. specialize (IHl H). lia. }
  set (M := fold_right (fun s a => Cmod (x s) + a) 0 V).
  assert (HM : 0 <= M) by (unfold M; clear; induction V; simpl; [lra|]; assert (Y := Cmod_pos (x a)); lra).
  assert (HMs : forall s, In s V -> Cmod (x s) <= M).
  { unfold M. clear. induction V as [|v V IH]; intros s []; simpl.
    - subst. assert (0 <= fold_right (fun s a => Cmod (x s) + a) 0 V); [|lra].
      clear. induction V; simpl; [lra|]; assert (Y := Cmod_pos (x a)); lra.
    - specialize (IH s H). assert (Y := Cmod_pos (x v)). lra. }
  set (F := fun t => lev V l (scalep t V x)).
  assert (U1 : cuexp F (RtoC 0) n (part V l x)).
  { apply (cuexp_le _ _ n N); [lia|]. exists 0, 1. split; [lra|]. split; [lra|]. intros t _. rewrite Cplus_0_l.
    unfold F. rewrite (lev_scale V l x N) by auto.
    replace (cusum (part V l x) N t - cusum (part V l x) N t)%C with (RtoC 0) by ring. rewrite Cmod_m0. lra. }
  assert (U2 : cuexp F (RtoC 0) n (fun _ => RtoC 0)).
  { exists (K * M ^ S n), (d / (M + 1)). split; [apply Rdiv_lt_0_compat; lra|].
    split; [apply Rmult_le_pos; auto; apply pow_le; auto|]. intros t Ht. rewrite Cplus_0_l, cusum_zero.
    replace (F t - RtoC 0)%C with (F t) by ring. unfold F. eapply Rle_trans; [apply (H _ (Cmod t * M))|].
    - intros s. unfold scalep. destruct (in_dec string_dec s V).
      + rewrite Cmod_mult. apply Rmult_le_compat_l; [apply Cmod_pos|auto].
      + rewrite Cmod_m0. apply Rmult_le_pos; [apply Cmod_pos|auto].
    - apply (Rmult_le_compat_r (M + 1)) in Ht; [|lra].
      replace (d / (M + 1) * (M + 1)) with d in Ht by (field; lra). assert (Y := Cmod_pos t). nra.
    - rewrite Rpow_mult_distr. lra. }
  exact (cuexp_unique _ _ _ _ _ U1 U2 i Hi).
Qed.

Section Uniq.
  Notation idC := (fun x : C => x).
  Notation gd := (gden idC).

  Lemma hval_value (g : gdual C) x : gwf g -> hval idC g x = value g x.
  Proof.
    intros W. destruct (common_vars idC [g]) as (V & HV); [constructor; auto|].
    rewrite (value_Lf g (gsyms g)) by (auto using incl_refl; apply ssorted_NoDup, gsyms_sorted; auto).
    unfold hval. rewrite (heval_Lf idC (gp g) (gsyms g)); auto using incl_refl; [apply W|].
    apply ssorted_NoDup, gsyms_sorted; auto.
  Qed.

  Lemma bigO_agree n (a b : gdual C) : gwf a -> gwf b -> bigO (S n) (fun x => value a x - value b x)%C -> agree n a b.
  Proof.
    intros Wa Wb H W k HW Hk Hn.
    set (U := joinV [gsyms a; gsyms b; W]).
    assert (HU : NoDup U) by apply ssorted_NoDup, joinV_sorted.
    assert (Ia : incl (gsyms a) U) by (apply joinV_incl; simpl; auto).
    assert (Ib : incl (gsyms b) U) by (apply joinV_incl; simpl; auto).
    assert (IW : incl W U) by (apply joinV_incl; simpl; auto).
    rewrite (coef_Lf a W k U), (coef_Lf b W k U) by auto.
    assert (Oa : okV U (gd a)) by (apply den_okV; auto; apply Wa).
    assert (Ob : okV U (gd b)) by (apply den_okV; auto; apply Wb).
    assert (B : bigO (S n) (lev U (ssub (gd a) (gd b)))).
    { revert H. apply bigO_ext. intros x. rewrite lev_sub. unfold lev. rewrite <- !value_Lf by auto. reflexivity. }
    set (w := fun (d : nat) (m : mon) => if Nat.eqb d (list_sum k) then RtoC 1 else RtoC 0 : C).
    assert (Z : Lf (ssub (gd a) (gd b)) (fun d m => kmul (w d m) (if key_eqb (map m U) (map (expo W k) U) then RtoC 1 else RtoC 0)) = RtoC 0).
    { refine (separate U HU (ssub (gd a) (gd b)) w _ (map (expo W k) U) _); [|rewrite !map_length; auto]. intros rho.
      assert (P := part_zero U (ssub (gd a) (gd b)) rho n (list_sum k) (okV_ssub _ _ _ Oa Ob) B Hn). etransitivity; [|exact P].
      apply Lf_ext_all. intros d m. unfold w. cbn [kmul OpsC]. destruct (Nat.eqb d (list_sum k)); ring. }
    rewrite (Lf_ssub (gd a) (gd b)) in Z.
    assert (G : forall g, gwf g -> incl (gsyms g) U ->
      Lf (gd g) (fun d m => kmul (w d m) (if key_eqb (map m U) (map (expo W k) U) then RtoC 1 else RtoC 0)) = Lf (gd g) (Fk U W k)).
    { intros g Hg Ig. apply (Lf_proper_ext U); [apply gd_proper; auto|]. intros d m Hd. unfold Fk.
      assert (E : monb U W k d m = key_eqb (map m U) (map (expo W k) U)).
      { apply monb_bool; auto. rewrite key_eqb_spec. split.
        - intros E. apply map_ext_in. auto.
        - intros E s Hs. rewrite <- (expo_map U m s), <- (expo_map U (expo W k) s), E by auto. reflexivity. }
      rewrite E. cbn [kmul k1 k0 OpsC]. destruct (key_eqb (map m U) (map (expo W k) U)) eqn:Q; [|ring].
      unfold w. replace (Nat.eqb d (list_sum k)) with true; [ring|]. symmetry. apply Nat.eqb_eq.
      apply monb_spec in E. apply E. }
    rewrite !G in Z by auto. cbn [ksub k0 OpsC] in Z. apply Csub0, Z.
  Qed.
End Uniq.
