(** * A function has at most one Taylor polynomial (proof file). *)

From Coq Require Import String Reals Lra Lia Psatz List ZArith Setoid Morphisms Ring Field Bool.
From Coquelicot Require Import Coquelicot.
From Verif Require Import Ops Syms SymsFacts Poly PolyFacts Sem Den Gdual GdualFacts Functions Spec CoefFacts CoreProofs CalcProofs ValueProofs FunAlg ElemR Uni UniFun Taylor.
Import ListNotations.
Open Scope R_scope.

Definition scalep (t : R) (U : list string) (x : point) : point :=
  fun s => if in_dec string_dec s U then t * x s else 0.

Lemma mval_scale t U x m V : incl V U -> mval V (scalep t U x) m = t ^ msum V m * mval V x m.
Proof.
  induction V as [|v V IH]; intros Hi; cbn [mval msum].
  - simpl. cbn [k1 OpsR]. ring.
  - rewrite IH by (intros s Hs; apply Hi; right; auto). unfold scalep at 1.
    destruct (in_dec string_dec v U) as [Hv|Hv]; [|exfalso; apply Hv, Hi; left; auto].
    rewrite (kpow_R (t * x v)), (kpow_R (x v)). cbn [kmul OpsR]. rewrite Rpow_mult_distr, pow_add. ring.
Qed.

(** The part of degree [i] of a formal polynomial. *)
Definition part (V : list string) (l : sp R) (x : point) (i : nat) : R :=
  Lf l (fun d m => if Nat.eqb d i then mval V x m else 0).

Lemma lev_scale V l x N t : okV V l -> (forall u, In u l -> (fst (snd u) <= N)%nat) ->
  lev V l (scalep t V x) = usum (part V l x) N t.
Proof.
  intros Hok HN. unfold lev, part. induction l as [|u l IH].
  - simpl. unfold usum. rewrite (sum_eq _ (fun _ => 0)) by (intros; simpl; ring). rewrite sum_cte. cbn [k0 OpsR]. ring.
  - rewrite Lf_cons.
    rewrite (usum_ext _ (fun i => (if Nat.eqb (fst (snd u)) i then fst u * mval V x (snd (snd u)) else 0) +
       Lf l (fun d m => if Nat.eqb d i then mval V x m else 0))).
    2:{ intros i _. rewrite Lf_cons. destruct (Nat.eqb (fst (snd u)) i); cbn [kadd kmul k0 OpsR]; ring. }
    rewrite usum_plus. rewrite IH; [|intros w Hw; apply Hok; right; auto|intros w Hw; apply HN; right; auto].
    cbn [kadd kmul OpsR]. f_equal. unfold evF. rewrite mval_scale by apply incl_refl.
    rewrite <- (Hok u) by (left; auto).
    assert (G : forall N j c, (j <= N)%nat -> usum (fun i => if Nat.eqb j i then c else 0) N t = c * t ^ j).
    { clear. induction N; intros j c L.
      - replace j with O by lia. rewrite usum_0. simpl. ring.
      - rewrite usum_S. destruct (Nat.eqb_spec j (S N)) as [->|Ne].
        + rewrite (usum_ext _ (fun _ => 0)).
          * unfold usum. rewrite (sum_eq _ (fun _ => 0)) by (intros; simpl; ring). rewrite sum_cte. ring.
          * intros i Hi. destruct (Nat.eqb_spec (S N) i); auto. lia.
        + rewrite IHN by lia. ring. }
    rewrite G; [ring|]. apply HN. left; auto.
Qed.

Lemma part_zero V l x n i : okV V l -> bigO (S n) (lev V l) -> (i <= n)%nat -> part V l x i = 0.
Proof.
  intros Hok (C & d & Hd & HC & H) Hi.
  set (N := Nat.max n (fold_right (fun u a => Nat.max (fst (snd u)) a) 0%nat l)).
  assert (HN : forall u, In u l -> (fst (snd u) <= N)%nat).
  { intros u Hu. assert (fst (snd u) <= fold_right (fun u a => Nat.max (fst (snd u)) a) 0 l)%nat; [|lia].
    clear - Hu. induction l; destruct Hu; simpl; [subst; lia|]. specialize (IHl H). lia. }
  set (M := fold_right (fun s a => Rabs (x s) + a) 0 V).
  assert (HM : 0 <= M) by (unfold M; clear; induction V; simpl; [lra|]; assert (Y := Rabs_pos (x a)); lra).
  assert (HMs : forall s, In s V -> Rabs (x s) <= M).
  { unfold M. clear. induction V as [|v V IH]; intros s []; simpl.
    - subst. assert (0 <= fold_right (fun s a => Rabs (x s) + a) 0 V); [|lra].
      clear. induction V; simpl; [lra|]; assert (Y := Rabs_pos (x a)); lra.
    - specialize (IH s H). assert (Y := Rabs_pos (x v)). lra. }
  set (F := fun t => lev V l (scalep t V x)).
  assert (U1 : uexp F 0 n (part V l x)).
  { apply (uexp_le _ _ n N); [lia|]. exists 0, 1. split; [lra|]. split; [lra|]. intros t _. rewrite Rplus_0_l.
    unfold F. rewrite (lev_scale V l x N) by auto. rewrite Rminus_eq_0, Rabs_R0. lra. }
  assert (U2 : uexp F 0 n (fun _ => 0)).
  { exists (C * M ^ S n), (d / (M + 1)). split; [apply Rdiv_lt_0_compat; lra|].
    split; [apply Rmult_le_pos; auto; apply pow_le; auto|]. intros t Ht. rewrite Rplus_0_l.
    replace (usum (fun _ => 0) n t) with 0.
    2:{ unfold usum. rewrite (sum_eq _ (fun _ => 0)) by (intros; ring). rewrite sum_cte. ring. }
    rewrite Rminus_0_r. unfold F. eapply Rle_trans; [apply (H _ (Rabs t * M))|].
    - intros s. unfold scalep. destruct (in_dec string_dec s V).
      + rewrite Rabs_mult. apply Rmult_le_compat_l; [apply Rabs_pos|auto].
      + rewrite Rabs_R0. apply Rmult_le_pos; [apply Rabs_pos|auto].
    - apply (Rmult_le_compat_r (M + 1)) in Ht; [|lra].
      replace (d / (M + 1) * (M + 1)) with d in Ht by (field; lra). assert (Y := Rabs_pos t). nra.
    - rewrite Rpow_mult_distr. lra. }
  exact (uexp_unique _ _ _ _ _ U1 U2 i Hi).
Qed.

Section Uniq.
  Notation idR := (fun x : R => x).
  Notation gd := (gden idR).

  Lemma hval_value (g : gdual R) x : gwf g -> hval idR g x = value g x.
  Proof.
    intros W. destruct (common_vars idR [g]) as (V & HV); [constructor; auto|].
    rewrite (value_Lf g (gsyms g)) by (auto using incl_refl; apply ssorted_NoDup, gsyms_sorted; auto).
    unfold hval. rewrite (heval_Lf idR (gp g) (gsyms g)); auto using incl_refl; [apply W|].
    apply ssorted_NoDup, gsyms_sorted; auto.
  Qed.

  Lemma bigO_agree n (a b : gdual R) : gwf a -> gwf b -> bigO (S n) (fun x => value a x - value b x) -> agree n a b.
  Proof.
    intros Wa Wb H W k HW Hk Hn.
    set (U := joinV [gsyms a; gsyms b; W]).
    assert (HU : NoDup U) by apply ssorted_NoDup, joinV_sorted.
    assert (Ia : incl (gsyms a) U) by (apply joinV_incl; simpl; auto).
    assert (Ib : incl (gsyms b) U) by (apply joinV_incl; simpl; auto).
    assert (IW : incl W U) by (apply joinV_incl; simpl; auto).
    rewrite (coef_Lf a W k U), (coef_Lf b W k U) by auto.
    assert (Oa : okV U (gd a)) by (apply den_okV; auto; apply Wa).
    assert (Ob : okV U (gd b)) by (apply den_okV; auto; apply Wb).
    assert (B : bigO (S n) (lev U (ssub (gd a) (gd b)))).
    { revert H. apply bigO_ext. intros x. rewrite lev_sub. unfold lev. rewrite <- !value_Lf by auto. reflexivity. }
    set (w := fun (d : nat) (m : mon) => if Nat.eqb d (list_sum k) then 1 else 0 : R).
    assert (Z : Lf (ssub (gd a) (gd b)) (fun d m => kmul (w d m) (if key_eqb (map m U) (map (expo W k) U) then 1 else 0)) = 0).
    { refine (separate U HU (ssub (gd a) (gd b)) w _ (map (expo W k) U) _); [|rewrite !map_length; auto]. intros rho.
      assert (P := part_zero U (ssub (gd a) (gd b)) rho n (list_sum k) (okV_ssub _ _ _ Oa Ob) B Hn). etransitivity; [|exact P].
      apply Lf_ext_all. intros d m. unfold w. cbn [kmul OpsR]. destruct (Nat.eqb d (list_sum k)); ring. }
    rewrite (Lf_ssub (gd a) (gd b)) in Z.
    assert (G : forall g, gwf g -> incl (gsyms g) U ->
      Lf (gd g) (fun d m => kmul (w d m) (if key_eqb (map m U) (map (expo W k) U) then 1 else 0)) = Lf (gd g) (Fk U W k)).
    { intros g Hg Ig. apply (Lf_proper_ext U); [apply gd_proper; auto|]. intros d m Hd. unfold Fk.
      assert (E : monb U W k d m = key_eqb (map m U) (map (expo W k) U)).
      { apply monb_bool; auto. rewrite key_eqb_spec. split.
        - intros E. apply map_ext_in. auto.
        - intros E s Hs. rewrite <- (expo_map U m s), <- (expo_map U (expo W k) s), E by auto. reflexivity. }
      rewrite E. cbn [kmul k1 k0 OpsR]. destruct (key_eqb (map m U) (map (expo W k) U)) eqn:Q; [|ring].
      unfold w. replace (Nat.eqb d (list_sum k)) with true; [ring|]. symmetry. apply Nat.eqb_eq.
      apply monb_spec in E. apply E. }
    rewrite !G in Z by auto. cbn [ksub k0 OpsR] in Z. lra.
  Qed.
End Uniq.
