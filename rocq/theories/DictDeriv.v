(** * get_derivative with a dictionary (proof file for C54) *)
From Coq Require Import String Reals List Arith ZArith Bool Lra Lia Permutation FunctionalExtensionality.
From Verif Require Import Ops Syms SymsFacts Poly PolyFacts Gdual Functions FunStruct Spec GdualFacts CoefFacts CoreProofs ValueProofs ElemR SpecTaylor Taylor TayUnique
  TayProofs TayIdent MiscProofs CalcProofs BoundPoly BoundsMain TayQuad TaySubs TMTaylor TayDeriv PyFun SpecPy PyFunProofs SmoothFun PyDeriv.
Import ListNotations.
Open Scope R_scope.

Lemma restrict_value_in W (g : gdual R) x : incl (psyms (gp g)) W -> value g (restrict W x) = value g x.
Proof.
  intros I. unfold value, sum_list. generalize (pterms (gp g)). intros l. induction l as [|t l IH]; cbn [fold_right]; auto. rewrite IH. f_equal. f_equal.
  apply mono_at_ext. intros s Hs. unfold restrict. destruct (in_dec _ _ _) as [|X]; auto. destruct X. auto.
Qed.
(** The coefficients over any larger set of symbols. *)
Lemma taylor_coefs W n (g : gdual R) f F k : valid g -> ssorted W -> incl (psyms (gp g)) W -> taylor_of n g f -> derivatives W n f F ->
  length k = length W -> (list_sum k <= n)%nat -> F k center = coef g W k * mfac k.
Proof.
  intros Vg SW IW HT (H0 & r & Hr & HD & HB) Hk Hs. assert (NW := ssorted_NoDup _ SW).
  set (F' := fun k x => F k (restrict W x)).
  assert (HF : family W n F' r).
  { split; [|split].
    - intros k0 x y H. unfold F'. rewrite (restrict_same W x y H). reflexivity.
    - intros k0 s x Hk0 L Hin Hx. unfold F'. rewrite <- incr_inc by auto.
      assert (X : restrict W x s = x s) by (unfold restrict; destruct (in_dec _ _ _); auto; contradiction).
      apply (derivable_ext (fun t => F k0 (update (restrict W x) s t))); [intros t; rewrite restrict_update; auto|].
      rewrite <- X. apply HD; auto. apply within_restrict. auto.
    - intros k0 Hk0 L. destruct (HB k0 Hk0 L) as (M & HM). exists M. intros x Hx. apply HM. apply within_restrict. auto. }
  assert (T := taylor_theorem W NW n F' r Hr HF).
  assert (T' : taylor_of n (tgdual W n (fun k => F k center)) (fun x => f (restrict W x))).
  { apply (bigO_ext _ (fun x => F' (map (fun _ => 0%nat) W) x - tpoly W n (fun k => F' k center) x)); [|exact T].
    intros x. unfold F'. rewrite H0, tgdual_value by auto. f_equal. apply tpoly_ext; auto. intros. rewrite restrict_center. reflexivity. }
  assert (HT' : taylor_of n g (fun x => f (restrict W x))).
  { destruct HT as (C & d & Hd & HC & B). exists C, d. split; auto. split; auto. intros x q Hx Hq.
    rewrite <- (restrict_value_in W g x IW). apply B; auto. apply within_restrict. auto. }
  assert (A := expands_unique n g _ _ Vg (tgdual_valid W n _ SW) HT' T').
  rewrite (A W k NW Hk Hs), tgdual_coef by auto. field. apply mfac_pos.
Qed.

(** Sums and products over a larger set of symbols. *)
Lemma disjoint_app (a b : list string) : NoDup a -> NoDup b -> (forall s, In s a -> In s b -> False) -> NoDup (a ++ b).
Proof.
  intros Na Nb. induction Na as [|s a Hs Na IH]; cbn; auto. intros D. constructor; [|apply IH; eauto].
  rewrite in_app_iff. intros [X|X]; [auto|apply (D s); auto].
Qed.
Lemma perm_split (V W : list string) : NoDup V -> NoDup W -> incl V W ->
  Permutation W (V ++ filter (fun s => negb (str_in s V)) W).
Proof.
  intros NV NW I. apply NoDup_Permutation; auto.
  - apply disjoint_app; [auto|apply NoDup_filter; auto|]. intros s Hs Hf. apply filter_In in Hf. destruct Hf as [_ Hf].
    apply negb_true_iff in Hf. apply str_in_spec in Hs. congruence.
  - intros s. rewrite in_app_iff, filter_In. split.
    + intros H. destruct (str_in s V) eqn:E; [left; apply str_in_spec; auto|right; auto].
    + intros [H|[H _]]; auto.
Qed.
Lemma mfac_app a b : mfac (a ++ b) = mfac a * mfac b.
Proof. induction a as [|e a IH]; [change (mfac b = 1 * mfac b); ring|]. change (INR (fact e) * mfac (a ++ b) = INR (fact e) * mfac a * mfac b). rewrite IH. ring. Qed.
Lemma mfac_perm a b : Permutation a b -> mfac a = mfac b.
Proof.
  induction 1 as [|x a b P IH|x y a|a b c P IH Q IH']; auto.
  - change (INR (fact x) * mfac a = INR (fact x) * mfac b). rewrite IH. auto.
  - change (INR (fact y) * (INR (fact x) * mfac a) = INR (fact x) * (INR (fact y) * mfac a)). ring.
  - congruence.
Qed.
Lemma sum_perm a b : Permutation a b -> list_sum a = list_sum b.
Proof.
  induction 1 as [|x a b P IH|x y a|a b c P IH Q IH']; auto.
  - change (x + list_sum a = x + list_sum b)%nat. lia.
  - change (y + (x + list_sum a) = x + (y + list_sum a))%nat. lia.
  - congruence.
Qed.
Lemma zero_part (e : string -> nat) l : (forall s, In s l -> e s = 0%nat) -> mfac (map e l) = 1 /\ list_sum (map e l) = 0%nat.
Proof.
  induction l as [|s l IH]; intros H; [auto|]. destruct IH as [A B]; [intros; apply H; right; auto|]. cbn [map].
  change (INR (fact (e s)) * mfac (map e l) = 1 /\ (e s + list_sum (map e l) = 0)%nat).
  rewrite A, B, (H s) by (left; auto). split; [cbn; ring|auto].
Qed.
Lemma larger_set (e : string -> nat) V W : NoDup V -> NoDup W -> incl V W -> (forall s, ~ In s V -> e s = 0%nat) ->
  mfac (map e W) = mfac (map e V) /\ list_sum (map e W) = list_sum (map e V).
Proof.
  intros NV NW I Z. assert (P := Permutation_map e (perm_split V W NV NW I)). rewrite map_app in P.
  destruct (zero_part e (filter (fun s => negb (str_in s V)) W)) as [A B].
  { intros s Hs. apply Z. intros Hv. apply filter_In in Hs. destruct Hs as [_ Hs]. apply str_in_spec in Hv. rewrite Hv in Hs. discriminate. }
  split; [rewrite (mfac_perm _ _ P), mfac_app, A; ring|]. rewrite (sum_perm _ _ P), list_sum_app, B. lia.
Qed.
Lemma dfind_expo (dict : list (string * nat)) s :
  match dfind s dict with Some e => e | None => 0%nat end = expo (map fst dict) (map snd dict) s.
Proof. induction dict as [|[t e] dict IH]; cbn; auto. destruct (String.eqb t s); auto. Qed.

Lemma dict_smooth n (g : gdual R) f W F dict : valid g -> (Z.of_nat (get_order g) < 4294967296)%Z -> taylor_of n g f ->
  ssorted W -> incl (psyms (gp g)) W -> derivatives W n f F -> NoDup (map fst dict) -> incl (map fst dict) W ->
  (forall s e, In (s, e) dict -> (1 <= e)%nat /\ (Z.of_nat e <= 170)%Z) ->
  let k := map (expo (map fst dict) (map snd dict)) W in
  (list_sum k <= n)%nat -> (list_sum k <= get_order g)%nat -> get_derivative_dict g dict = Ok (F k center).
Proof.
  intros V O T SW IW HF ND ID HE k L1 L2. assert (NW := ssorted_NoDup _ SW). assert (NV : NoDup (psyms (gp g))) by (apply ssorted_NoDup, V).
  rewrite derivative_dict by auto. rewrite (taylor_coefs W n g f F k) by (auto; unfold k; rewrite map_length; auto).
  set (ex := expo (map fst dict) (map snd dict)) in *. assert (G := proj1 (proj1 (valid_iff g) V)).
  rewrite (map_ext _ ex) by (intros s; apply dfind_expo).
  destruct (forallb _ dict) eqn:Q.
  - rewrite forallb_forall in Q.
    assert (Z : forall s, ~ In s (psyms (gp g)) -> ex s = 0%nat).
    { intros s Hs. apply expo_not_In. intros Hd. apply Hs. apply in_map_iff in Hd. destruct Hd as (se & <- & Hd). apply str_in_spec, Q; auto. }
    destruct (larger_set ex (psyms (gp g)) W NV NW IW Z) as [M S]. fold k in M, S.
    unfold get_derivative. rewrite factorials_fit.
    2:{ intros e He. apply in_map_iff in He. destruct He as (s & <- & _). unfold ex. rewrite <- dfind_expo.
        destruct (dfind s dict) as [e|] eqn:E; [|cbn; lia]. apply (HE s). clear - E. induction dict as [|[t a] l IH]; [discriminate|].
        cbn in E. destruct (String.eqb_spec t s); [injection E as ->; subst; left; auto|right; auto]. }
    rewrite find_cf_coef; [|tauto|unfold gsyms; rewrite map_length; auto|unfold get_order in *; lia|auto].
    cbn [rbind]. f_equal. rewrite cumfact_eq. unfold gsyms.
    rewrite (coef_ext g (psyms (gp g)) (map ex (psyms (gp g))) W k G).
    2:{ intros s. destruct (in_dec string_dec s (psyms (gp g))) as [I|I].
        - rewrite expo_map by auto. unfold k. rewrite expo_map by (apply IW; auto). auto.
        - rewrite expo_not_In by auto. destruct (in_dec string_dec s W) as [J|J]; [unfold k; rewrite expo_map, Z by auto; auto|].
          rewrite expo_not_In by auto. auto. }
    assert (X : fold_right (fun e a => (kfact e * a)%K) 1%K (map ex (psyms (gp g))) = mfac (map ex (psyms (gp g)))).
    { clear. generalize (map ex (psyms (gp g))). intros l. induction l as [|e l IH]; [reflexivity|]. cbn [fold_right mfac]. rewrite IH, kfact_R. reflexivity. }
    rewrite X, M. change (@k1 R OpsR) with 1. change (@kmul R OpsR) with Rmult. ring.
  - f_equal. assert (X : exists s e, In (s, e) dict /\ ~ In s (psyms (gp g))).
    { clear - Q. induction dict as [|[s e] l IH]; [discriminate|]. cbn in Q. destruct (str_in s (psyms (gp g))) eqn:E.
      - destruct (IH Q) as (t & a & I & J). exists t, a. cbn. auto.
      - exists s, e. split; [left; auto|]. intros H. apply str_in_spec in H. congruence. }
    destruct X as (s & e & I & J). assert (Z : coef g W k = 0); [|rewrite Z; change (@k0 R OpsR) with 0; ring].
    assert (Es : ex s = e).
    { unfold ex. clear - I ND. induction dict as [|[t a] l IH]; [contradiction|]. cbn in *. inversion ND; subst. destruct I as [I|I].
      - injection I as -> ->. rewrite String.eqb_refl. auto.
      - destruct (String.eqb_spec t s); [|auto]. subst. exfalso. apply H1. apply in_map_iff. exists (s, e). auto. }
    destruct (HE s e I) as [Pe _].
    unfold coef. change (@k0 R OpsR) with 0. generalize (pterms (gp g)). intros l. induction l as [|t l IH]; cbn [fold_right]; auto. rewrite IH.
    assert (B : same_mono (psyms (gp g)) (fst t) W k = false).
    { apply not_true_iff_false. intros B. rewrite same_mono_spec in B.
      assert (IWs : In s W) by (apply ID; apply in_map_iff; exists (s, e); auto).
      specialize (B s (or_intror IWs)). rewrite expo_not_In in B by auto. unfold k in B. rewrite expo_map in B by auto. lia. }
    rewrite B. change (@kadd R OpsR) with Rplus. ring.
Qed.

Lemma python_dict (n m : nat) (gd : string -> bool) (env : string -> pyval R) (G : string -> gdual R) (point : string -> R) (e : pyexpr R) :
  names_hold gd env G point -> py_smooth gd e (inputs gd G point center) m -> is_number gd e = false ->
  (forall s, gd s = true -> input n m (G s)) -> (Z.of_nat m < 4294967296)%Z ->
  let f := fun x => py_real e (inputs gd G point x) in
  exists g, py_eval env e = Ok (VGdual g) /\ ((n <= get_order g)%nat \/ get_order g = 0%nat) /\
  forall W, ssorted W -> incl (psyms (gp g)) W -> (exists F, derivatives W n f F) /\
  forall F dict, derivatives W n f F -> NoDup (map fst dict) -> incl (map fst dict) W ->
    (forall s j, In (s, j) dict -> (1 <= j)%nat /\ (Z.of_nat j <= 170)%Z) ->
    let k := map (expo (map fst dict) (map snd dict)) W in
    (list_sum k <= n)%nat -> (list_sum k <= get_order g)%nat -> get_derivative_dict g dict = Ok (F k center).
Proof.
  intros HE HS HN HI M32 f. pose proof (eval_ok m n gd env G point HE HI e HS) as H. rewrite HN in H.
  destruct H as (g & Eg & (V & O & T) & Rg & Go & Om). exists g. split; auto. split; auto. intros W SW IW. split.
  - apply smooth_derivatives; [exact (smooth_py gd G point e m HS)|apply ssorted_NoDup; auto].
  - intros F dict HF ND ID HD k L1 L2. apply (dict_smooth n g f W F dict); auto. unfold get_order in *. lia.
Qed.
Lemma program_dict point order M n e : (forall s, (n <= order s <= M)%nat) ->
  names_ok order e -> SpecTaylor.fits e M -> smooth e point -> (Z.of_nat M < 4294967296)%Z ->
  let f := fun x => real e (fun s => point s + x (dsym s)) in
  exists g, calc point order e = Ok g /\ ((n <= get_order g)%nat \/ get_order g = 0%nat) /\
  forall W, ssorted W -> incl (psyms (gp g)) W -> (exists F, derivatives W n f F) /\
  forall F dict, derivatives W n f F -> NoDup (map fst dict) -> incl (map fst dict) W ->
    (forall s j, In (s, j) dict -> (1 <= j)%nat /\ (Z.of_nat j <= 170)%Z) ->
    let k := map (expo (map fst dict) (map snd dict)) W in
    (list_sum k <= n)%nat -> (list_sum k <= get_order g)%nat -> get_derivative_dict g dict = Ok (F k center).
Proof.
  intros HM Nm Ft Sm M32 f. destruct (calc_ok point order e Nm) as (g & Eg & _).
  destruct (calc_inv point order M n HM e g Eg Ft Sm) as ((V & O & T) & _ & Om). exists g. split; auto. split; auto. intros W SW IW. split.
  - apply smooth_derivatives; [exact (smooth_program point e Sm)|apply ssorted_NoDup; auto].
  - intros F dict HF ND ID HD k L1 L2. apply (dict_smooth n g f W F dict); auto. unfold get_order in *. lia.
Qed.
