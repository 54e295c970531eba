(** * Expansions of the real elementary functions (proof file). *)

From Coq Require Import Reals Lra Lia Psatz List ZArith.
From Coquelicot Require Import Coquelicot.
From Verif Require Import Ops Functions FunAlg GdualFacts ElemR Uni.
Import ListNotations.
Open Scope R_scope.

(** ** From the generic operations to the reals *)
Lemma kofnat_R n : (kofnat n : R) = INR n.
Proof. unfold kofnat. simpl. symmetry. apply INR_IZR_INZ. Qed.
Lemma kpow_R (x : R) n : kpow x n = x ^ n.
Proof. induction n; simpl; [reflexivity|]. rewrite IHn. reflexivity. Qed.
Lemma kfct_R n : (kfct n : R) = INR (fact n).
Proof. apply kofnat_R. Qed.
Lemma alt_R n : (alt n : R) = (-1) ^ n.
Proof.
  unfold alt. rewrite kpow_R. change (@kopp R OpsR (@k1 R OpsR)) with (- 1).
  replace (- 1) with (-1) by lra. reflexivity.
Qed.

Ltac toR := repeat match goal with
  | |- context [@kpow R ?o ?x ?n] => rewrite (kpow_R x n)
  | |- context [@kofnat R ?o ?n] => rewrite (kofnat_R n)
  | |- context [@kfct R ?o ?n] => rewrite (kfct_R n)
  | |- context [@alt R ?o ?n] => rewrite (alt_R n)
  end; cbn [kadd ksub kmul kdiv k0 k1 kofZ kopp OpsR].

(** ** Series by induction on the order *)
Lemma uexp_exp p n : uexp exp p n (fun i => exp p / INR (fact i)).
Proof.
  induction n.
  - apply (uexp_O _ _ (exp p)); [apply is_derive_Reals, derivable_pt_lim_exp|]. simpl. field.
  - apply (uexp_int exp exp).
    + exists 1. split; [lra|]. intros. apply is_derive_Reals, derivable_pt_lim_exp.
    + apply (uexp_ext _ _ _ (fun i => exp p / INR (fact i))); auto.
      intros i _. rewrite fact_simpl, mult_INR. field. split; [apply INR_fact_neq_0|apply not_0_INR; lia].
    + simpl. field.
Qed.

Lemma uexp_id p n : uexp (fun x => x) p n (fun i => match i with O => p | S O => 1 | _ => 0 end).
Proof.
  set (c := fun i => match i with O => p | S O => 1 | _ => 0 end).
  assert (E : forall m x, usum c (S m) x = p + x).
  { induction m; intros x; [rewrite usum_S, usum_0; simpl; ring|]. rewrite usum_S, IHm. simpl. ring. }
  apply (uexp_le _ _ n (S n)); [lia|]. exists 0, 1. split; [lra|]. split; [lra|]. intros x _.
  rewrite E. replace (p + x - (p + x)) with 0 by ring. rewrite Rabs_R0. lra.
Qed.

Lemma conv_unit_geom a m : a <> 0 ->
  conv (fun i => match i with O => a | S O => 1 | _ => 0 end) (fun i => (-1) ^ i / a ^ S i) m = constc 1 m.
Proof.
  intros Ha. destruct m as [|m].
  - unfold conv. simpl. field. auto.
  - rewrite conv_S. destruct m as [|m].
    + unfold conv. simpl. field. auto.
    + rewrite conv_S. unfold conv.
      rewrite (sum_eq _ (fun _ => 0)) by (intros; simpl; ring). rewrite sum_cte. simpl. field.
      split; auto. apply pow_nonzero; auto.
Qed.

Lemma uexp_Rinv p n : p <> 0 -> uexp Rinv p n (fun i => (-1) ^ i / p ^ S i).
Proof.
  intros Hp. apply (uexp_inv (fun x => x) p n (fun i => match i with O => p | S O => 1 | _ => 0 end)).
  - apply uexp_id.
  - auto.
  - intros m _. apply conv_unit_geom; auto.
Qed.

Lemma near_pos p : 0 < p -> exists d, 0 < d /\ forall x, Rabs x <= d -> 0 < p + x.
Proof.
  intros H. exists (p / 2). split; [lra|]. intros x Hx. apply Rabs_le_between in Hx. lra.
Qed.
Lemma near_neg p : p < 0 -> exists d, 0 < d /\ forall x, Rabs x <= d -> p + x < 0.
Proof.
  intros H. exists (- p / 2). split; [lra|]. intros x Hx. apply Rabs_le_between in Hx. lra.
Qed.

Lemma uexp_ln p n : 0 < p -> uexp ln p n (logc p).
Proof.
  intros Hp. destruct (near_pos p Hp) as (d & Hd & Hn). destruct n.
  - apply (uexp_O _ _ (/ p)); [apply is_derive_Reals, derivable_pt_lim_ln; auto|reflexivity].
  - apply (uexp_int ln Rinv).
    + exists d. split; auto. intros x Hx. apply is_derive_Reals, derivable_pt_lim_ln; auto.
    + apply (uexp_ext _ _ _ (fun i => (-1) ^ i / p ^ S i)); [|apply uexp_Rinv; lra].
      intros i _. cbn [logc]. toR. field.
      split; [apply pow_nonzero; lra|apply not_0_INR; lia].
    + reflexivity.
Qed.

(** *** Powers *)
Lemma gbin_R a i : (gbin a i : R) = match i with O => 1 | S j => gbin a j * (a - INR j) / INR (S j) end.
Proof. destruct i; [reflexivity|]. cbn [gbin]. toR. reflexivity. Qed.
Lemma gbin_S a i : gbin a (S i) = gbin a i * (a - INR i) / INR (S i).
Proof. rewrite gbin_R. reflexivity. Qed.

Lemma gbin_diff a i : INR (S i) * gbin a (S i) = a * gbin (a - 1) i.
Proof.
  induction i.
  - rewrite gbin_S. simpl. field.
  - assert (X : INR (S i) <> 0) by (apply not_0_INR; lia). assert (Y : INR (S (S i)) <> 0) by (apply not_0_INR; lia).
    rewrite gbin_S. replace (INR (S (S i)) * (gbin a (S i) * (a - INR (S i)) / INR (S (S i))))
      with ((INR (S i) * gbin a (S i)) * (a - INR (S i)) / INR (S i)) by (field; auto).
    rewrite IHi, (gbin_S (a - 1)). rewrite S_INR in *. field. auto.
Qed.

Definition powok (p a : R) : Prop := 0 < p \/ (p < 0 /\ IZR (Int_part a) = a).

Lemma Int_part_IZR z : Int_part (IZR z) = z.
Proof.
  destruct (base_Int_part (IZR z)) as [H1 H2]. apply le_IZR in H1.
  assert (IZR (Int_part (IZR z)) + 1 > IZR z) by lra. rewrite <- plus_IZR in H. apply lt_IZR in H. lia.
Qed.

Lemma powok_sub p a k : powok p a -> powok p (a - IZR k).
Proof.
  intros [H|[H E]]; [left; auto|]. right. split; auto. rewrite <- E.
  rewrite <- minus_IZR, Int_part_IZR. rewrite minus_IZR. reflexivity.
Qed.

Lemma rpow_pos x a : 0 < x -> rpow x a = Rpower x a.
Proof. intros H. unfold rpow. destruct (Rlt_dec 0 x); [reflexivity|lra]. Qed.
Lemma rpow_int x z : x < 0 -> rpow x (IZR z) = powerRZ x z.
Proof.
  intros H. unfold rpow. destruct (Rlt_dec 0 x); [lra|]. rewrite Int_part_IZR.
  destruct (Req_EM_T (IZR z) (IZR z)); [reflexivity|congruence].
Qed.

Lemma is_derive_powerRZ x z : x <> 0 -> is_derive (fun t => powerRZ t z) x (IZR z * powerRZ x (z - 1)).
Proof.
  intros H. destruct z as [|q|q].
  - simpl. rewrite Rmult_0_l. apply (is_derive_const (V:=R_NormedModule)).
  - assert (X : exists n, Pos.to_nat q = S n) by (exists (pred (Pos.to_nat q)); lia). destruct X as [n Hn].
    apply (is_derive_ext (fun t => t ^ S n)).
    + intros t. simpl powerRZ. rewrite Hn. reflexivity.
    + replace (IZR (Z.pos q) * powerRZ x (Z.pos q - 1)) with (INR (S n) * x ^ n).
      * auto_derive; auto. rewrite Rmult_1_l. reflexivity.
      * rewrite <- Hn at 1. rewrite INR_IZR_INZ, positive_nat_Z. f_equal.
        replace (Z.pos q - 1)%Z with (Z.of_nat n) by lia. rewrite <- pow_powerRZ. reflexivity.
  - set (n := Pos.to_nat q). assert (Pn : (0 < n)%nat) by (unfold n; lia).
    apply (is_derive_ext (fun t => / t ^ n)); [reflexivity|].
    assert (X : exists m, n = S m) by (exists (pred n); lia). destruct X as [m Hm].
    replace (IZR (Z.neg q) * powerRZ x (Z.neg q - 1)) with (- INR n * / x ^ S n).
    + rewrite Hm. auto_derive; [change (x ^ S m <> 0); apply pow_nonzero; auto|].
      change (match m with O => 1 | S _ => INR m + 1 end) with (INR (S m)).
      assert (x ^ m <> 0) by (apply pow_nonzero; auto).
      change (x ^ S (S m)) with (x * (x * x ^ m)). change (x ^ S m) with (x * x ^ m). field. auto.
    + replace (Z.neg q - 1)%Z with (- Z.of_nat (S n))%Z by (unfold n; lia).
      rewrite powerRZ_neg'. rewrite <- pow_powerRZ. f_equal.
      unfold n. rewrite INR_IZR_INZ, positive_nat_Z. rewrite <- opp_IZR. reflexivity.
Qed.

Lemma is_derive_ext_near (f g : R -> R) (x l : R) : (exists d, 0 < d /\ forall y, Rabs y <= d -> f (x + y) = g (x + y)) ->
  is_derive f x l -> is_derive g x l.
Proof.
  intros (d & Hd & E). apply is_derive_ext_loc. exists (mkposreal d Hd). intros y Hy.
  assert (B : Rabs (y - x) < d) by exact Hy. replace y with (x + (y - x)) by ring. apply E. lra.
Qed.

Lemma is_derive_rpow x a : powok x a -> is_derive (fun t => rpow t a) x (a * rpow x (a - 1)).
Proof.
  intros [H|[H E]].
  - apply (is_derive_ext_near (fun t => Rpower t a)).
    + destruct (near_pos x H) as (d & Hd & N). exists d. split; auto. intros y Hy. rewrite rpow_pos; auto.
    + rewrite rpow_pos by auto. apply is_derive_Reals, derivable_pt_lim_power. auto.
  - rewrite <- E. set (z := Int_part a).
    apply (is_derive_ext_near (fun t => powerRZ t z)).
    + destruct (near_neg x H) as (d & Hd & N). exists d. split; auto. intros y Hy. rewrite rpow_int; auto.
    + rewrite <- minus_IZR, rpow_int by auto. apply is_derive_powerRZ. lra.
Qed.

Lemma powok_near p a : powok p a -> exists d, 0 < d /\ forall x, Rabs x <= d -> powok (p + x) a.
Proof.
  intros [H|[H E]].
  - destruct (near_pos p H) as (d & Hd & N). exists d. split; auto. intros; left; auto.
  - destruct (near_neg p H) as (d & Hd & N). exists d. split; auto. intros; right; auto.
Qed.

Lemma powc_R p a i : powc p a i = gbin a i * rpow p (a - INR i).
Proof. unfold powc. toR. reflexivity. Qed.

Lemma uexp_rpow p n : forall a, powok p a -> uexp (fun x => rpow x a) p n (powc p a).
Proof.
  induction n; intros a H.
  - apply (uexp_O _ _ (a * rpow p (a - 1))); [apply is_derive_rpow; auto|].
    rewrite powc_R. simpl INR. rewrite Rminus_0_r. cbn [gbin]. apply Rmult_1_l.
  - apply (uexp_int _ (fun x => a * rpow x (a - 1))).
    + destruct (powok_near p a H) as (d & Hd & N). exists d. split; auto. intros x Hx. apply is_derive_rpow; auto.
    + apply (uexp_ext _ _ _ (fun i => a * powc p (a - 1) i)).
      * intros i _. rewrite !powc_R, <- !Rmult_assoc, <- gbin_diff. f_equal. f_equal. rewrite S_INR. ring.
      * apply uexp_scale. apply IHn. apply (powok_sub p a 1). auto.
    + rewrite powc_R. simpl INR. rewrite Rminus_0_r. cbn [gbin]. apply Rmult_1_l.
Qed.

(** *** Roots *)
Lemma rootc_R al r p i : rootc al r p i = r * gbin al i / p ^ i.
Proof. unfold rootc. toR. reflexivity. Qed.

Lemma uexp_root (f : R -> R) al p n : p <> 0 ->
  (exists d, 0 < d /\ forall x, Rabs x <= d -> f (p + x) = f p * Rpower (1 + x / p) al) ->
  uexp f p n (rootc al (f p) p).
Proof.
  intros Hp E.
  apply (uexp_fun (fun x => f p * rpow (1 + / p * (x - p)) al)).
  { destruct E as (d & Hd & E). exists (Rmin d (Rabs p / 2)).
    assert (P : 0 < Rabs p) by (apply Rabs_pos_lt; auto).
    split; [apply Rmin_pos; lra|]. intros x Hx.
    assert (X1 : Rabs x <= d) by (eapply Rle_trans; [exact Hx|apply Rmin_l]).
    assert (X2 : Rabs x <= Rabs p / 2) by (eapply Rle_trans; [exact Hx|apply Rmin_r]).
    rewrite E by auto. replace (1 + / p * (p + x - p)) with (1 + x / p) by (field; auto).
    rewrite rpow_pos; auto.
    assert (B : Rabs (x / p) <= 1 / 2).
    { unfold Rdiv. rewrite Rabs_mult, Rabs_inv. apply (Rmult_le_reg_r (Rabs p)); auto.
      rewrite Rmult_assoc, Rinv_l by lra. lra. }
    apply Rabs_le_between in B. lra. }
  apply (uexp_ext _ _ _ (fun i => f p * (powc 1 al i * (/ p) ^ i))).
  { intros i _. rewrite rootc_R, powc_R. rewrite rpow_pos by lra.
    rewrite pow_inv. unfold Rdiv.
    replace (Rpower 1 (al - INR i)) with 1; [ring|].
    unfold Rpower. rewrite ln_1, Rmult_0_r, exp_0. reflexivity. }
  apply uexp_scale. apply (uexp_affine (fun x => rpow x al) (/ p) 1 p).
  apply uexp_rpow. left. lra.
Qed.

Lemma near_ratio p : p <> 0 -> exists d, 0 < d /\ forall x, Rabs x <= d -> 0 < 1 + x / p.
Proof.
  intros Hp. assert (P : 0 < Rabs p) by (apply Rabs_pos_lt; auto). exists (Rabs p / 2). split; [lra|].
  intros x Hx. assert (B : Rabs (x / p) <= 1 / 2).
  { unfold Rdiv. rewrite Rabs_mult, Rabs_inv. apply (Rmult_le_reg_r (Rabs p)); auto.
    rewrite Rmult_assoc, Rinv_l by lra. lra. }
  apply Rabs_le_between in B. lra.
Qed.

Lemma uexp_sqrt p n : 0 < p -> uexp sqrt p n (rootc (1 / 2) (sqrt p) p).
Proof.
  intros Hp. apply uexp_root; [lra|]. destruct (near_ratio p ltac:(lra)) as (d & Hd & N).
  exists d. split; auto. intros x Hx. specialize (N x Hx).
  replace (1 / 2) with (/ 2) by lra. rewrite Rpower_sqrt by auto. rewrite <- sqrt_mult; try lra.
  f_equal. field. lra.
Qed.

Lemma Rpower_mult_base x y a : 0 < x -> 0 < y -> Rpower (x * y) a = Rpower x a * Rpower y a.
Proof. intros. symmetry. apply Rpower_mult_distr; auto. Qed.

Lemma uexp_cbrt p n : p <> 0 -> uexp cbrt_R p n (rootc (1 / 3) (cbrt_R p) p).
Proof.
  intros Hp. apply uexp_root; auto. destruct (near_ratio p Hp) as (d & Hd & N).
  exists d. split; auto. intros x Hx. specialize (N x Hx).
  assert (E : p + x = p * (1 + x / p)) by (field; auto). rewrite E. unfold cbrt_R.
  destruct (Rlt_dec 0 p) as [H|H].
  - destruct (Rlt_dec 0 (p * (1 + x / p))) as [_|C]; [|exfalso; apply C; apply Rmult_lt_0_compat; auto].
    apply Rpower_mult_base; auto.
  - assert (p < 0) by lra. assert (L : p * (1 + x / p) < 0) by nra.
    destruct (Rlt_dec 0 (p * (1 + x / p))); [lra|]. destruct (Rlt_dec (p * (1 + x / p)) 0); [|lra].
    destruct (Rlt_dec p 0); [|lra]. rewrite Ropp_mult_distr_l, Rpower_mult_base by lra. ring.
Qed.

(** *** Sine and cosine *)
Lemma even_cases i : (exists j, i = (2 * j)%nat) \/ (exists j, i = S (2 * j)).
Proof. destruct (Nat.Even_or_Odd i) as [[j ->]|[j ->]]; [left|right]; exists j; lia. Qed.

Lemma evenc_2 (a : nat -> R) j : evenc a (2 * j) = a j.
Proof. unfold evenc. rewrite even_2, half_2. reflexivity. Qed.
Lemma evenc_2_1 (a : nat -> R) j : evenc a (S (2 * j)) = 0.
Proof. unfold evenc. rewrite even_2_1. reflexivity. Qed.
Lemma oddc_2 (a : nat -> R) j : oddc a (2 * j) = 0.
Proof. unfold oddc. rewrite even_2. reflexivity. Qed.
Lemma oddc_2_1 (a : nat -> R) j : oddc a (S (2 * j)) = a j.
Proof. unfold oddc. rewrite even_2_1, half_2_1. reflexivity. Qed.

Lemma fact_S_R n : INR (fact (S n)) = INR (S n) * INR (fact n).
Proof. rewrite fact_simpl, mult_INR. reflexivity. Qed.

Lemma cosc_S i : INR (S i) * cosc (S i) = - sinc i.
Proof.
  unfold cosc, sinc. destruct (even_cases i) as [[j ->]|[j ->]].
  - rewrite evenc_2_1, oddc_2. lra.
  - replace (S (S (2 * j))) with (2 * S j)%nat by lia. rewrite evenc_2, oddc_2_1.
    toR.
    replace (2 * S j)%nat with (S (2 * j + 1)) by lia. rewrite fact_S_R. cbn [pow].
    field. split; [apply INR_fact_neq_0|apply not_0_INR; lia].
Qed.
Lemma sinc_S i : INR (S i) * sinc (S i) = cosc i.
Proof.
  unfold cosc, sinc. destruct (even_cases i) as [[j ->]|[j ->]].
  - rewrite evenc_2, oddc_2_1. toR.
    replace (2 * j + 1)%nat with (S (2 * j)) by lia. rewrite fact_S_R.
    field. split; [apply INR_fact_neq_0|apply not_0_INR; lia].
  - replace (S (S (2 * j))) with (2 * S j)%nat by lia. rewrite oddc_2, evenc_2_1. ring.
Qed.
Lemma cosc_0 : cosc 0 = 1.
Proof. unfold cosc, evenc. simpl. toR. simpl. field. Qed.
Lemma sinc_0 : sinc 0 = 0.
Proof. reflexivity. Qed.

Lemma uexp_sincos p n :
  uexp sin p n (fun i => sin p * cosc i + cos p * sinc i) /\
  uexp cos p n (fun i => cos p * cosc i - sin p * sinc i).
Proof.
  induction n as [|n [IHs IHc]].
  - split.
    + apply (uexp_O _ _ (cos p)); [apply is_derive_Reals, derivable_pt_lim_sin|]. rewrite cosc_0, sinc_0. ring.
    + apply (uexp_O _ _ (- sin p)); [apply is_derive_Reals, derivable_pt_lim_cos|]. rewrite cosc_0, sinc_0. ring.
  - split.
    + apply (uexp_int sin cos).
      * exists 1. split; [lra|]. intros. apply is_derive_Reals, derivable_pt_lim_sin.
      * apply (uexp_ext _ _ _ (fun i => cos p * cosc i - sin p * sinc i)); auto.
        intros i _. rewrite <- sinc_S. replace (sinc i) with (- (INR (S i) * cosc (S i))) by (rewrite cosc_S; ring). ring.
      * rewrite cosc_0, sinc_0. ring.
    + apply (uexp_int cos (fun x => - sin x)).
      * exists 1. split; [lra|]. intros. apply is_derive_Reals, derivable_pt_lim_cos.
      * apply (uexp_ext _ _ _ (fun i => - (sin p * cosc i + cos p * sinc i))); [|apply uexp_opp; auto].
        intros i _. rewrite <- sinc_S. replace (sinc i) with (- (INR (S i) * cosc (S i))) by (rewrite cosc_S; ring). ring.
      * rewrite cosc_0, sinc_0. ring.
Qed.

Lemma coshc_S i : INR (S i) * coshc (S i) = sinhc i.
Proof.
  unfold coshc, sinhc. destruct (even_cases i) as [[j ->]|[j ->]].
  - rewrite evenc_2_1, oddc_2. ring.
  - replace (S (S (2 * j))) with (2 * S j)%nat by lia. rewrite evenc_2, oddc_2_1.
    toR.
    replace (2 * S j)%nat with (S (2 * j + 1)) by lia. rewrite fact_S_R.
    replace (S (S (2 * j))) with (S (2 * j + 1)) by lia.
    field. split; [apply INR_fact_neq_0|apply not_0_INR; lia].
Qed.
Lemma sinhc_S i : INR (S i) * sinhc (S i) = coshc i.
Proof.
  unfold coshc, sinhc. destruct (even_cases i) as [[j ->]|[j ->]].
  - rewrite evenc_2, oddc_2_1. toR.
    replace (2 * j + 1)%nat with (S (2 * j)) by lia. rewrite fact_S_R.
    field. split; [apply INR_fact_neq_0|apply not_0_INR; lia].
  - replace (S (S (2 * j))) with (2 * S j)%nat by lia. rewrite oddc_2, evenc_2_1. ring.
Qed.
Lemma coshc_0 : coshc 0 = 1.
Proof. unfold coshc, evenc. simpl. toR. simpl. field. Qed.
Lemma sinhc_0 : sinhc 0 = 0.
Proof. reflexivity. Qed.

Lemma uexp_sinhcosh p n :
  uexp sinh p n (fun i => sinh p * coshc i + cosh p * sinhc i) /\
  uexp cosh p n (fun i => cosh p * coshc i + sinh p * sinhc i).
Proof.
  induction n as [|n [IHs IHc]].
  - split.
    + apply (uexp_O _ _ (cosh p)); [apply is_derive_Reals, derivable_pt_lim_sinh|]. rewrite coshc_0, sinhc_0. ring.
    + apply (uexp_O _ _ (sinh p)); [apply is_derive_Reals, derivable_pt_lim_cosh|]. rewrite coshc_0, sinhc_0. ring.
  - split.
    + apply (uexp_int sinh cosh).
      * exists 1. split; [lra|]. intros. apply is_derive_Reals, derivable_pt_lim_sinh.
      * apply (uexp_ext _ _ _ (fun i => cosh p * coshc i + sinh p * sinhc i)); auto.
        intros i _. rewrite <- (sinhc_S i), <- (coshc_S i). ring.
      * rewrite coshc_0, sinhc_0. ring.
    + apply (uexp_int cosh sinh).
      * exists 1. split; [lra|]. intros. apply is_derive_Reals, derivable_pt_lim_cosh.
      * apply (uexp_ext _ _ _ (fun i => sinh p * coshc i + cosh p * sinhc i)); auto.
        intros i _. rewrite <- (sinhc_S i), <- (coshc_S i). ring.
      * rewrite coshc_0, sinhc_0. ring.
Qed.

(** *** Inverse hyperbolic tangent *)
Lemma is_derive_atanh x : -1 < x < 1 -> is_derive atanh_R x (/ (1 - x * x)).
Proof.
  intros H. unfold atanh_R. auto_derive.
  - split; [lra|]. split; [|auto]. apply Rdiv_lt_0_compat; lra.
  - field. nra.
Qed.

Lemma near_open x : -1 < x < 1 -> exists d, 0 < d /\ forall t, Rabs t <= d -> -1 < x + t < 1.
Proof.
  intros H. exists (Rmin ((1 - x) / 2) ((1 + x) / 2)). split; [apply Rmin_pos; lra|]. intros t Ht.
  assert (X1 := Rmin_l ((1 - x) / 2) ((1 + x) / 2)). assert (X2 := Rmin_r ((1 - x) / 2) ((1 + x) / 2)).
  apply Rabs_le_between in Ht. lra.
Qed.

Lemma uexp_atanh p n : -1 < p < 1 -> uexp atanh_R p n (atanhc p).
Proof.
  intros Hp. destruct (near_open p Hp) as (d & Hd & N). destruct n.
  - apply (uexp_O _ _ (/ (1 - p * p))); [apply is_derive_atanh; auto|reflexivity].
  - apply (uexp_int atanh_R (fun x => / (1 - x * x))).
    + exists d. split; auto. intros x Hx. apply is_derive_atanh; auto.
    + apply (uexp_fun (fun x => / 2 * (/ (1 + -1 * (x - 0)) + / (1 + 1 * (x - 0))))).
      { exists d. split; auto. intros x Hx. specialize (N x Hx). field. repeat split; nra. }
      apply (uexp_ext _ _ _ (fun i => / 2 * ((-1) ^ i / (1 - p) ^ S i * (-1) ^ i + (-1) ^ i / (1 + p) ^ S i * 1 ^ i))).
      * intros i _. cbn [atanhc]. toR.
        assert (A : (-1) ^ i * (-1) ^ i = 1). { rewrite <- Rpow_mult_distr. replace (-1 * -1) with 1 by lra. apply pow1. }
        rewrite pow1. replace ((-1) ^ i / (1 - p) ^ S i * (-1) ^ i) with (((-1) ^ i * (-1) ^ i) / (1 - p) ^ S i) by (unfold Rdiv; ring).
        rewrite A. field. repeat split; try (apply pow_nonzero; lra). apply not_0_INR; lia.
      * apply uexp_scale. apply uexp_plus.
        -- apply (uexp_fun_all (fun x => / (1 - p + -1 * (x - p)))); [intros; f_equal; ring|].
           apply (uexp_affine Rinv (-1) (1 - p) p). apply uexp_Rinv. lra.
        -- apply (uexp_fun_all (fun x => / (1 + p + 1 * (x - p)))); [intros; f_equal; ring|].
           apply (uexp_affine Rinv 1 (1 + p) p). apply uexp_Rinv. lra.
    + reflexivity.
Qed.
