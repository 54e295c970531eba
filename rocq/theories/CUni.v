(** * Taylor expansions of complex functions of one complex variable (proof file). *)

From Coq Require Import Reals Lra Lia Psatz List ZArith Arith.
From Coquelicot Require Import Coquelicot.
From Verif Require Import Ops Cplx.
Import ListNotations.
Open Scope R_scope.

Notation Cpw := (@kpow C OpsC).

Lemma Cpw_S z n : Cpw z (S n) = (z * Cpw z n)%C.
Proof. reflexivity. Qed.
Lemma Cpw_0 z : Cpw z 0 = RtoC 1.
Proof. reflexivity. Qed.
Lemma Cmod_pw z n : Cmod (Cpw z n) = Cmod z ^ n.
Proof.
  induction n; [rewrite Cpw_0, Cmod_1; reflexivity|]. rewrite Cpw_S, Cmod_mult, IHn. reflexivity.
Qed.
Lemma Cmod_pos z : 0 <= Cmod z.
Proof. apply Cmod_ge_0. Qed.
Lemma Cmod_sub a b : Cmod (a - b)%C <= Cmod a + Cmod b.
Proof. unfold Cminus. eapply Rle_trans; [apply Cmod_triangle|]. rewrite Cmod_opp. lra. Qed.
Lemma Cmod_sym a b : Cmod (a - b)%C = Cmod (b - a)%C.
Proof. rewrite <- Cmod_opp. f_equal. ring. Qed.
Lemma Cmod_inv_tri a b : Cmod a - Cmod b <= Cmod (a - b)%C.
Proof.
  assert (T := Cmod_triangle (a - b)%C b). replace (a - b + b)%C with a in T by ring. lra.
Qed.
Lemma Cmod_fst z : Rabs (fst z) <= Cmod z.
Proof. eapply Rle_trans; [apply Rmax_l|apply Rmax_Cmod]. Qed.
Lemma Cmod_snd z : Rabs (snd z) <= Cmod z.
Proof. eapply Rle_trans; [apply Rmax_r|apply Rmax_Cmod]. Qed.
Lemma Cmod_le_sum z : Cmod z <= Rabs (fst z) + Rabs (snd z).
Proof.
  destruct z as [a b]. replace ((a, b) : C) with (RtoC a + RtoC b * Ci)%C.
  - eapply Rle_trans; [apply Cmod_triangle|]. rewrite Cmod_mult, !Cmod_R.
    assert (E : Cmod Ci = 1). { unfold Cmod, Ci. cbn [fst snd]. replace (0 ^ 2 + 1 ^ 2) with 1 by ring. apply sqrt_1. }
    rewrite E. cbn [fst snd]. unfold RtoC, Ci, Cmult, Cplus; cbn [fst snd].
    replace (a + (b * 0 - 0 * 1)) with a by ring. replace (0 + (b * 1 + 0 * 0)) with b by ring. lra.
  - unfold RtoC, Ci, Cmult, Cplus; cbn [fst snd]. f_equal; ring.
Qed.
Lemma Cmod_m0 : Cmod (RtoC 0) = 0.
Proof. apply Cmod_0. Qed.

(** ** Derivatives of complex functions of a real variable *)
Definition cder (g : R -> C) (t : R) (v : C) : Prop :=
  is_derive (fun t => fst (g t)) t (fst v) /\ is_derive (fun t => snd (g t)) t (snd v).

Lemma cder_ext g g' t v : (forall s, g s = g' s) -> cder g t v -> cder g' t v.
Proof.
  intros E [A B]. split; [apply (is_derive_ext (fun s => fst (g s)))|apply (is_derive_ext (fun s => snd (g s)))]; auto; intros; rewrite E; auto.
Qed.
Lemma cder_val g t v v' : v = v' -> cder g t v -> cder g t v'.
Proof. intros ->. auto. Qed.
Lemma cder_const c t : cder (fun _ => c) t (RtoC 0).
Proof. split; cbn [fst snd RtoC]; apply @is_derive_const. Qed.
Lemma cder_plus f g t u v : cder f t u -> cder g t v -> cder (fun s => f s + g s)%C t (u + v)%C.
Proof.
  intros [A B] [A' B']. split; cbn [fst snd Cplus].
  - apply (@is_derive_plus R_AbsRing R_NormedModule _ _ t _ _ A A').
  - apply (@is_derive_plus R_AbsRing R_NormedModule _ _ t _ _ B B').
Qed.
Lemma is_derive_mulR (f g : R -> R) (t u v : R) : is_derive f t u -> is_derive g t v ->
  is_derive (fun s => f s * g s) t (u * g t + f t * v).
Proof.
  intros H H'. exact (@is_derive_mult R_AbsRing f g t u v H H' Rmult_comm).
Qed.
Lemma is_derive_minusR (f g : R -> R) (t u v : R) : is_derive f t u -> is_derive g t v ->
  is_derive (fun s => f s - g s) t (u - v).
Proof. intros H H'. exact (@is_derive_minus R_AbsRing R_NormedModule f g t u v H H'). Qed.
Lemma is_derive_plusR (f g : R -> R) (t u v : R) : is_derive f t u -> is_derive g t v ->
  is_derive (fun s => f s + g s) t (u + v).
Proof. intros H H'. exact (@is_derive_plus R_AbsRing R_NormedModule f g t u v H H'). Qed.
Lemma is_derive_val (f : R -> R) (t u u' : R) : u = u' -> is_derive f t u -> is_derive f t u'.
Proof. intros ->. auto. Qed.
Lemma is_derive_compR (f g : R -> R) (t u v : R) : is_derive f (g t) u -> is_derive g t v -> is_derive (fun s => f (g s)) t (v * u).
Proof. intros H H'. exact (is_derive_comp f g t u v H H'). Qed.

Lemma cder_mult f g t u v : cder f t u -> cder g t v -> cder (fun s => f s * g s)%C t (u * g t + f t * v)%C.
Proof.
  intros [A B] [A' B']. split; unfold Cmult, Cplus; cbn [fst snd].
  - eapply is_derive_val; [|exact (is_derive_minusR _ _ t _ _ (is_derive_mulR _ _ t _ _ A A') (is_derive_mulR _ _ t _ _ B B'))]. cbn beta. ring.
  - eapply is_derive_val; [|exact (is_derive_plusR _ _ t _ _ (is_derive_mulR _ _ t _ _ A B') (is_derive_mulR _ _ t _ _ B A'))]. cbn beta. ring.
Qed.
Lemma cder_scal c g t v : cder g t v -> cder (fun s => c * g s)%C t (c * v)%C.
Proof.
  intros H. eapply cder_val; [|exact (cder_mult _ _ t _ _ (cder_const c t) H)]. cbn beta. ring.
Qed.
Lemma cder_minus f g t u v : cder f t u -> cder g t v -> cder (fun s => f s - g s)%C t (u - v)%C.
Proof.
  intros H H'. apply (cder_ext (fun s => f s + (- RtoC 1) * g s)%C); [intros; ring|].
  eapply cder_val; [|exact (cder_plus _ _ t _ _ H (cder_scal (- RtoC 1)%C _ t _ H'))]. ring.
Qed.
Lemma cder_line p z t : cder (fun s => p + RtoC s * z)%C t z.
Proof.
  split; unfold RtoC, Cmult, Cplus; cbn [fst snd]; auto_derive; auto; ring.
Qed.
Lemma cder_ray z t : cder (fun s => RtoC s * z)%C t z.
Proof.
  split; unfold RtoC, Cmult, Cplus; cbn [fst snd]; auto_derive; auto; ring.
Qed.
Lemma cder_pw g t v n : cder g t v -> cder (fun s => Cpw (g s) (S n)) t (RtoC (INR (S n)) * v * Cpw (g t) n)%C.
Proof.
  intros H. induction n.
  - apply (cder_ext g); [intros; rewrite Cpw_S, Cpw_0; ring|]. eapply cder_val; [|exact H]. rewrite Cpw_0. change (INR 1) with 1. ring.
  - apply (cder_ext (fun s => g s * Cpw (g s) (S n))%C); [intros; rewrite (Cpw_S _ (S n)); ring|].
    eapply cder_val; [|exact (cder_mult _ _ t _ _ H IHn)]. rewrite (S_INR (S n)), RtoC_plus, (Cpw_S _ n). ring.
Qed.

(** The mean value inequality. *)
Lemma cder_mvt g v B : (forall t, 0 <= t <= 1 -> cder g t (v t)) -> (forall t, 0 <= t <= 1 -> Cmod (v t) <= B) ->
  Cmod (g 1 - g 0)%C <= 2 * B.
Proof.
  intros D HB. eapply Rle_trans; [apply Cmod_le_sum|].
  assert (E0 : Rmin 0 1 = 0) by (unfold Rmin; destruct (Rle_dec 0 1); lra).
  assert (E1 : Rmax 0 1 = 1) by (unfold Rmax; destruct (Rle_dec 0 1); lra).
  assert (X : Rabs (fst (g 1 - g 0)%C) <= B).
  { destruct (MVT_gen (fun t => fst (g t)) 0 1 (fun t => fst (v t))) as (c & Hc & E); rewrite ?E0, ?E1 in *.
    - intros t Ht. apply D. lra.
    - intros t Ht. apply continuity_pt_filterlim. apply @ex_derive_continuous. eexists. apply D. lra.
    - unfold Cminus, Cplus, Copp. cbn [fst snd]. replace (fst (g 1) + - fst (g 0)) with (fst (v c)) by lra.
      eapply Rle_trans; [apply Cmod_fst|]. apply HB. lra. }
  assert (Y : Rabs (snd (g 1 - g 0)%C) <= B).
  { destruct (MVT_gen (fun t => snd (g t)) 0 1 (fun t => snd (v t))) as (c & Hc & E); rewrite ?E0, ?E1 in *.
    - intros t Ht. apply D. lra.
    - intros t Ht. apply continuity_pt_filterlim. apply @ex_derive_continuous. eexists. apply D. lra.
    - unfold Cminus, Cplus, Copp. cbn [fst snd]. replace (snd (g 1) + - snd (g 0)) with (snd (v c)) by lra.
      eapply Rle_trans; [apply Cmod_snd|]. apply HB. lra. }
  lra.
Qed.

(** ** Expansions *)
Fixpoint cusum (c : nat -> C) (n : nat) (z : C) : C :=
  match n with O => c O | S m => (cusum c m z + c (S m) * Cpw z (S m))%C end.

Definition cuexp (F : C -> C) (p : C) (n : nat) (c : nat -> C) : Prop :=
  exists M d, 0 < d /\ 0 <= M /\ forall z, Cmod z <= d -> Cmod (F (p + z) - cusum c n z)%C <= M * Cmod z ^ S n.

Lemma cusum_0 c z : cusum c 0 z = c O.
Proof. reflexivity. Qed.
Lemma cusum_S c n z : cusum c (S n) z = (cusum c n z + c (S n) * Cpw z (S n))%C.
Proof. reflexivity. Qed.
Lemma cusum_ext c c' n z : (forall i, (i <= n)%nat -> c i = c' i) -> cusum c n z = cusum c' n z.
Proof. induction n; intros H; simpl; [apply H; lia|]. rewrite IHn by (intros; apply H; lia). rewrite H by lia. reflexivity. Qed.
Lemma cusum_at0 c n : cusum c n (RtoC 0) = c O.
Proof. induction n; simpl; auto. rewrite IHn. ring. Qed.
Lemma cusum_plus c c' n z : cusum (fun i => c i + c' i)%C n z = (cusum c n z + cusum c' n z)%C.
Proof. induction n; cbn [cusum]; auto. rewrite IHn. ring. Qed.
Lemma cusum_scale k c n z : cusum (fun i => k * c i)%C n z = (k * cusum c n z)%C.
Proof. induction n; cbn [cusum]; auto. rewrite IHn. ring. Qed.
Lemma cusum_minus c c' n z : cusum (fun i => c i - c' i)%C n z = (cusum c n z - cusum c' n z)%C.
Proof. induction n; cbn [cusum]; auto. rewrite IHn. ring. Qed.
Lemma cusum_shift c n z : cusum c (S n) z = (c O + z * cusum (fun i => c (S i)) n z)%C.
Proof.
  induction n; [cbn [cusum]; rewrite Cpw_S, Cpw_0; ring|].
  rewrite cusum_S, IHn. cbn [cusum]. rewrite (Cpw_S _ (S n)). ring.
Qed.
Lemma cusum_arg c k n z : cusum (fun i => c i * Cpw k i)%C n z = cusum c n (k * z)%C.
Proof.
  induction n; cbn [cusum]; [rewrite Cpw_0; ring|]. rewrite IHn.
  assert (E : Cpw (k * z)%C (S n) = (Cpw k (S n) * Cpw z (S n))%C).
  { exact (kpow_mul (fl:=FieldLawsC) k z (S n)). }
  rewrite E. ring.
Qed.

Lemma cuexp_ext F p n c c' : (forall i, (i <= n)%nat -> c i = c' i) -> cuexp F p n c -> cuexp F p n c'.
Proof.
  intros E (M & d & Hd & HM & H). exists M, d. split; [auto|]. split; [auto|]. intros z Hz.
  rewrite <- (cusum_ext c c') by auto. auto.
Qed.
Lemma cuexp_fun F G p n c : (exists d, 0 < d /\ forall z, Cmod z <= d -> F (p + z)%C = G (p + z)%C) ->
  cuexp F p n c -> cuexp G p n c.
Proof.
  intros (e & He & E) (M & d & Hd & HM & H). exists M, (Rmin d e). split; [apply Rmin_pos; auto|]. split; [auto|].
  intros z Hz. rewrite <- E by (eapply Rle_trans; [exact Hz|apply Rmin_r]). apply H. eapply Rle_trans; [exact Hz|apply Rmin_l].
Qed.
Lemma cuexp_fun_all F G p n c : (forall z, F z = G z) -> cuexp F p n c -> cuexp G p n c.
Proof. intros E. apply cuexp_fun. exists 1. split; [lra|auto]. Qed.
Lemma cuexp_at0 F p n c : cuexp F p n c -> F p = c O.
Proof.
  intros (M & d & Hd & HM & H). specialize (H (RtoC 0)). rewrite Cmod_m0, cusum_at0 in H.
  specialize (H ltac:(lra)). replace (p + RtoC 0)%C with p in H by ring. simpl in H. rewrite Rmult_0_l, Rmult_0_r in H.
  assert (X := Cmod_pos (F p - c O)%C). assert (E : (F p - c O)%C = RtoC 0) by (apply Cmod_eq_0; lra).
  replace (F p) with (F p - c O + c O)%C by ring. rewrite E. ring.
Qed.
Lemma cusum_bound c n : exists M, 0 <= M /\ forall z, Cmod z <= 1 -> Cmod (cusum c n z) <= M.
Proof.
  induction n as [|n (M & HM & H)].
  - exists (Cmod (c O)). split; [apply Cmod_pos|]. intros. simpl. lra.
  - exists (M + Cmod (c (S n))). split; [assert (X := Cmod_pos (c (S n))); lra|]. intros z Hz. rewrite cusum_S.
    eapply Rle_trans; [apply Cmod_triangle|]. apply Rplus_le_compat; auto. rewrite Cmod_mult, Cmod_pw.
    rewrite <- (Rmult_1_r (Cmod (c (S n)))) at 2. apply Rmult_le_compat_l; [apply Cmod_pos|].
    rewrite <- (pow1 (S n)). apply pow_incr. split; [apply Cmod_pos|auto].
Qed.
Lemma cuexp_bounded F p n c : cuexp F p n c -> exists M d, 0 < d /\ 0 <= M /\ forall z, Cmod z <= d -> Cmod (F (p + z)%C) <= M.
Proof.
  intros (M & d & Hd & HM & H). destruct (cusum_bound c n) as (B & HB & Bd).
  exists (M + B), (Rmin d 1). split; [apply Rmin_pos; lra|]. split; [lra|]. intros z Hz.
  assert (X1 : Cmod z <= d) by (eapply Rle_trans; [exact Hz|apply Rmin_l]).
  assert (X2 : Cmod z <= 1) by (eapply Rle_trans; [exact Hz|apply Rmin_r]).
  replace (F (p + z))%C with ((F (p + z) - cusum c n z) + cusum c n z)%C by ring.
  eapply Rle_trans; [apply Cmod_triangle|]. apply Rplus_le_compat; auto.
  eapply Rle_trans; [apply H; auto|]. rewrite <- (Rmult_1_r M) at 2. apply Rmult_le_compat_l; auto.
  rewrite <- (pow1 (S n)). apply pow_incr. split; [apply Cmod_pos|auto].
Qed.
Lemma cuexp_le1 F p n c : cuexp F p (S n) c -> cuexp F p n c.
Proof.
  intros (M & d & Hd & HM & H). exists (M + Cmod (c (S n))), (Rmin d 1).
  split; [apply Rmin_pos; lra|]. split; [assert (X := Cmod_pos (c (S n))); lra|]. intros z Hz.
  assert (X1 : Cmod z <= d) by (eapply Rle_trans; [exact Hz|apply Rmin_l]).
  assert (X2 : Cmod z <= 1) by (eapply Rle_trans; [exact Hz|apply Rmin_r]).
  replace (F (p + z) - cusum c n z)%C with ((F (p + z) - cusum c (S n) z) + c (S n) * Cpw z (S n))%C by (rewrite cusum_S; ring).
  eapply Rle_trans; [apply Cmod_triangle|]. rewrite Rmult_plus_distr_r. apply Rplus_le_compat.
  - eapply Rle_trans; [apply H; auto|]. apply Rmult_le_compat_l; auto.
    change (Cmod z ^ S (S n)) with (Cmod z * Cmod z ^ S n). rewrite <- (Rmult_1_l (Cmod z ^ S n)) at 2.
    apply Rmult_le_compat_r; auto. apply pow_le, Cmod_pos.
  - rewrite Cmod_mult, Cmod_pw. lra.
Qed.
Lemma cuexp_le F p n m c : (n <= m)%nat -> cuexp F p m c -> cuexp F p n c.
Proof. intros L H. induction L; auto. apply IHL, cuexp_le1, H. Qed.

Lemma cuexp_plus F G p n c c' : cuexp F p n c -> cuexp G p n c' -> cuexp (fun z => F z + G z)%C p n (fun i => c i + c' i)%C.
Proof.
  intros (M & d & Hd & HM & H) (M' & d' & Hd' & HM' & H'). exists (M + M'), (Rmin d d').
  split; [apply Rmin_pos; auto|]. split; [lra|]. intros z Hz.
  assert (X1 : Cmod z <= d) by (eapply Rle_trans; [exact Hz|apply Rmin_l]).
  assert (X2 : Cmod z <= d') by (eapply Rle_trans; [exact Hz|apply Rmin_r]).
  rewrite cusum_plus.
  replace (F (p + z) + G (p + z) - (cusum c n z + cusum c' n z))%C with
    ((F (p + z) - cusum c n z) + (G (p + z) - cusum c' n z))%C by ring.
  eapply Rle_trans; [apply Cmod_triangle|]. rewrite Rmult_plus_distr_r. apply Rplus_le_compat; auto.
Qed.
Lemma cuexp_scale k F p n c : cuexp F p n c -> cuexp (fun z => k * F z)%C p n (fun i => k * c i)%C.
Proof.
  intros (M & d & Hd & HM & H). exists (Cmod k * M), d. split; [auto|]. split; [apply Rmult_le_pos; auto; apply Cmod_pos|].
  intros z Hz. rewrite cusum_scale. replace (k * F (p + z) - k * cusum c n z)%C with (k * (F (p + z) - cusum c n z))%C by ring.
  rewrite Cmod_mult, Rmult_assoc. apply Rmult_le_compat_l; [apply Cmod_pos|]. auto.
Qed.
Lemma cuexp_minus F G p n c c' : cuexp F p n c -> cuexp G p n c' -> cuexp (fun z => F z - G z)%C p n (fun i => c i - c' i)%C.
Proof.
  intros H H'. apply (cuexp_fun_all (fun z => F z + (- RtoC 1) * G z)%C); [intros; ring|].
  apply (cuexp_ext _ _ _ (fun i => c i + (- RtoC 1) * c' i)%C); [intros; ring|].
  apply cuexp_plus; auto. apply cuexp_scale; auto.
Qed.
Definition cconst (k : C) (i : nat) : C := match i with O => k | S _ => RtoC 0 end.
Lemma cusum_const k n z : cusum (cconst k) n z = k.
Proof. induction n; simpl; auto. rewrite IHn. ring. Qed.
Lemma cuexp_const k p n : cuexp (fun _ => k) p n (cconst k).
Proof.
  exists 0, 1. split; [lra|]. split; [lra|]. intros z _. rewrite cusum_const.
  replace (k - k)%C with (RtoC 0) by ring. rewrite Cmod_m0. lra.
Qed.
(** F(q + a (z - p)). *)
Lemma cuexp_affine F a q p n c : cuexp F q n c -> cuexp (fun z => F (q + a * (z - p)))%C p n (fun i => c i * Cpw a i)%C.
Proof.
  intros (M & d & Hd & HM & H). assert (Pa := Cmod_pos a).
  assert (P : 0 < d / (Cmod a + 1)) by (apply Rdiv_lt_0_compat; lra).
  exists (M * Cmod a ^ S n), (d / (Cmod a + 1)). split; [auto|].
  split; [apply Rmult_le_pos; auto; apply pow_le; auto|]. intros z Hz.
  assert (Pz := Cmod_pos z). rewrite cusum_arg. replace (q + a * (p + z - p))%C with (q + a * z)%C by ring.
  eapply Rle_trans; [apply H|].
  - rewrite Cmod_mult. apply (Rmult_le_compat_r (Cmod a + 1)) in Hz; [|lra].
    replace (d / (Cmod a + 1) * (Cmod a + 1)) with d in Hz by (field; lra). nra.
  - rewrite Cmod_mult, Rpow_mult_distr. lra.
Qed.

(** Products. *)
Fixpoint csum (f : nat -> C) (n : nat) : C := match n with O => f O | S m => (csum f m + f (S m))%C end.
Lemma csum_ext f g n : (forall i, (i <= n)%nat -> f i = g i) -> csum f n = csum g n.
Proof. induction n; intros H; simpl; [apply H; lia|]. rewrite IHn by (intros; apply H; lia). rewrite H by lia. reflexivity. Qed.
Lemma csum_first f n : csum f (S n) = (f O + csum (fun i => f (S i)) n)%C.
Proof. induction n; [reflexivity|]. change (csum f (S (S n))) with (csum f (S n) + f (S (S n)))%C. rewrite IHn. simpl. ring. Qed.
Definition cconv (a b : nat -> C) (m : nat) : C := csum (fun j => a j * b (m - j)%nat)%C m.
Lemma cconv_S a b m : cconv a b (S m) = (a O * b (S m) + cconv (fun i => a (S i)) b m)%C.
Proof. unfold cconv. rewrite csum_first. f_equal. Qed.

Lemma cusum_mul a b n : exists M, 0 <= M /\ forall z, Cmod z <= 1 ->
  Cmod (cusum a n z * cusum b n z - cusum (cconv a b) n z)%C <= M * Cmod z ^ S n.
Proof.
  revert a. induction n; intros a.
  - exists 0. split; [lra|]. intros z _. rewrite !cusum_0. unfold cconv. simpl.
    replace (a O * b O - a O * b O)%C with (RtoC 0) by ring. rewrite Cmod_m0. lra.
  - set (a' := fun i => a (S i)). destruct (IHn a') as (M & HM & H).
    destruct (cusum_bound a' n) as (Ma & HMa & Ba).
    exists (M + Ma * Cmod (b (S n))).
    split; [apply Rplus_le_le_0_compat; auto; apply Rmult_le_pos; auto; apply Cmod_pos|].
    intros z Hz. rewrite (cusum_shift a). fold a'.
    rewrite (cusum_shift (cconv a b)).
    replace (cusum (fun i => cconv a b (S i)) n z) with (a O * cusum (fun i => b (S i)) n z + cusum (cconv a' b) n z)%C.
    2:{ rewrite <- cusum_scale, <- cusum_plus. apply cusum_ext. intros i _. rewrite cconv_S. reflexivity. }
    replace (cconv a b 0) with (a O * b O)%C by (unfold cconv; simpl; reflexivity).
    replace ((a 0%nat + z * cusum a' n z) * cusum b (S n) z -
      (a 0%nat * b 0%nat + z * (a 0%nat * cusum (fun i => b (S i)) n z + cusum (cconv a' b) n z)))%C
      with (z * (cusum a' n z * cusum b n z - cusum (cconv a' b) n z) + z * cusum a' n z * b (S n) * Cpw z (S n))%C.
    2:{ transitivity (a 0%nat * cusum b (S n) z + z * cusum a' n z * cusum b (S n) z -
          (a 0%nat * (b 0%nat + z * cusum (fun i => b (S i)) n z) + z * cusum (cconv a' b) n z))%C; [|ring].
        rewrite <- (cusum_shift b), cusum_S. ring. }
    eapply Rle_trans; [apply Cmod_triangle|]. rewrite Rmult_plus_distr_r. apply Rplus_le_compat.
    + rewrite Cmod_mult. change (Cmod z ^ S (S n)) with (Cmod z * Cmod z ^ S n).
      replace (M * (Cmod z * Cmod z ^ S n)) with (Cmod z * (M * Cmod z ^ S n)) by ring.
      apply Rmult_le_compat_l; [apply Cmod_pos|]. auto.
    + rewrite !Cmod_mult, Cmod_pw. change (Cmod z ^ S (S n)) with (Cmod z * Cmod z ^ S n).
      replace (Ma * Cmod (b (S n)) * (Cmod z * Cmod z ^ S n)) with (Cmod z * Ma * Cmod (b (S n)) * Cmod z ^ S n) by ring.
      apply Rmult_le_compat_r; [apply pow_le, Cmod_pos|]. apply Rmult_le_compat_r; [apply Cmod_pos|].
      apply Rmult_le_compat_l; [apply Cmod_pos|]. auto.
Qed.

Lemma cuexp_mult F G p n c c' : cuexp F p n c -> cuexp G p n c' -> cuexp (fun x => F x * G x)%C p n (cconv c c').
Proof.
  intros HF HG. destruct (cuexp_bounded _ _ _ _ HG) as (MG & dG & HdG & HMG & BG).
  destruct HF as (M1 & d & Hd & HM1 & H). destruct HG as (M2 & d' & Hd' & HM2 & H').
  destruct (cusum_bound c n) as (Mc & HMc & Bc). destruct (cusum_mul c c' n) as (M & HM & BM).
  exists (M1 * MG + Mc * M2 + M), (Rmin (Rmin d d') (Rmin dG 1)).
  split; [repeat apply Rmin_pos; lra|]. split; [assert (0 <= M1 * MG) by (apply Rmult_le_pos; auto); assert (0 <= Mc * M2) by (apply Rmult_le_pos; auto); lra|].
  intros x Hx.
  assert (X1 : Cmod x <= d) by (eapply Rle_trans; [exact Hx|eapply Rle_trans; [apply Rmin_l|apply Rmin_l]]).
  assert (X2 : Cmod x <= d') by (eapply Rle_trans; [exact Hx|eapply Rle_trans; [apply Rmin_l|apply Rmin_r]]).
  assert (X3 : Cmod x <= dG) by (eapply Rle_trans; [exact Hx|eapply Rle_trans; [apply Rmin_r|apply Rmin_l]]).
  assert (X4 : Cmod x <= 1) by (eapply Rle_trans; [exact Hx|eapply Rle_trans; [apply Rmin_r|apply Rmin_r]]).
  replace (F (p + x) * G (p + x) - cusum (cconv c c') n x)%C with
    ((F (p + x) - cusum c n x) * G (p + x) + cusum c n x * (G (p + x) - cusum c' n x)
     + (cusum c n x * cusum c' n x - cusum (cconv c c') n x))%C by ring.
  assert (P : 0 <= Cmod x ^ S n) by apply pow_le, Cmod_pos.
  eapply Rle_trans; [apply Cmod_triangle|]. rewrite !Rmult_plus_distr_r. apply Rplus_le_compat; [|apply BM; auto].
  eapply Rle_trans; [apply Cmod_triangle|]. apply Rplus_le_compat; rewrite Cmod_mult.
  - replace (M1 * MG * Cmod x ^ S n) with (M1 * Cmod x ^ S n * MG) by ring.
    apply Rmult_le_compat; try apply Cmod_pos; auto.
  - rewrite Rmult_assoc. apply Rmult_le_compat; try apply Cmod_pos; auto.
Qed.

(** Quotients: F = Q G with G not 0 at p. *)
Lemma cuexp_away F p n a : cuexp F p n a -> a O <> RtoC 0 ->
  exists d, 0 < d /\ forall z, Cmod z <= d -> Cmod (a O) / 2 <= Cmod (F (p + z)%C).
Proof.
  intros HF Ha. apply (cuexp_le _ _ 0) in HF; [|lia]. destruct HF as (M & d & Hd & HM & H).
  assert (P : 0 < Cmod (a O)) by (apply Cmod_gt_0; auto).
  exists (Rmin d (Cmod (a O) / (2 * (M + 1)))). split; [apply Rmin_pos; [auto|apply Rdiv_lt_0_compat; lra]|].
  intros x Hx. assert (X1 : Cmod x <= d) by (eapply Rle_trans; [exact Hx|apply Rmin_l]).
  assert (X2 : Cmod x <= Cmod (a O) / (2 * (M + 1))) by (eapply Rle_trans; [exact Hx|apply Rmin_r]).
  specialize (H x X1). rewrite cusum_0 in H. simpl in H. rewrite Rmult_1_r in H.
  assert (E : (M + 1) * (Cmod (a O) / (2 * (M + 1))) = Cmod (a O) / 2) by (field; lra).
  assert (Q : M * Cmod x <= (M + 1) * (Cmod (a O) / (2 * (M + 1)))) by (apply Rmult_le_compat; try apply Cmod_pos; lra).
  assert (T := Cmod_inv_tri (a O) (F (p + x)%C)). rewrite (Cmod_sym (a O)) in T. lra.
Qed.
Lemma cuexp_poly b p n : cuexp (fun z => cusum b n (z - p)%C) p n b.
Proof.
  exists 0, 1. split; [lra|]. split; [lra|]. intros z _. replace (p + z - p)%C with z by ring.
  replace (cusum b n z - cusum b n z)%C with (RtoC 0) by ring. rewrite Cmod_m0. lra.
Qed.
Lemma cuexp_quot F G p n a b c : cuexp F p n a -> cuexp G p n b -> b O <> RtoC 0 ->
  (forall m, (m <= n)%nat -> cconv c b m = a m) -> cuexp (fun x => F x / G x)%C p n c.
Proof.
  intros HF HG Hb Hc. destruct (cuexp_away _ _ _ _ HG Hb) as (dl & Hdl & L).
  assert (HP := cuexp_mult _ _ p n _ _ (cuexp_poly c p n) HG).
  apply (cuexp_ext _ _ _ _ a Hc) in HP. assert (HD := cuexp_minus _ _ p n _ _ HF HP).
  destruct HD as (M & d & Hd & HM & H). assert (P : 0 < Cmod (b O)) by (apply Cmod_gt_0; auto).
  exists (M * (2 / Cmod (b O))), (Rmin d dl). split; [apply Rmin_pos; auto|].
  split; [apply Rmult_le_pos; auto; apply Rlt_le, Rdiv_lt_0_compat; lra|]. intros x Hx.
  assert (X1 : Cmod x <= d) by (eapply Rle_trans; [exact Hx|apply Rmin_l]).
  assert (X2 : Cmod x <= dl) by (eapply Rle_trans; [exact Hx|apply Rmin_r]).
  specialize (H x X1). specialize (L x X2). replace (p + x - p)%C with x in H by ring.
  rewrite cusum_minus in H. replace (cusum a n x - cusum a n x)%C with (RtoC 0) in H by ring.
  assert (Gn : G (p + x)%C <> RtoC 0). { intros E. rewrite E, Cmod_m0 in L. lra. }
  replace (F (p + x) / G (p + x) - cusum c n x)%C with ((F (p + x) - cusum c n x * G (p + x) - RtoC 0) / G (p + x))%C by (field; auto).
  rewrite Cmod_div by auto. unfold Rdiv at 1.
  replace (M * (2 / Cmod (b 0%nat)) * Cmod x ^ S n) with (M * Cmod x ^ S n * (2 / Cmod (b O))) by ring.
  apply Rmult_le_compat; auto using Cmod_pos.
  - left. apply Rinv_0_lt_compat. lra.
  - replace (2 / Cmod (b O)) with (/ (Cmod (b O) / 2)) by (field; lra). apply Rinv_le_contravar; lra.
Qed.

(** Integration along rays. *)
Lemma cder_cusum c n z t : cder (fun s => cusum c (S n) (RtoC s * z)%C) t
  (z * cusum (fun i => RtoC (INR (S i)) * c (S i))%C n (RtoC t * z))%C.
Proof.
  induction n.
  - apply (cder_ext (fun s => c O + c 1%nat * (RtoC s * z))%C); [intros; cbn [cusum]; rewrite Cpw_S, Cpw_0; ring|].
    eapply cder_val; [|exact (cder_plus _ _ t _ _ (cder_const (c O) t) (cder_scal (c 1%nat) _ t _ (cder_ray z t)))].
    cbn [cusum]. change (INR 1) with 1. ring.
  - apply (cder_ext (fun s => cusum c (S n) (RtoC s * z) + c (S (S n)) * Cpw (RtoC s * z) (S (S n)))%C); [intros; reflexivity|].
    eapply cder_val; [|exact (cder_plus _ _ t _ _ IHn (cder_scal (c (S (S n))) _ t _ (cder_pw _ t _ (S n) (cder_ray z t))))].
    rewrite (cusum_S _ n). ring.
Qed.

Definition rayder (F F' : C -> C) (p : C) : Prop :=
  exists d, 0 < d /\ forall z t, Cmod z <= d -> 0 <= t <= 1 -> cder (fun s => F (p + RtoC s * z)%C) t (z * F' (p + RtoC t * z))%C.

Lemma Cmod_ray t z : 0 <= t <= 1 -> Cmod (RtoC t * z)%C <= Cmod z.
Proof.
  intros H. rewrite Cmod_mult, Cmod_R, Rabs_right by lra. assert (X := Cmod_pos z). nra.
Qed.
Lemma ray_end (F : C -> C) p z : F (p + RtoC 1 * z)%C = F (p + z)%C /\ F (p + RtoC 0 * z)%C = F p.
Proof. split; f_equal; ring. Qed.

Lemma cuexp_int F F' p n c : rayder F F' p ->
  cuexp F' p n (fun i => RtoC (INR (S i)) * c (S i))%C -> c O = F p -> cuexp F p (S n) c.
Proof.
  intros (d & Hd & D) (M & d' & Hd' & HM & H) H0.
  exists (2 * M), (Rmin d d'). split; [apply Rmin_pos; auto|]. split; [lra|]. intros z Hz.
  assert (X1 : Cmod z <= d) by (eapply Rle_trans; [exact Hz|apply Rmin_l]).
  assert (X2 : Cmod z <= d') by (eapply Rle_trans; [exact Hz|apply Rmin_r]).
  set (G := fun s => (F (p + RtoC s * z) - cusum c (S n) (RtoC s * z))%C).
  set (v := fun t => (z * (F' (p + RtoC t * z) - cusum (fun i => RtoC (INR (S i)) * c (S i)) n (RtoC t * z)))%C).
  assert (E : (F (p + z) - cusum c (S n) z)%C = (G 1 - G 0)%C).
  { unfold G. replace (RtoC 0 * z)%C with (RtoC 0) by ring. replace (RtoC 1 * z)%C with z by ring.
    rewrite cusum_at0, H0. replace (p + RtoC 0)%C with p by ring. ring. }
  rewrite E, Rmult_assoc. apply (cder_mvt G v).
  - intros t Ht. eapply cder_val; [|exact (cder_minus _ _ t _ _ (D z t X1 Ht) (cder_cusum c n z t))]. unfold v. ring.
  - intros t Ht. unfold v. rewrite Cmod_mult. assert (Lt := Cmod_ray t z Ht).
    change (Cmod z ^ S (S n)) with (Cmod z * Cmod z ^ S n).
    replace (M * (Cmod z * Cmod z ^ S n)) with (Cmod z * (M * Cmod z ^ S n)) by ring.
    apply Rmult_le_compat_l; [apply Cmod_pos|]. eapply Rle_trans; [apply H; lra|].
    apply Rmult_le_compat_l; auto. apply pow_incr. split; [apply Cmod_pos|auto].
Qed.
Lemma cuexp_int0 F F' p c : rayder F F' p ->
  (exists M d, 0 < d /\ 0 <= M /\ forall z, Cmod z <= d -> Cmod (F' (p + z)%C) <= M) -> c O = F p -> cuexp F p 0 c.
Proof.
  intros (d & Hd & D) (M & d' & Hd' & HM & H) H0.
  exists (2 * M), (Rmin d d'). split; [apply Rmin_pos; auto|]. split; [lra|]. intros z Hz.
  assert (X1 : Cmod z <= d) by (eapply Rle_trans; [exact Hz|apply Rmin_l]).
  assert (X2 : Cmod z <= d') by (eapply Rle_trans; [exact Hz|apply Rmin_r]).
  set (G := fun s => F (p + RtoC s * z)%C). set (v := fun t => (z * F' (p + RtoC t * z))%C).
  assert (E : (F (p + z) - cusum c 0 z)%C = (G 1 - G 0)%C).
  { unfold G. rewrite (proj1 (ray_end F p z)), (proj2 (ray_end F p z)), cusum_0, H0. reflexivity. }
  rewrite E, pow_1, Rmult_assoc. apply (cder_mvt G v).
  - intros t Ht. exact (D z t X1 Ht).
  - intros t Ht. unfold v. rewrite Cmod_mult, Rmult_comm. apply Rmult_le_compat_r; [apply Cmod_pos|].
    apply H. eapply Rle_trans; [apply Cmod_ray; auto|auto].
Qed.
