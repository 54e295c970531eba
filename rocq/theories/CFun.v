(** * The complex elementary functions: identities, derivatives, expansions (proof file). *)

From Coq Require Import Reals Lra Lia Psatz List ZArith Arith.
From Coquelicot Require Import Coquelicot.
From Verif Require Import Ops Functions FunAlg GdualFacts ElemR Uni UniFun UniFun2 Cplx CUni.
Import ListNotations.
Open Scope R_scope.

Lemma Ceq_iff (a b : C) : fst a = fst b -> snd a = snd b -> a = b.
Proof. destruct a, b. simpl. congruence. Qed.
Lemma C_neq0 (z : C) : z <> RtoC 0 <-> 0 < fst z * fst z + snd z * snd z.
Proof.
  destruct z as [a b]. cbn [fst snd]. split.
  - intros H. destruct (Req_dec a 0) as [->|Ha]; [destruct (Req_dec b 0) as [->|Hb]|].
    + exfalso. apply H. reflexivity.
    + nra.
    + nra.
  - intros H E. inversion E. subst. lra.
Qed.
Lemma Cmod_sq z : Cmod z * Cmod z = fst z * fst z + snd z * snd z.
Proof.
  unfold Cmod. rewrite sqrt_sqrt; [ring|]. nra.
Qed.
Lemma Cinv_eq z : Cinv z = (fst z / (fst z * fst z + snd z * snd z), - snd z / (fst z * fst z + snd z * snd z)).
Proof. unfold Cinv. f_equal; f_equal; ring. Qed.

(** ** exp, log, arg *)
Lemma Ropp_eq_reg' a b : - a = - b -> a = b.
Proof. lra. Qed.
Lemma Cexp_add a b : Cexp (a + b)%C = (Cexp a * Cexp b)%C.
Proof.
  unfold Cexp, Cplus, Cmult; cbn [fst snd]. rewrite exp_plus, cos_plus, sin_plus. apply Ceq_iff; cbn [fst snd]; ring.
Qed.
Lemma Cexp_0 : Cexp (RtoC 0) = RtoC 1.
Proof. unfold Cexp, RtoC; cbn [fst snd]. rewrite exp_0, cos_0, sin_0. apply Ceq_iff; cbn [fst snd]; ring. Qed.
Lemma Cexp_neg a : (Cexp a * Cexp (- a))%C = RtoC 1.
Proof. rewrite <- Cexp_add. replace (a + - a)%C with (RtoC 0) by ring. apply Cexp_0. Qed.
Lemma Cexp_neq0 a : Cexp a <> RtoC 0.
Proof.
  intros E. assert (H := Cexp_neg a). rewrite E in H. replace (RtoC 0 * Cexp (- a))%C with (RtoC 0) in H by ring.
  apply RtoC_inj in H. lra.
Qed.
Lemma Cexp_opp a : Cexp (- a)%C = (/ Cexp a)%C.
Proof.
  assert (H := Cexp_neg a). assert (N := Cexp_neq0 a).
  transitivity (/ Cexp a * (Cexp a * Cexp (- a)))%C; [field; auto|]. rewrite H. ring.
Qed.
Lemma Cexp_sub a b : Cexp (a - b)%C = (Cexp a / Cexp b)%C.
Proof. unfold Cminus. rewrite Cexp_add, Cexp_opp. reflexivity. Qed.

Lemma sqrt_1px2 x : 0 < sqrt (1 + x ^ 2).
Proof. apply sqrt_lt_R0. nra. Qed.
Lemma cos_atan' x : cos (atan x) = 1 / sqrt (1 + x ^ 2).
Proof. rewrite cos_atan. unfold Rsqr. replace (x * x) with (x ^ 2) by ring. reflexivity. Qed.
Lemma sin_atan' x : sin (atan x) = x / sqrt (1 + x ^ 2).
Proof. rewrite sin_atan. unfold Rsqr. replace (x * x) with (x ^ 2) by ring. reflexivity. Qed.

Lemma polar_aux u v : 0 < v -> sqrt (u * u + v * v) = v * sqrt (1 + (u / v) ^ 2).
Proof.
  intros H. rewrite <- (sqrt_square v) at 3 by lra. rewrite <- sqrt_mult by (try nra; assert (0 <= (u / v) ^ 2) by nra; lra).
  f_equal. field. lra.
Qed.
Lemma Cmod_sqrt z : Cmod z = sqrt (fst z * fst z + snd z * snd z).
Proof. unfold Cmod. f_equal. ring. Qed.

Lemma Carg_polar z : z <> RtoC 0 -> Cmod z * cos (Carg z) = fst z /\ Cmod z * sin (Carg z) = snd z.
Proof.
  intros Hz. destruct z as [x y]. rewrite Cmod_sqrt. unfold Carg. cbn [fst snd] in *.
  assert (A : forall u v, 0 < v -> sqrt (u * u + v * v) * (1 / sqrt (1 + (u / v) ^ 2)) = v /\
    sqrt (u * u + v * v) * ((u / v) / sqrt (1 + (u / v) ^ 2)) = u).
  { intros u v Hv. rewrite polar_aux by auto. assert (S := sqrt_1px2 (u / v)). split; field; lra. }
  destruct (Rlt_dec 0 x) as [H|H].
  - rewrite cos_atan', sin_atan'. destruct (A y x H) as [A1 A2]. rewrite (Rplus_comm (x * x)). auto.
  - destruct (Rlt_dec 0 y) as [H1|H1].
    + rewrite cos_shift, sin_shift, cos_atan', sin_atan'. destruct (A x y H1) as [A1 A2]. auto.
    + destruct (Rlt_dec y 0) as [H2|H2].
      * replace (- (PI / 2) - atan (x / y)) with (- (PI / 2 + atan (x / y))) by ring.
        rewrite cos_neg, sin_neg, cos_plus, sin_plus, cos_PI2, sin_PI2, cos_atan', sin_atan'.
        destruct (A x (- y) ltac:(lra)) as [A1 A2]. replace (- y * - y) with (y * y) in * by ring.
        replace (x / - y) with (- (x / y)) in * by (field; lra). replace ((- (x / y)) ^ 2) with ((x / y) ^ 2) in * by ring.
        assert (S := sqrt_1px2 (x / y)). split.
        -- etransitivity; [|exact A2]. field. split; lra.
        -- apply Ropp_eq_reg'. rewrite <- A1. field. lra.
      * assert (y = 0) by lra. subst y. assert (Hx : x <> 0) by (intros ->; apply Hz; reflexivity).
        destruct (Rlt_dec x 0) as [H3|H3]; [|lra]. rewrite cos_PI, sin_PI.
        replace (x * x + 0 * 0) with (- x * - x) by ring. rewrite sqrt_square by lra. lra.
Qed.
Lemma Cmod_pos0 z : z <> RtoC 0 -> 0 < Cmod z.
Proof. intros H. apply Cmod_gt_0, H. Qed.
Lemma Cexp_log z : z <> RtoC 0 -> Cexp (Clog z) = z.
Proof.
  intros Hz. unfold Cexp, Clog; cbn [fst snd]. rewrite exp_ln by (apply Cmod_pos0; auto).
  destruct (Carg_polar z Hz) as [A B]. apply Ceq_iff; auto.
Qed.
Lemma Csqrt_exp z : z <> RtoC 0 -> Csqrt z = Cexp (RtoC (1 / 2) * Clog z)%C.
Proof.
  intros Hz. assert (P := Cmod_pos0 z Hz).
  unfold Csqrt, Cexp, Clog, RtoC, Cmult; cbn [fst snd].
  replace (1 / 2 * ln (Cmod z) - 0 * Carg z) with (/ 2 * ln (Cmod z)) by field.
  replace (1 / 2 * Carg z + 0 * ln (Cmod z)) with (Carg z / 2) by field.
  fold (Rpower (Cmod z) (/ 2)). rewrite Rpower_sqrt by auto. reflexivity.
Qed.
Lemma Ceqb_neq z : z <> RtoC 0 -> Ceqb z (RtoC 0) = false.
Proof. intros H. destruct (Ceqb z (RtoC 0)) eqn:E; auto. apply Ceqb_eq in E. contradiction. Qed.
Lemma Cpower_exp z w : z <> RtoC 0 -> Cpower z w = Cexp (w * Clog z)%C.
Proof. intros H. unfold Cpower. rewrite Ceqb_neq by auto. reflexivity. Qed.

(** The functions written with exp. *)
Lemma Ci_sq : (Ci * Ci)%C = (- RtoC 1)%C.
Proof. apply Ceq_iff; cbn [fst snd Cmult Ci Copp RtoC]; ring. Qed.
Lemma sinh_cosh_exp x : sinh x = (exp x - exp (- x)) / 2 /\ cosh x = (exp x + exp (- x)) / 2.
Proof. split; reflexivity. Qed.
Ltac csplit := apply Ceq_iff; unfold Cexp, Csin, Ccos, Csinh, Ccosh, Cdiv, Cminus, Cmult, Cplus, Copp, Ci, RtoC; cbn [fst snd];
  rewrite ?cos_neg, ?sin_neg; unfold sinh, cosh.
Lemma Cexp_i z : Cexp (Ci * z)%C = (Ccos z + Ci * Csin z)%C.
Proof.
  apply Ceq_iff; unfold Cexp, Csin, Ccos, Cmult, Cplus, Ci; cbn [fst snd].
  - replace (0 * fst z - 1 * snd z) with (- snd z) by ring. replace (0 * snd z + 1 * fst z) with (fst z) by ring.
    unfold sinh, cosh. field.
  - replace (0 * fst z - 1 * snd z) with (- snd z) by ring. replace (0 * snd z + 1 * fst z) with (fst z) by ring.
    unfold sinh, cosh. field.
Qed.
Lemma Cexp_im z : Cexp (- Ci * z)%C = (Ccos z - Ci * Csin z)%C.
Proof.
  apply Ceq_iff; unfold Cexp, Csin, Ccos, Cmult, Cminus, Cplus, Copp, Ci; cbn [fst snd].
  - replace (- 0 * fst z - - (1) * snd z) with (snd z) by ring. replace (- 0 * snd z + - (1) * fst z) with (- fst z) by ring.
    rewrite cos_neg. unfold sinh, cosh. field.
  - replace (- 0 * fst z - - (1) * snd z) with (snd z) by ring. replace (- 0 * snd z + - (1) * fst z) with (- fst z) by ring.
    rewrite sin_neg. unfold sinh, cosh. field.
Qed.
Lemma Cexp_pm z : Cexp z = (Ccosh z + Csinh z)%C.
Proof.
  apply Ceq_iff; unfold Cexp, Csinh, Ccosh, Cplus; cbn [fst snd]; unfold sinh, cosh; field.
Qed.
Lemma Cexp_mm z : Cexp (- z)%C = (Ccosh z - Csinh z)%C.
Proof.
  apply Ceq_iff; unfold Cexp, Csinh, Ccosh, Cminus, Cplus, Copp; cbn [fst snd]; rewrite ?cos_neg, ?sin_neg; unfold sinh, cosh; field.
Qed.

(** ** Derivatives *)
Section curve.
Variables (a b : R -> R) (t u v : R).
Hypotheses (A : is_derive a t u) (B : is_derive b t v).
Lemma curve_ex : ex_derive a t /\ ex_derive b t.
Proof. split; eexists; eauto. Qed.
Lemma curve_D : Derive (fun x => a x) t = u /\ Derive (fun x => b x) t = v.
Proof. split; apply is_derive_unique; auto. Qed.
Ltac go := destruct curve_ex as [Xa Xb]; destruct curve_D as [Ea Eb]; auto_derive; [|rewrite ?Ea, ?Eb].

Lemma d_expcos : is_derive (fun s => exp (a s) * cos (b s)) t (u * (exp (a t) * cos (b t)) - v * (exp (a t) * sin (b t))).
Proof. go; [auto|ring]. Qed.
Lemma d_expsin : is_derive (fun s => exp (a s) * sin (b s)) t (u * (exp (a t) * sin (b t)) + v * (exp (a t) * cos (b t))).
Proof. go; [auto|ring]. Qed.
Lemma d_lnmod : 0 < a t * a t + b t * b t ->
  is_derive (fun s => ln (sqrt (a s * a s + b s * b s))) t ((u * a t + v * b t) / (a t * a t + b t * b t)).
Proof.
  intros H. assert (Sq := sqrt_lt_R0 _ H). assert (Sqq := sqrt_sqrt _ (Rlt_le _ _ H)). go; [repeat split; auto|].
  set (q := a t * a t + b t * b t) in *. set (r := sqrt q) in *. clearbody r. rewrite <- Sqq. field. lra.
Qed.
Lemma d_arg1 : 0 < a t -> is_derive (fun s => atan (b s / a s)) t ((v * a t - u * b t) / (a t * a t + b t * b t)).
Proof. intros H. go; [repeat split; auto; lra|]. field. repeat split; try lra; nra. Qed.
Lemma d_arg2 k : b t <> 0 -> is_derive (fun s => k - atan (a s / b s)) t ((v * a t - u * b t) / (a t * a t + b t * b t)).
Proof. intros H. go; [repeat split; auto; lra|]. field. repeat split; try lra; nra. Qed.
End curve.

Lemma cder_exp H t v : cder H t v -> cder (fun s => Cexp (H s)) t (v * Cexp (H t))%C.
Proof.
  intros [A B]. split.
  - exact (d_expcos _ _ _ _ _ A B).
  - exact (d_expsin _ _ _ _ _ A B).
Qed.

(** Off the branch cut of log. *)
Definition nocut (z : C) : Prop := 0 < fst z \/ snd z <> 0.
Lemma nocut_neq0 z : nocut z -> z <> RtoC 0.
Proof. intros [H|H]; apply C_neq0; nra. Qed.

Lemma Carg_right z : 0 < fst z -> Carg z = atan (snd z / fst z).
Proof. intros H. unfold Carg. destruct (Rlt_dec 0 (fst z)); [reflexivity|lra]. Qed.
Lemma atan_recip x : 0 < x -> atan (/ x) = PI / 2 - atan x.
Proof. intros H. apply atan_inv. auto. Qed.
Lemma Carg_up z : 0 < snd z -> Carg z = PI / 2 - atan (fst z / snd z).
Proof.
  intros H. unfold Carg. destruct (Rlt_dec 0 (fst z)) as [L|L].
  - rewrite <- atan_recip by (apply Rdiv_lt_0_compat; lra). f_equal. field. lra.
  - destruct (Rlt_dec 0 (snd z)); [reflexivity|lra].
Qed.
Lemma Carg_down z : snd z < 0 -> Carg z = - (PI / 2) - atan (fst z / snd z).
Proof.
  intros H. unfold Carg. destruct (Rlt_dec 0 (fst z)) as [L|L].
  - replace (fst z / snd z) with (- (fst z / - snd z)) by (field; lra). rewrite atan_opp.
    assert (P : 0 < fst z / - snd z) by (apply Rdiv_lt_0_compat; lra).
    replace (snd z / fst z) with (- / (fst z / - snd z)) by (field; lra). rewrite atan_opp, atan_recip by auto. ring.
  - destruct (Rlt_dec 0 (snd z)); [lra|]. destruct (Rlt_dec (snd z) 0); [reflexivity|lra].
Qed.

Lemma near_gt (f : R -> R) t : ex_derive f t -> 0 < f t -> locally t (fun s => 0 < f s).
Proof.
  intros D H. apply @ex_derive_continuous in D.
  apply (D (fun y => 0 < y)). exists (mkposreal (f t) H). intros y Hy.
  assert (B : Rabs (y - f t) < f t) by exact Hy. apply Rabs_lt_between in B. lra.
Qed.

Lemma cder_log H t v : cder H t v -> nocut (H t) -> cder (fun s => Clog (H s)) t (v / H t)%C.
Proof.
  intros [A B] Hc. assert (Hz := nocut_neq0 _ Hc). apply C_neq0 in Hz.
  assert (E : (v / H t)%C = ((fst v * fst (H t) + snd v * snd (H t)) / (fst (H t) * fst (H t) + snd (H t) * snd (H t)),
                             (snd v * fst (H t) - fst v * snd (H t)) / (fst (H t) * fst (H t) + snd (H t) * snd (H t)))).
  { unfold Cdiv. rewrite Cinv_eq. apply Ceq_iff; cbn [fst snd Cmult]; field; lra. }
  assert (Xa : ex_derive (fun s => fst (H s)) t) by (eexists; exact A).
  assert (Xb : ex_derive (fun s => snd (H s)) t) by (eexists; exact B).
  rewrite E. split; cbn [fst snd Clog].
  - apply (is_derive_ext (fun s => ln (sqrt (fst (H s) * fst (H s) + snd (H s) * snd (H s))))).
    + intros s. rewrite Cmod_sqrt. reflexivity.
    + exact (d_lnmod (fun s => fst (H s)) (fun s => snd (H s)) t _ _ A B Hz).
  - destruct (Rlt_dec 0 (fst (H t))) as [Ha|Ha].
    + apply (is_derive_ext_loc (fun s => atan (snd (H s) / fst (H s)))).
      * apply (filter_imp (fun s => 0 < fst (H s))); [|apply near_gt; auto].
        intros s Hs. rewrite Carg_right; auto.
      * exact (d_arg1 (fun s => fst (H s)) (fun s => snd (H s)) t _ _ A B Ha).
    + destruct (Rlt_dec 0 (snd (H t))) as [Hb|Hb].
      * apply (is_derive_ext_loc (fun s => PI / 2 - atan (fst (H s) / snd (H s)))).
        -- apply (filter_imp (fun s => 0 < snd (H s))); [|apply near_gt; auto].
           intros s Hs. rewrite Carg_up; auto.
        -- apply (d_arg2 (fun s => fst (H s)) (fun s => snd (H s)) t _ _ A B (PI / 2)). lra.
      * assert (Hb' : snd (H t) < 0) by (destruct Hc; lra).
        apply (is_derive_ext_loc (fun s => - (PI / 2) - atan (fst (H s) / snd (H s)))).
        -- apply (filter_imp (fun s => 0 < - snd (H s))); [|apply (near_gt (fun s => - snd (H s))); [|lra]].
           ++ intros s Hs. rewrite Carg_down; auto. lra.
           ++ eexists. apply (is_derive_opp (fun s => snd (H s))). exact B.
        -- apply (d_arg2 (fun s => fst (H s)) (fun s => snd (H s)) t _ _ A B (- (PI / 2))). lra.
Qed.

(** ** From the generic operations to the complex numbers *)
Lemma kofnat_C n : (kofnat n : C) = RtoC (INR n).
Proof. unfold kofnat. cbn. unfold CofZ. f_equal. symmetry. apply INR_IZR_INZ. Qed.
Lemma kpow_RtoC (x : R) n : kpow (RtoC x) n = RtoC (x ^ n).
Proof. induction n; [reflexivity|]. cbn [kpow pow]. rewrite IHn. cbn [kmul OpsC]. symmetry. apply RtoC_mult. Qed.
Lemma kfct_C n : (kfct n : C) = RtoC (INR (fact n)).
Proof. apply kofnat_C. Qed.
Lemma alt_C n : (alt n : C) = RtoC ((-1) ^ n).
Proof. unfold alt. change (@kopp C OpsC (@k1 C OpsC)) with (- RtoC 1)%C. rewrite <- RtoC_opp. apply kpow_RtoC. Qed.
Lemma RtoC_neq0 x : x <> 0 -> RtoC x <> RtoC 0.
Proof. intros H E. apply H, RtoC_inj, E. Qed.
Lemma Cnat_neq0 n : RtoC (INR (S n)) <> RtoC 0.
Proof. apply RtoC_neq0, not_0_INR. lia. Qed.
Lemma Cfact_neq0 n : RtoC (INR (fact n)) <> RtoC 0.
Proof. apply RtoC_neq0, INR_fact_neq_0. Qed.
Lemma Cpw_neq0 z n : z <> RtoC 0 -> Cpw z n <> RtoC 0.
Proof.
  intros H. induction n; [rewrite Cpw_0; apply RtoC_neq0; lra|]. rewrite Cpw_S. apply Cmult_neq_0; auto.
Qed.
Lemma RtoC_fact_S n : RtoC (INR (fact (S n))) = (RtoC (INR (S n)) * RtoC (INR (fact n)))%C.
Proof. rewrite fact_simpl, mult_INR. apply RtoC_mult. Qed.

Ltac toC := repeat match goal with
  | |- context [@kofnat C ?o ?n] => rewrite (kofnat_C n)
  | |- context [@kfct C ?o ?n] => rewrite (kfct_C n)
  | |- context [@alt C ?o ?n] => rewrite (alt_C n)
  end; cbn [kadd ksub kmul kdiv k0 k1 kopp OpsC].

(** ** Rays *)
Lemma rayder_all F F' p : (forall H t v, cder H t v -> cder (fun s => F (H s)) t (v * F' (H t))%C) -> rayder F F' p.
Proof.
  intros D. exists 1. split; [lra|]. intros z t _ _. apply (D (fun s => p + RtoC s * z)%C t z). apply cder_line.
Qed.
Lemma rayder_on (U : C -> Prop) F F' p : (exists d, 0 < d /\ forall z, Cmod z <= d -> U (p + z)%C) ->
  (forall H t v, cder H t v -> U (H t) -> cder (fun s => F (H s)) t (v * F' (H t))%C) -> rayder F F' p.
Proof.
  intros (d & Hd & N) D. exists d. split; auto. intros z t Hz Ht.
  apply (D (fun s => p + RtoC s * z)%C t z).
  - apply cder_line.
  - apply N. eapply Rle_trans; [apply Cmod_ray; auto|auto].
Qed.
Lemma nocut_near p : nocut p -> exists d, 0 < d /\ forall z, Cmod z <= d -> nocut (p + z)%C.
Proof.
  intros [H|H].
  - exists (fst p / 2). split; [lra|]. intros z Hz. left. cbn [Cplus fst].
    assert (A := Cmod_fst z). assert (B : Rabs (fst z) <= fst p / 2) by lra. apply Rabs_le_between in B. lra.
  - assert (P : 0 < Rabs (snd p)) by (apply Rabs_pos_lt; auto).
    exists (Rabs (snd p) / 2). split; [lra|]. intros z Hz. right. cbn [Cplus snd]. intros E.
    assert (A := Cmod_snd z). assert (snd p = - snd z) by lra. rewrite H0, Rabs_Ropp in *. lra.
Qed.
Lemma neq0_near p : p <> RtoC 0 -> exists d, 0 < d /\ forall z, Cmod z <= d -> (p + z)%C <> RtoC 0.
Proof.
  intros H. assert (P := Cmod_pos0 p H). exists (Cmod p / 2). split; [lra|]. intros z Hz E.
  assert (X : p = (- z)%C). { transitivity ((p + z) - z)%C; [ring|]. rewrite E. ring. }
  rewrite X, Cmod_opp in *. lra.
Qed.

(** ** exp *)
Lemma Cexp_bounded p : exists M d, 0 < d /\ 0 <= M /\ forall z, Cmod z <= d -> Cmod (Cexp (p + z)%C) <= M.
Proof.
  exists (2 * exp (fst p + 1)), 1. split; [lra|]. assert (P := exp_pos (fst p + 1)). split; [lra|]. intros z Hz.
  eapply Rle_trans; [apply Cmod_le_sum|]. unfold Cexp; cbn [fst snd].
  assert (A := Cmod_fst z). assert (B : Rabs (fst z) <= 1) by lra. apply Rabs_le_between in B.
  assert (E : exp (fst p + fst z) <= exp (fst p + 1)).
  { destruct (Req_dec (fst z) 1) as [->|N]; [lra|]. left. apply exp_increasing. lra. }
  cbn [Cplus fst snd]. set (s := snd p + snd z).
  assert (Q := exp_pos (fst p + fst z)).
  assert (Cb := COS_bound s). assert (Sb := SIN_bound s).
  rewrite !Rabs_mult, (Rabs_right (exp (fst p + fst z))) by lra.
  assert (C1 : Rabs (cos s) <= 1) by (apply Rabs_le; lra). assert (S1 : Rabs (sin s) <= 1) by (apply Rabs_le; lra).
  assert (exp (fst p + fst z) * Rabs (cos s) <= exp (fst p + fst z) * 1) by (apply Rmult_le_compat_l; lra).
  assert (exp (fst p + fst z) * Rabs (sin s) <= exp (fst p + fst z) * 1) by (apply Rmult_le_compat_l; lra). lra.
Qed.
Lemma rayder_exp p : rayder Cexp Cexp p.
Proof. apply rayder_all. intros H t v D. apply cder_exp. auto. Qed.
Lemma cuexp_exp p n : cuexp Cexp p n (fun i => Cexp p / RtoC (INR (fact i)))%C.
Proof.
  induction n.
  - apply (cuexp_int0 Cexp Cexp); [apply rayder_exp|apply Cexp_bounded|]. cbn [fact]. change (INR 1) with 1. field.
    apply RtoC_neq0. lra.
  - apply (cuexp_int Cexp Cexp); [apply rayder_exp| |].
    + apply (cuexp_ext _ _ _ (fun i => Cexp p / RtoC (INR (fact i)))%C); auto.
      intros i _. rewrite RtoC_fact_S. field. split; [apply Cfact_neq0|apply Cnat_neq0].
    + cbn [fact]. change (INR 1) with 1. field. apply RtoC_neq0. lra.
Qed.

(** ** Inverse *)
Lemma cuexp_id p n : cuexp (fun z => z) p n (fun i => match i with O => p | S O => RtoC 1 | _ => RtoC 0 end).
Proof.
  set (c := fun i => match i with O => p | S O => RtoC 1 | _ => RtoC 0 end).
  assert (E : forall m z, cusum c (S m) z = (p + z)%C).
  { induction m; intros z; [rewrite cusum_S, cusum_0, Cpw_S, Cpw_0; simpl; ring|]. rewrite cusum_S, IHm. unfold c. ring. }
  apply (cuexp_le _ _ n (S n)); [lia|]. exists 0, 1. split; [lra|]. split; [lra|]. intros z _.
  rewrite E. replace (p + z - (p + z))%C with (RtoC 0) by ring. rewrite Cmod_m0. lra.
Qed.
Lemma csum_0 f n : (forall i, f i = RtoC 0) -> csum f n = RtoC 0.
Proof. intros H. induction n; cbn [csum]; rewrite ?IHn, !H; [reflexivity|ring]. Qed.
Lemma cconv_unit_geom a m : a <> RtoC 0 ->
  cconv (fun i => RtoC ((-1) ^ i) / Cpw a (S i))%C (fun i => match i with O => a | S O => RtoC 1 | _ => RtoC 0 end) m = cconst (RtoC 1) m.
Proof.
  intros Ha.
  assert (G : forall f m, cconv f (fun i => match i with O => a | S O => RtoC 1 | _ => RtoC 0 end) (S m) = (f m + f (S m) * a)%C).
  { clear m. intros f m. unfold cconv. cbn [csum]. rewrite Nat.sub_diag. f_equal.
    destruct m as [|m]; [cbn [csum]; cbn [Nat.sub]; ring|]. cbn [csum]. replace (S (S m) - S m)%nat with 1%nat by lia.
    rewrite (csum_ext _ (fun _ => RtoC 0)).
    - rewrite csum_0 by auto. ring.
    - intros i Hi. replace (S (S m) - i)%nat with (S (S (m - i))) by lia. ring. }
  destruct m as [|m].
  - unfold cconv. cbn [csum Nat.sub cconst]. rewrite Cpw_S, Cpw_0. cbn [pow]. field. auto.
  - rewrite G. cbn [cconst]. rewrite (Cpw_S a (S m)). assert (X := Cpw_neq0 a (S m) Ha).
    replace ((-1) ^ S m) with (- (-1) ^ m) by (cbn [pow]; ring). rewrite RtoC_opp. field. auto.
Qed.
Lemma cuexp_inv F p n a c : cuexp F p n a -> a O <> RtoC 0 ->
  (forall m, (m <= n)%nat -> cconv c a m = cconst (RtoC 1) m) -> cuexp (fun z => / F z)%C p n c.
Proof.
  intros H H0 E. apply (cuexp_fun_all (fun z => RtoC 1 / F z)%C); [intros; unfold Cdiv; ring|].
  eapply (cuexp_quot (fun _ => RtoC 1) F p n (cconst (RtoC 1)) a c); auto. apply cuexp_const.
Qed.
Lemma cuexp_Cinv p n : p <> RtoC 0 -> cuexp Cinv p n (fun i => RtoC ((-1) ^ i) / Cpw p (S i))%C.
Proof.
  intros Hp. apply (cuexp_inv (fun z => z) p n (fun i => match i with O => p | S O => RtoC 1 | _ => RtoC 0 end)).
  - apply cuexp_id.
  - auto.
  - intros m _. apply cconv_unit_geom; auto.
Qed.

(** ** log *)
Lemma rayder_log p : nocut p -> rayder Clog Cinv p.
Proof. intros H. apply (rayder_on nocut); [apply nocut_near; auto|]. intros G t v D U. apply cder_log; auto. Qed.
Lemma cuexp_log p n : nocut p -> cuexp Clog p n (logc p).
Proof.
  intros Hp. assert (Hz := nocut_neq0 p Hp). apply (cuexp_le _ _ n (S n)); [lia|].
  apply (cuexp_int Clog Cinv); [apply rayder_log; auto| |reflexivity].
  apply (cuexp_ext _ _ _ (fun i => RtoC ((-1) ^ i) / Cpw p (S i))%C); [|apply cuexp_Cinv; auto].
  intros i _. cbn [logc]. toC. assert (X := Cpw_neq0 p (S i) Hz). field. split; auto. apply Cnat_neq0.
Qed.

(** ** Powers *)
Lemma gbin_C (a : C) i : gbin a (S i) = (gbin a i * (a - RtoC (INR i)) / RtoC (INR (S i)))%C.
Proof. cbn [gbin]. toC. reflexivity. Qed.
Lemma gbin_C0 (a : C) : gbin a 0 = RtoC 1.
Proof. reflexivity. Qed.
Lemma RtoC_S n : RtoC (INR (S n)) = (RtoC (INR n) + RtoC 1)%C.
Proof. rewrite S_INR, RtoC_plus. reflexivity. Qed.
Lemma gbin_diffC (a : C) i : (RtoC (INR (S i)) * gbin a (S i) = a * gbin (a - RtoC 1) i)%C.
Proof.
  induction i.
  - rewrite gbin_C, !gbin_C0. change (INR 0) with 0. change (INR 1) with 1. field. apply RtoC_neq0. lra.
  - assert (X := Cnat_neq0 i). assert (Y := Cnat_neq0 (S i)).
    rewrite gbin_C. replace (RtoC (INR (S (S i))) * (gbin a (S i) * (a - RtoC (INR (S i))) / RtoC (INR (S (S i)))))%C
      with ((RtoC (INR (S i)) * gbin a (S i)) * (a - RtoC (INR (S i))) / RtoC (INR (S i)))%C by (field; auto).
    rewrite IHi, (gbin_C (a - RtoC 1)%C). rewrite RtoC_S in *. field. auto.
Qed.
Lemma Cpower_sub z a b : z <> RtoC 0 -> Cpower z (a - b)%C = (Cpower z a / Cpower z b)%C.
Proof.
  intros H. rewrite !Cpower_exp by auto. rewrite <- Cexp_sub. f_equal. ring.
Qed.
Lemma Cpower_1 z : z <> RtoC 0 -> Cpower z (RtoC 1) = z.
Proof. intros H. rewrite Cpower_exp, Cmult_1_l by auto. apply Cexp_log; auto. Qed.
Lemma Cpower_0 z : z <> RtoC 0 -> Cpower z (RtoC 0) = RtoC 1.
Proof. intros H. rewrite Cpower_exp by auto. rewrite Cmult_0_l. apply Cexp_0. Qed.
Lemma Cpower_nat z n : z <> RtoC 0 -> Cpower z (RtoC (INR n)) = Cpw z n.
Proof.
  intros H. induction n.
  - rewrite Cpw_0. apply Cpower_0; auto.
  - rewrite Cpw_S, <- IHn, RtoC_S. rewrite <- (Cpower_1 z) at 2 by auto. rewrite !Cpower_exp by auto. rewrite <- Cexp_add.
    f_equal. ring.
Qed.
Lemma cder_power a H t v : cder H t v -> nocut (H t) ->
  cder (fun s => Cexp (a * Clog (H s))%C) t (v * (a * Cpower (H t) (a - RtoC 1)))%C.
Proof.
  intros D U. assert (Hz := nocut_neq0 _ U).
  eapply cder_val; [|apply cder_exp, (cder_scal a), cder_log; [exact D|exact U]].
  rewrite Cpower_sub, Cpower_1 by auto. rewrite Cpower_exp by auto. field. auto.
Qed.
Lemma rayder_power a p : nocut p -> rayder (fun z => Cpower z a) (fun z => a * Cpower z (a - RtoC 1))%C p.
Proof.
  intros H. destruct (nocut_near p H) as (d & Hd & N). exists (d / 2). split; [lra|]. intros z t Hz Ht.
  assert (Nt : forall s, 0 <= s <= 1 -> nocut (p + RtoC s * z)%C).
  { intros s Hs. apply N. eapply Rle_trans; [apply Cmod_ray; auto|lra]. }
  assert (Nn : forall s, Rabs s <= 2 -> (p + RtoC s * z)%C <> RtoC 0).
  { intros s Hs. apply nocut_neq0, N. rewrite Cmod_mult, Cmod_R. assert (X := Cmod_pos z). nra. }
  assert (D := cder_power a _ t _ (cder_line p z t) (Nt t Ht)). cbn beta in D.
  destruct D as [D1 D2].
  assert (L : locally t (fun s => Cexp (a * Clog (p + RtoC s * z)) = Cpower (p + RtoC s * z) a)%C).
  { exists (mkposreal 1 Rlt_0_1). intros s Hs. assert (B : Rabs (s - t) < 1) by exact Hs. apply Rabs_lt_between in B.
    rewrite Cpower_exp; [reflexivity|]. apply Nn. apply Rabs_le. lra. }
  split; eapply is_derive_ext_loc; [|exact D1| |exact D2].
  - apply (filter_imp _ _ (fun s E => f_equal fst E) L).
  - apply (filter_imp _ _ (fun s E => f_equal snd E) L).
Qed.
Lemma powc_C p a i : powc p a i = (gbin a i * Cpower p (a - RtoC (INR i)))%C.
Proof. unfold powc. toC. reflexivity. Qed.
Lemma Cpower_bounded a p : nocut p -> exists M d, 0 < d /\ 0 <= M /\ forall z, Cmod z <= d -> Cmod (Cpower (p + z)%C a) <= M.
Proof.
  intros H. destruct (cuexp_bounded _ _ _ _ (cuexp_log p 0 H)) as (L & d1 & Hd1 & HL & B).
  destruct (nocut_near p H) as (d & Hd & N).
  exists (2 * exp (Cmod a * L)), (Rmin d d1). assert (Q := exp_pos (Cmod a * L)).
  split; [apply Rmin_pos; auto|]. split; [lra|]. intros z Hz.
  assert (X1 : Cmod z <= d) by (eapply Rle_trans; [exact Hz|apply Rmin_l]).
  assert (X2 : Cmod z <= d1) by (eapply Rle_trans; [exact Hz|apply Rmin_r]).
  rewrite Cpower_exp by (apply nocut_neq0; auto).
  set (w := (a * Clog (p + z))%C).
  assert (W : Cmod w <= Cmod a * L). { unfold w. rewrite Cmod_mult. apply Rmult_le_compat_l; [apply Cmod_pos|auto]. }
  assert (A := Cmod_fst w). eapply Rle_trans; [apply Cmod_le_sum|]. unfold Cexp; cbn [fst snd].
  assert (Bf : Rabs (fst w) <= Cmod a * L) by lra. apply Rabs_le_between in Bf.
  assert (E : exp (fst w) <= exp (Cmod a * L)).
  { destruct (Req_dec (fst w) (Cmod a * L)) as [->|Ne]; [lra|]. left. apply exp_increasing. lra. }
  assert (P := exp_pos (fst w)). rewrite !Rabs_mult, (Rabs_right (exp (fst w))) by lra.
  assert (Cb := COS_bound (snd w)). assert (Sb := SIN_bound (snd w)).
  assert (C1 : Rabs (cos (snd w)) <= 1) by (apply Rabs_le; lra). assert (S1 : Rabs (sin (snd w)) <= 1) by (apply Rabs_le; lra).
  assert (exp (fst w) * Rabs (cos (snd w)) <= exp (fst w) * 1) by (apply Rmult_le_compat_l; lra).
  assert (exp (fst w) * Rabs (sin (snd w)) <= exp (fst w) * 1) by (apply Rmult_le_compat_l; lra). lra.
Qed.
Lemma cuexp_power p n : nocut p -> forall a, cuexp (fun z => Cpower z a) p n (powc p a).
Proof.
  intros H. assert (Z0 : forall a, powc p a 0 = Cpower p a).
  { intros a. rewrite powc_C, gbin_C0. change (INR 0) with 0. replace (a - RtoC 0)%C with a by ring. ring. }
  induction n; intros a.
  - apply (cuexp_int0 _ (fun z => a * Cpower z (a - RtoC 1))%C); [apply rayder_power; auto| |apply Z0].
    destruct (Cpower_bounded (a - RtoC 1)%C p H) as (M & d & Hd & HM & B).
    exists (Cmod a * M), d. split; auto. split; [apply Rmult_le_pos; [apply Cmod_pos|auto]|].
    intros z Hz. rewrite Cmod_mult. apply Rmult_le_compat_l; [apply Cmod_pos|auto].
  - apply (cuexp_int _ (fun z => a * Cpower z (a - RtoC 1))%C); [apply rayder_power; auto| |apply Z0].
    apply (cuexp_ext _ _ _ (fun i => a * powc p (a - RtoC 1)%C i)%C); [|apply cuexp_scale, IHn].
    intros i _. rewrite !powc_C, !Cmult_assoc, <- gbin_diffC. f_equal. f_equal. rewrite RtoC_S. ring.
Qed.
