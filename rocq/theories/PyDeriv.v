(** * The derivatives of Python expressions *)
From Coq Require Import String Ascii Reals List ZArith Bool Arith Lra Lia.
From Coquelicot Require Import Coquelicot.
From Verif Require Import Ops Syms SymsFacts Poly Gdual Functions Spec ElemR SpecTaylor CoreProofs MiscProofs TayDeriv TayProofs TayIdent PyFun SpecPy PyFunProofs Smooth SmoothFun.
Import ListNotations.
Open Scope R_scope.
Local Open Scope string_scope.

Lemma lookup_In {A} name (t : list (string * A)) a : lookup name t = Some a -> In (name, a) t.
Proof.
  unfold lookup. intros H. destruct (find _ t) as [[s b]|] eqn:E; [|discriminate]. injection H as <-.
  apply find_some in E. destruct E as [I Q]. cbn in *. apply String.eqb_eq in Q. subst. auto.
Qed.
Lemma smooth_math name m u : lookup name math_table = Some m -> mf_dom m (u center) -> smoothf u -> smoothf (fun x => mf_val m (u x)).
Proof.
  intros H. apply lookup_In in H. unfold math_table in H. cbn [In] in H.
  repeat (destruct H as [H|H]; [injection H as <- <-; cbn [mf_dom mf_val]; intros D U|]); [..|contradiction H].
  - apply smooth_exp; auto.
  - apply smooth_minus; [apply smooth_exp; auto|apply smooth_const].
  - apply smooth_ln; auto.
  - apply smooth_div; [apply ln_neq0; lra|apply smooth_ln; auto|apply smooth_const].
  - apply smooth_div; [apply ln_neq0; lra|apply smooth_ln; auto|apply smooth_const].
  - apply smooth_ln; [lra|]. apply smooth_plus; [apply smooth_const|auto].
  - apply smooth_sqrt; auto.
  - apply smooth_cbrt; auto.
  - apply smooth_sin; auto.
  - apply smooth_cos; auto.
  - apply smooth_tan; auto.
  - apply smooth_asin; auto.
  - apply smooth_acos; auto.
  - apply (smooth_u Uatan); [exact I|auto].
  - apply smooth_sinh; auto.
  - apply smooth_cosh; auto.
  - apply smooth_tanh; auto.
  - apply smooth_asinh; auto.
  - apply smooth_acosh; auto.
  - apply smooth_atanh; auto.
  - apply smooth_abs; auto.
  - apply smooth_erf; auto.
  - apply smooth_minus; [apply smooth_const|apply smooth_erf; auto].
Qed.
Lemma smooth_powerRZ u z : u center <> 0 -> smoothf u -> smoothf (fun x => powerRZ (u x) z).
Proof.
  intros N U. destruct z as [|p|p]; cbn [powerRZ]; [apply smooth_const|apply smooth_pow; auto|].
  apply (smooth_u Uinv (fun x => u x ^ Pos.to_nat p)); [apply pow_nonzero; auto|apply smooth_pow; auto].
Qed.
Lemma smooth_rpow_const u c : dompow (u center) c -> smoothf u -> smoothf (fun x => rpow (u x) c).
Proof.
  intros [P|[(P & z & ->)|(k & ->)]] U.
  - destruct (smooth_pos u U P) as (d & Hd & Pd). apply (smooth_near (fun x => Rpower (u x) c)).
    + exists d. split; auto. intros x Hx. unfold rpow. destruct (Rlt_dec 0 (u x)); auto. specialize (Pd x Hx). contradiction.
    + apply smooth_Rpower; auto. apply smooth_const.
  - destruct (smooth_neg u U P) as (d & Hd & Pd). apply (smooth_near (fun x => powerRZ (u x) z)).
    + exists d. split; auto. intros x Hx. apply rpow_Z. right. left. split; [auto|exists z; auto].
    + apply smooth_powerRZ; auto. lra.
  - apply (smooth_ext (fun x => u x ^ S k)); [|apply smooth_pow; auto]. intros x. rewrite INR_IZR_INZ. rewrite rpow_Z.
    + rewrite <- pow_powerRZ. reflexivity.
    + right. right. exists k. rewrite INR_IZR_INZ. reflexivity.
Qed.
Lemma smooth_rpow u v : 0 < u center -> smoothf u -> smoothf v -> smoothf (fun x => rpow (u x) (v x)).
Proof.
  intros P U V. destruct (smooth_pos u U P) as (d & Hd & Pd). apply (smooth_near (fun x => Rpower (u x) (v x))).
  - exists d. split; auto. intros x Hx. unfold rpow. destruct (Rlt_dec 0 (u x)); auto. specialize (Pd x Hx). contradiction.
  - apply smooth_Rpower; auto.
Qed.

Section Deriv.
  Variables (gd : string -> bool) (G : string -> gdual R) (point : string -> R).
  Lemma number_const e x : is_number gd e = true -> py_real e (inputs gd G point x) = py_real e (inputs gd G point center).
  Proof.
    induction e as [z|v|s|op a IHa b IHb|a IHa|a IHa|f a IHa|f a IHa]; cbn; auto; intros H.
    - unfold inputs. destruct (gd s); [discriminate|auto].
    - apply andb_prop in H. destruct H as [H1 H2]. rewrite (IHa H1), (IHb H2). auto.
    - rewrite IHa; auto.
    - rewrite IHa; auto.
    - rewrite IHa; auto.
  Qed.
  Lemma smooth_py e m : py_smooth gd e (inputs gd G point center) m -> smoothf (fun x => py_real e (inputs gd G point x)).
  Proof.
    induction e as [z|v|s|op a IHa b IHb|a IHa|a IHa|f a IHa|f a IHa]; cbn [py_smooth]; intros H.
    - apply (smooth_const (IZR z)).
    - apply (smooth_const v).
    - cbn. unfold inputs. destruct (gd s); [apply smooth_value|apply smooth_const].
    - destruct H as (Ha & Hb & H). specialize (IHa Ha). specialize (IHb Hb). destruct op; cbn [py_real].
      + apply smooth_plus; auto.
      + apply smooth_minus; auto.
      + apply smooth_mult; auto.
      + apply smooth_div; auto.
      + destruct (is_number gd b) eqn:E; [|apply smooth_rpow; auto].
        apply (smooth_ext (fun x => rpow (py_real a (inputs gd G point x)) (py_real b (inputs gd G point center)))).
        * intros x. rewrite (number_const b x E). reflexivity.
        * apply smooth_rpow_const; auto.
    - cbn. apply smooth_opp; auto.
    - cbn. auto.
    - destruct H as (Ha & H). unfold math_ok in H. cbn [py_real]. unfold math_fun.
      destruct (lookup f math_table) as [mf|] eqn:E; [|contradiction]. apply (smooth_math f mf); auto. apply H.
    - destruct H as (Ha & H & _). unfold math_ok in H. cbn [py_real]. unfold math_fun.
      destruct (lookup (plain_name f) math_table) as [mf|] eqn:E; [|contradiction]. apply (smooth_math (plain_name f) mf); auto. apply H.
  Qed.
End Deriv.

Lemma taylor_le n k (g : gdual R) f : (k <= n)%nat -> taylor_of n g f -> taylor_of k g f.
Proof. intros L. apply Taylor.bigO_le. lia. Qed.
Lemma taylor_near n (g : gdual R) f h : (exists d, 0 < d /\ forall x, small x d -> f x = h x) -> taylor_of n g f -> taylor_of n g h.
Proof.
  intros (d & Hd & E) (c & d' & Hd' & Hc & B). exists c, (Rmin d d'). split; [apply Rmin_case; auto|]. split; auto. intros x r Hx Hr.
  rewrite <- E; [apply B; auto; eapply Rle_trans; [exact Hr|apply Rmin_r]|]. eapply small_le; [exact Hx|]. eapply Rle_trans; [exact Hr|apply Rmin_l].
Qed.

(** Reading a derivative of a smoothf function from its expansion. *)
Lemma derivative_smooth n (g : gdual R) f : valid g -> smoothf f -> (n <= get_order g)%nat \/ get_order g = 0%nat ->
  (Z.of_nat (get_order g) < 4294967296)%Z -> taylor_of n g f ->
  (exists F, derivatives (psyms (gp g)) n f F) /\
  forall F, derivatives (psyms (gp g)) n f F -> forall k, length k = length (psyms (gp g)) ->
    (list_sum k <= n)%nat -> (list_sum k <= get_order g)%nat -> (forall i, In i k -> (Z.of_nat i <= 170)%Z) ->
    get_derivative g k = Ok (F k center).
Proof.
  intros V Sf O O32 T. assert (N : NoDup (psyms (gp g))) by (apply ssorted_NoDup, V).
  split; [apply smooth_derivatives; auto|]. intros F HF k L S1 S2 H170. destruct O as [O|O].
  - apply (derivative_taylor (psyms (gp g)) n g f F k); auto.
  - destruct (smooth_derivatives f (psyms (gp g)) 0 Sf N) as (F0 & HF0).
    rewrite (derivative_taylor (psyms (gp g)) 0 g f F0 k); auto; [|lia|apply (taylor_le n); auto; lia|lia].
    assert (Z : k = map (fun _ => 0%nat) (psyms (gp g))).
    { apply zero_key; auto. clear -S2 O. assert (X : list_sum k = 0%nat) by lia. clear S2 O. induction k as [|i k IH]; auto.
      unfold list_sum in *. cbn in *. destruct i; [apply IH; lia|lia]. }
    rewrite Z, (proj1 HF0), (proj1 HF). reflexivity.
Qed.

(** Differentiating an expansion. *)
Fixpoint svars (a : sx) : list string :=
  match a with SC _ => [] | SV s => [s] | SAdd a b | SMul a b => svars a ++ svars b | SU _ a => svars a end.
Lemma seval_vars a x y : (forall s, In s (svars a) -> x s = y s) -> seval a x = seval a y.
Proof.
  induction a; cbn; intros H; auto.
  - rewrite IHa1, IHa2; auto; intros; apply H; apply in_or_app; auto.
  - rewrite IHa1, IHa2; auto; intros; apply H; apply in_or_app; auto.
  - rewrite IHa; auto.
Qed.
Lemma svars_du u a s : In s (svars (du u a)) -> In s (svars a).
Proof. destruct u; cbn; rewrite ?in_app_iff; tauto. Qed.
Lemma svars_sd t a s : In s (svars (sd t a)) -> In s (svars a).
Proof.
  induction a; cbn; rewrite ?in_app_iff; try tauto. intros [H|H]; [auto|]. apply svars_du in H. auto.
Qed.
Lemma svars_sdk W : forall k a s, In s (svars (sdk W k a)) -> In s (svars a).
Proof.
  induction W as [|w W IH]; intros [|n k] a s; cbn; auto. intros H. apply (IH k). induction n; cbn in H; auto. apply svars_sd in H. auto.
Qed.
Lemma partial_smooth n (g r : gdual R) s f h : valid g -> gpartial g s = Ok r -> smoothf f -> taylor_of (S n) g f ->
  (exists e, 0 < e /\ forall x, small x e -> derivable_pt_lim (fun t => f (update x (dsym s) t)) (x (dsym s)) (h x)) ->
  taylor_of n r h.
Proof.
  intros V E (a & d & Hd & Da & Ea) T (e & He & HD). destruct (sdef_near a Da) as (r1 & P1 & B1 & D1).
  set (W := sunion (svars a) [dsym s]). assert (SW : ssorted W) by (apply sunion_sorted; repeat constructor).
  assert (I : In (dsym s) W) by (apply sunion_In; right; left; auto). assert (NW := ssorted_NoDup _ SW).
  assert (IA : forall v, In v (svars a) -> In v W) by (intros v Hv; apply sunion_In; auto).
  set (F := fun k x => seval (sdk W k a) x).
  assert (X : taylor_of n r (F (incr W (map (fun _ => 0%nat) W) (dsym s)))).
  { apply (partial_taylor W n g r s (seval a)); auto.
    - intros k x y H. apply seval_vars. intros v Hv. apply H, IA. apply (svars_sdk W k). auto.
    - apply (taylor_near (S n) g f); auto. exists d. auto.
    - split; [intros x; unfold F; rewrite sdk_zero; auto|]. exists r1. split; auto. split.
      + intros k v x L S0 Iv Hx. unfold F. rewrite incr_inc by auto. rewrite <- sdk_inc by auto.
        apply is_derive_Reals, sd_derive, sdk_def. auto.
      + intros k L S0. exact (sb_bnd _ _ (sb_sdk r1 W k a B1)). }
  apply (taylor_near n r (F (incr W (map (fun _ => 0%nat) W) (dsym s)))); auto.
  set (q := Rmin r1 (Rmin (d / 2) e)). exists q. split; [repeat apply Rmin_case; lra|]. intros x Hx.
  assert (L1 : q <= r1) by apply Rmin_l. assert (L2 : q <= d / 2) by (eapply Rle_trans; [apply Rmin_r|apply Rmin_l]).
  assert (L3 : q <= e) by (eapply Rle_trans; [apply Rmin_r|apply Rmin_r]).
  unfold F. rewrite incr_inc by (auto; apply map_length). rewrite <- sdk_inc by (auto; try apply map_length; apply D1; eapply small_le; eauto).
  rewrite sdk_zero. specialize (HD x (small_le _ _ _ Hx L3)).
  apply (uniqueness_limite (fun t => f (update x (dsym s) t)) (x (dsym s))); [|exact HD].
  apply is_derive_Reals. apply (is_derive_ext_loc (fun t => seval a (update x (dsym s) t))); [|apply sd_derive, D1; eapply small_le; eauto].
  exists (mkposreal (d / 2) ltac:(lra)). intros t Ht. symmetry. apply Ea. intros v. unfold update.
  destruct (String.eqb_spec v (dsym s)) as [->|_]; [|eapply Rle_trans; [apply Hx|lra]].
  assert (Hs := Hx (dsym s)). change (Rabs (t - x (dsym s)) < d / 2) in Ht. replace t with (x (dsym s) + (t - x (dsym s))) by ring.
  eapply Rle_trans; [apply Rabs_triang|lra].
Qed.

Section Programs.
  Variables (n m : nat) (gd : string -> bool) (env : string -> pyval R) (G : string -> gdual R) (point : string -> R) (e : pyexpr R).
  Hypotheses (HE : names_hold gd env G point) (HS : py_smooth gd e (inputs gd G point center) m) (HN : is_number gd e = false).
  Let f := fun x => py_real e (inputs gd G point x).

  Lemma python_derivatives : (forall s, gd s = true -> input n m (G s)) -> (Z.of_nat m < 4294967296)%Z ->
    exists g, py_eval env e = Ok (VGdual g) /\ ((n <= get_order g)%nat \/ get_order g = 0%nat) /\
    (exists F, derivatives (psyms (gp g)) n f F) /\
    forall F, derivatives (psyms (gp g)) n f F -> forall k, length k = length (psyms (gp g)) ->
      (list_sum k <= n)%nat -> (list_sum k <= get_order g)%nat -> (forall i, In i k -> (Z.of_nat i <= 170)%Z) ->
      get_derivative g k = Ok (F k center).
  Proof.
    intros HI M32. pose proof (eval_ok m n gd env G point HE HI e HS) as H. rewrite HN in H. destruct H as (g & Eg & (V & O & T) & Rg & Go & Om).
    exists g. split; auto. split; auto. apply derivative_smooth; auto; [|lia]. exact (smooth_py gd G point e m HS).
  Qed.
  Lemma python_partial s r g h : (forall s, gd s = true -> input (S n) m (G s)) -> py_eval env e = Ok (VGdual g) -> gpartial g s = Ok r ->
    (exists q, 0 < q /\ forall x, small x q -> derivable_pt_lim (fun t => f (update x (dsym s) t)) (x (dsym s)) (h x)) ->
    taylor_of n r h.
  Proof.
    intros HI Eg Er Hh. pose proof (eval_ok m (S n) gd env G point HE HI e HS) as H. rewrite HN in H. destruct H as (g' & Eg' & (V & O & T) & _).
    rewrite Eg in Eg'. injection Eg' as <-. apply (partial_smooth n g r s f h); auto. exact (smooth_py gd G point e m HS).
  Qed.
End Programs.

(** ** C++ programs *)
Ltac smooth_step := match goal with
  | |- smoothf (fun x => exp _) => apply smooth_exp | |- smoothf (fun x => ln _) => apply smooth_ln
  | |- smoothf (fun x => sqrt _) => apply smooth_sqrt | |- smoothf (fun x => cbrt_R _) => apply smooth_cbrt
  | |- smoothf (fun x => sin _) => apply smooth_sin | |- smoothf (fun x => cos _) => apply smooth_cos
  | |- smoothf (fun x => tan _) => apply smooth_tan | |- smoothf (fun x => sinh _) => apply smooth_sinh
  | |- smoothf (fun x => cosh _) => apply smooth_cosh | |- smoothf (fun x => tanh _) => apply smooth_tanh
  | |- smoothf (fun x => atan _) => apply (smooth_u Uatan) | |- smoothf (fun x => atanh_R _) => apply smooth_atanh
  | |- smoothf (fun x => asin _) => apply smooth_asin | |- smoothf (fun x => acos _) => apply smooth_acos
  | |- smoothf (fun x => asinh_R _) => apply smooth_asinh | |- smoothf (fun x => acosh_R _) => apply smooth_acosh
  | |- smoothf (fun x => Rabs _) => apply smooth_abs | |- smoothf (fun x => erf_R _) => apply smooth_erf
  | |- smoothf (fun x => _ / ln _) => apply smooth_div; [apply ln_neq0; lra| |apply smooth_const]
  | |- smoothf (fun x => _ + _) => apply smooth_plus | |- smoothf (fun x => _ - _) => apply smooth_minus
  | |- smoothf (fun _ => ?c) => apply (smooth_const c)
  end.
Lemma smooth_real1 f u : dom1 f (u center) -> smoothf u -> smoothf (fun x => real1 f (u x)).
Proof.
  intros D U. destruct f; cbn [real1 dom1] in *; repeat (auto; try exact I; try lra; smooth_step).
Qed.
Lemma smooth_realD f u : domD f (u center) -> smoothf u -> smoothf (fun x => realD f (u x)).
Proof.
  intros D U. destruct f; cbn [realD domD] in *.
  - apply smooth_atanh; auto.
  - apply (smooth_u Uatan); [exact I|auto].
  - apply smooth_asin; auto.
  - apply smooth_asinh; auto.
  - apply smooth_acos; auto.
  - apply smooth_acosh; auto.
  - apply smooth_erf; auto.
  - apply smooth_minus; [apply smooth_const|apply smooth_erf; auto].
Qed.
Lemma smooth_program point e : smooth e point -> smoothf (fun x => real e (fun s => point s + x (dsym s))).
Proof.
  set (at0 := fun x s => point s + x (dsym s)). change (smooth e point -> smoothf (fun x => real e (at0 x))).
  assert (Z : forall a, real a (at0 center) = real a point).
  { intros a. assert (X : at0 center = point) by (apply FunctionalExtensionality.functional_extensionality; intros s; unfold at0, center; ring). rewrite X. reflexivity. }
  assert (C : forall c, smoothf (fun _ => c)) by apply smooth_const.
  induction e; cbn [smooth real]; intros H; repeat match goal with X : _ /\ _ |- _ => destruct X end.
  - apply C.
  - unfold at0. apply smooth_plus; [apply C|apply smooth_var].
  - apply smooth_plus; auto.
  - apply smooth_minus; auto.
  - apply smooth_mult; auto.
  - apply smooth_div; auto. rewrite Z. auto.
  - apply smooth_opp; auto.
  - apply smooth_plus; auto.
  - apply smooth_plus; auto.
  - apply smooth_minus; auto.
  - apply smooth_minus; auto.
  - apply smooth_mult; auto.
  - apply smooth_mult; auto.
  - apply smooth_div; auto. rewrite Z. auto.
  - apply smooth_mult; [auto|apply (C (/ v))].
  - apply smooth_real1; auto. rewrite Z. auto.
  - apply smooth_realD; auto. rewrite Z. auto.
  - apply smooth_Rpower; auto. rewrite Z. auto.
  - apply smooth_Rpower; auto.
  - apply smooth_rpow_const; auto. rewrite Z. auto.
  - destruct (Z_lt_le_dec z 0) as [L|L].
    + apply smooth_powerRZ; auto. rewrite Z. auto.
    + destruct z as [|p|p]; cbn [powerRZ]; [apply C|apply smooth_pow; auto|lia].
Qed.

Lemma program_derivatives point order M n e : (forall s, (n <= order s <= M)%nat) -> names_ok order e -> SpecTaylor.fits e M -> smooth e point ->
  (Z.of_nat M < 4294967296)%Z ->
  let f := fun x => real e (fun s => point s + x (dsym s)) in
  exists g, calc point order e = Ok g /\ ((n <= get_order g)%nat \/ get_order g = 0%nat) /\
    (exists F, derivatives (psyms (gp g)) n f F) /\
    forall F, derivatives (psyms (gp g)) n f F -> forall k, length k = length (psyms (gp g)) ->
      (list_sum k <= n)%nat -> (list_sum k <= get_order g)%nat -> (forall i, In i k -> (Z.of_nat i <= 170)%Z) ->
      get_derivative g k = Ok (F k center).
Proof.
  intros HM Hn F Sm M32 f. destruct (calc_ok point order e Hn) as (g & E & Rg & _). exists g. split; auto.
  destruct (calc_inv point order M n HM e g E F Sm) as ((V & O & T) & _ & Om). split; auto.
  apply derivative_smooth; auto; [apply smooth_program; auto|unfold get_order in *; lia].
Qed.
Lemma program_partial point order M n e g s r h : (forall s, (S n <= order s <= M)%nat) -> names_ok order e -> SpecTaylor.fits e M -> smooth e point ->
  calc point order e = Ok g -> gpartial g s = Ok r ->
  (exists q, 0 < q /\ forall x, small x q ->
     derivable_pt_lim (fun t => real e (fun v => point v + update x (dsym s) t (dsym v))) (x (dsym s)) (h x)) ->
  taylor_of n r h.
Proof.
  intros HM Hn F Sm E Er Hh. destruct (calc_inv point order M (S n) HM e g E F Sm) as ((V & O & T) & _ & Om).
  apply (partial_smooth n g r s (fun x => real e (fun v => point v + x (dsym v))) h); auto. apply smooth_program; auto.
Qed.
