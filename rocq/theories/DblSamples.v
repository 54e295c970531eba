(** * Sample gduals with double coefficients *)
From Coq Require Import String List Arith Bool ZArith Reals Lia Lra.
From Flocq Require Import Core BinarySingleNaN.
From Verif Require Import Ops Syms Poly Gdual Functions Spec CoreProofs CalcProofs TaylorModel SpecDbl DblProofs.
Import ListNotations.

Definition dint (z : Z) : double := kofZ z.
(** 2^-53 *)
Definition dulp : double := kdiv k1 (dint (2 ^ 53)).
(** polynomials in [x] of order 2 *)
Definition lin (c0 c1 : double) : gdual double := mkG (mkPoly ["dx"%string] [([0], c0); ([1], c1)]) 2.
Definition quad (c0 c1 c2 : double) : gdual double := mkG (mkPoly ["dx"%string] [([0], c0); ([1], c1); ([2], c2)]) 2.

Definition differ (x y : option double) : bool :=
  match x, y with Some x, Some y => is_finite x && is_finite y && negb (Beqb x y) | _, _ => false end.
Lemma differ_cf (a b : gdual double) W k : differ (stored a W k) (stored b W k) = true -> cf a W k <> cf b W k.
Proof.
  unfold cf, differ. destruct (stored a W k) as [x|], (stored b W k) as [y|]; try discriminate.
  rewrite !andb_true_iff, negb_true_iff. intros [[Fx Fy] E]. rewrite Beqb_correct in E by auto. intros H. rewrite H in E.
  rewrite Req_bool_true in E by reflexivity. discriminate.
Qed.
Lemma lin_valid c0 c1 : keqb c0 k0 = false -> keqb c1 k0 = false -> valid (lin c0 c1).
Proof.
  intros H0 H1. constructor; cbn [lin gp psyms pterms gord].
  - repeat constructor.
  - intros t [<-|[<-|[]]]; reflexivity.
  - repeat constructor; cbn; intuition discriminate.
  - intros t [<-|[<-|[]]]; auto.
  - intros t [<-|[<-|[]]]; cbn; lia.
Qed.
Lemma quad_valid c0 c1 c2 : keqb c0 k0 = false -> keqb c1 k0 = false -> keqb c2 k0 = false -> valid (quad c0 c1 c2).
Proof.
  intros H0 H1 H2. constructor; cbn [quad gp psyms pterms gord].
  - repeat constructor.
  - intros t [<-|[<-|[<-|[]]]]; reflexivity.
  - repeat constructor; cbn; intuition discriminate.
  - intros t [<-|[<-|[<-|[]]]]; auto.
  - intros t [<-|[<-|[<-|[]]]]; cbn; lia.
Qed.
(** 1 + 3 x and 5 + 7 x + 11 x^2 *)
Definition da : gdual double := lin (dint 1) (dint 3).
Definition db : gdual double := quad (dint 5) (dint 7) (dint 11).
Lemma da_valid : valid da.
Proof. apply lin_valid; vm_compute; reflexivity. Qed.
Lemma db_valid : valid db.
Proof. apply quad_valid; vm_compute; reflexivity. Qed.

(** the coefficient of [x] in the product: 1 * 7 + 3 * 5 = 22 *)
Definition is_value (x : option double) (d : double) : bool := match x with Some x => Beqb x d | None => false end.
Lemma sample_product : is_value (stored (gmul da db) ["dx"%string] [1]) (dint 22) = true.
Proof. vm_compute. reflexivity. Qed.
Definition finite_b (x : option double) : bool := match x with Some c => is_finite c | None => true end.
Lemma finite_cf (g : gdual double) W k : finite_b (stored g W k) = true -> cf_finite g W k.
Proof. unfold finite_b, cf_finite. destruct (stored g W k); auto. Qed.

(** addition and multiplication are not associative, multiplication does not
    distribute *)
Definition tenth (n : Z) : double := kdiv (dint n) (dint 10).
Lemma assoc_add_counterexample :
  let a := gconst k1 in let t := gconst dulp in
  cf (gadd (gadd a t) t) [] [] <> cf (gadd a (gadd t t)) [] [].
Proof. apply differ_cf. vm_compute. reflexivity. Qed.
Lemma assoc_mul_counterexample :
  let a := gconst (tenth 1) in let b := gconst (tenth 2) in let c := gconst (tenth 3) in
  cf (gmul (gmul a b) c) [] [] <> cf (gmul a (gmul b c)) [] [].
Proof. apply differ_cf. vm_compute. reflexivity. Qed.
(** 49 / 49 *)
Lemma div_counterexample : let a := gconst (dint 49) in cf (gdiv_gs a (dint 49)) [] [] <> cf (gconst k1) [] [].
Proof. apply differ_cf. vm_compute. reflexivity. Qed.
Lemma distr_counterexample :
  let a := gconst (kdiv k1 (dint 3)) in let b := gconst k1 in let c := gconst (kdiv k1 (dint 6)) in
  cf (gmul a (gadd b c)) [] [] <> cf (gadd (gmul a b) (gmul a c)) [] [].
Proof. apply differ_cf. vm_compute. reflexivity. Qed.

(** the sum of the Taylor models of the constants 1 and 2^-53 *)
Lemma is_value_cf (g : gdual double) W k d : is_finite d = true -> finite_b (stored g W k) = true -> is_value (stored g W k) d = true -> cf g W k = B2R d.
Proof.
  unfold is_value, cf, finite_b. destruct (stored g W k) as [x|]; [|discriminate]. intros Fd Fx E. rewrite Beqb_correct in E by auto.
  destruct (Req_bool_spec (B2R x) (B2R d)); [auto|discriminate].
Qed.
Lemma dulp_nz : B2R dulp <> 0%R.
Proof.
  assert (E : Beqb dulp (B754_zero false) = false) by (vm_compute; reflexivity).
  rewrite Beqb_correct in E; [|vm_compute; reflexivity|reflexivity]. intros H. rewrite H in E. cbn [B2R] in E.
  rewrite Req_bool_true in E by reflexivity. discriminate.
Qed.
Lemma tm_add_consts (c d : double) :
  tm_add (tm_const c) (tm_const d) = Ok (mkTM (gadd (gconst c) (gconst d)) 0 0 (kadd k0 k0, kadd k0 k0) [] []).
Proof. reflexivity. Qed.
Lemma tm_counterexample : exists (c d : double) (t : taylor_model double), is_finite c = true /\ is_finite d = true /\
  tm_add (tm_const c) (tm_const d) = Ok t /\ B2R (fst (m_rem t)) = 0%R /\ B2R (snd (m_rem t)) = 0%R /\
  cf (m_tpol t) [] [] <> (B2R c + B2R d)%R.
Proof.
  exists (k1 : double), dulp, (mkTM (gadd (gconst k1) (gconst dulp)) 0 0 (kadd k0 k0, kadd k0 k0) [] []).
  split; [vm_compute; reflexivity|]. split; [vm_compute; reflexivity|]. split; [apply tm_add_consts|].
  cbn [m_rem m_tpol fst snd]. split; [reflexivity|]. split; [reflexivity|].
  rewrite (is_value_cf _ [] [] k1) by (vm_compute; reflexivity). intros H. apply dulp_nz. lra.
Qed.
Lemma self_division : exists c : double, is_finite c = true /\ B2R c <> 0%R /\ cf (gdiv_gs (gconst c) c) [] [] <> cf (gconst k1) [] [].
Proof.
  exists (dint 49). split; [vm_compute; reflexivity|]. split; [|exact div_counterexample].
  unfold dint. rewrite (proj2 (ofZ_exact 49 ltac:(cbn; lia))). lra.
Qed.
Lemma sample_finite : NoDup ["dx"%string] /\ cf_finite (gmul da db) ["dx"%string] [1] /\
  cf_finite (gadd da db) ["dx"%string] [1] /\ cf_finite (gdiv_gs da (dint 10)) ["dx"%string] [1].
Proof.
  split; [repeat constructor; intros []|]. split; [|split]; apply finite_cf; vm_compute; reflexivity.
Qed.
Lemma sample_pairs : length (factors da db ["dx"%string] [1]) = 2 /\ length (factors da db ["dx"%string] [2]) = 2.
Proof. split; vm_compute; reflexivity. Qed.
Lemma value_of (g : gdual double) W k z : (Z.abs z <= 2 ^ 53)%Z -> finite_b (stored g W k) = true -> is_value (stored g W k) (dint z) = true ->
  cf g W k = IZR z.
Proof.
  intros Hz F E. destruct (ofZ_exact z Hz) as [H1 H2]. rewrite <- H2. apply is_value_cf; auto.
Qed.
Lemma sample_value : cf (gmul da db) ["dx"%string] [1] = 22%R.
Proof. apply (value_of _ _ _ 22); [cbn; lia|vm_compute; reflexivity|vm_compute; reflexivity]. Qed.
Lemma sample_rounded : cf (gdiv_gs da (dint 10)) ["dx"%string] [1] <> cf (gconst (kdiv (dint 3) (dint 10))) [] [].
Proof.
  assert (G : forall (a b : gdual double) W k W' k', differ (stored a W k) (stored b W' k') = true -> cf a W k <> cf b W' k').
  { intros a b W k W' k'. unfold cf, differ. destruct (stored a W k) as [x|], (stored b W' k') as [y|]; try discriminate.
    rewrite !andb_true_iff, negb_true_iff. intros [[Fx Fy] E]. rewrite Beqb_correct in E by auto. intros H. rewrite H in E.
    rewrite Req_bool_true in E by reflexivity. discriminate. }
  apply G. vm_compute. reflexivity.
Qed.
Definition unwrap (r : res (gdual double)) : gdual double := match r with Ok g => g | Throw _ => gconst k0 end.
Lemma unwrap_partial (g : gdual double) : gpartial g "x" = Ok (unwrap (gpartial g "x")).
Proof. reflexivity. Qed.
Lemma unwrap_integrate (g : gdual double) : gintegrate g "x" = Ok (unwrap (gintegrate g "x")).
Proof. reflexivity. Qed.
Lemma sample_calculus : exists r q, gpartial db "x" = Ok r /\ gintegrate da "x" = Ok q /\
  cf r ["dx"%string] [1] = 22%R /\ cf_finite q ["dx"%string] (incr ["dx"%string] [1] "dx") /\ stored q ["dx"%string] [2] <> None.
Proof.
  exists (unwrap (gpartial db "x")), (unwrap (gintegrate da "x")). split; [apply unwrap_partial|]. split; [apply unwrap_integrate|].
  split; [apply (value_of _ _ _ 22); [cbn; lia|vm_compute; reflexivity|vm_compute; reflexivity]|].
  split; [apply finite_cf; vm_compute; reflexivity|].
  assert (E : match stored (unwrap (gintegrate da "x")) ["dx"%string] [2] with Some _ => true | None => false end = true) by (vm_compute; reflexivity).
  intros H. rewrite H in E. discriminate.
Qed.
Lemma valid_const_dbl (c : double) : valid (gconst c).
Proof. apply CoefFacts.valid_iff. split; [apply GdualFacts.gconst_gwf|apply FunStruct.gconst_nz]. Qed.
Lemma assoc_add_fails : exists a b c : gdual double, valid a /\ valid b /\ valid c /\
    cf (gadd (gadd a b) c) [] [] <> cf (gadd a (gadd b c)) [] [].
Proof. exists (gconst k1), (gconst dulp), (gconst dulp). split; [|split; [|split]]; [apply valid_const_dbl..|exact assoc_add_counterexample]. Qed.
Lemma assoc_mul_fails : exists a b c : gdual double, valid a /\ valid b /\ valid c /\
    cf (gmul (gmul a b) c) [] [] <> cf (gmul a (gmul b c)) [] [].
Proof. exists (gconst (tenth 1)), (gconst (tenth 2)), (gconst (tenth 3)). split; [|split; [|split]]; [apply valid_const_dbl..|exact assoc_mul_counterexample]. Qed.
Lemma distr_fails : exists a b c : gdual double, valid a /\ valid b /\ valid c /\
    cf (gmul a (gadd b c)) [] [] <> cf (gadd (gmul a b) (gmul a c)) [] [].
Proof. exists (gconst (kdiv k1 (dint 3))), (gconst k1), (gconst (kdiv k1 (dint 6))). split; [|split; [|split]]; [apply valid_const_dbl..|exact distr_counterexample]. Qed.
