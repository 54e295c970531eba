(** * The derivatives of Python expressions over gdual_vdouble (proof file for C53) *)
From Coq Require Import String Ascii Reals List ZArith Bool Arith Lra Lia.
From Coquelicot Require Import Coquelicot.
From Verif Require Import Ops Syms SymsFacts Poly Gdual Functions Spec FunAlg ElemR SpecTaylor CoreProofs ValueProofs MiscProofs Vectorized SpecVec CompRel VecProofs VecSamples PyFun SpecPy PyFunProofs PyVec SpecPyVec
  PyVecProofs PyVecMore PyDeriv.
Import ListNotations.
Open Scope R_scope.
Local Open Scope string_scope.

Lemma vec_derivatives (N n m : nat) (vd : string -> bool) (env : string -> vpyval R N) (G : nat -> string -> gdual R) (point : string -> R) (p : pyexpr R) :
  (0 < N)%nat ->
  (forall s, if vd s then exists g, env s = WVec g /\ (forall i, (i < N)%nat -> both N i true g (G i s)) else env s = WPlain (VFloat (point s))) ->
  (forall i s, (i < N)%nat -> vd s = true -> input n m (G i s)) ->
  (forall i, (i < N)%nat -> py_smooth vd p (inputs vd (G i) point center) m) -> is_number vd p = false ->
  (forall i, (i < N)%nat -> steps_ok N i env (fun s => if vd s then VGdual (G i s) else VFloat (point s)) p) -> (Z.of_nat m < 4294967296)%Z ->
  exists g, vpy_eval env p = Ok (WVec g) /\ ((n <= get_order g)%nat \/ get_order g = 0%nat) /\ forall i, (i < N)%nat ->
    let f := fun x => py_real p (inputs vd (G i) point x) in
    (exists F, derivatives (psyms (gp g)) n f F) /\
    forall F, derivatives (psyms (gp g)) n f F -> forall k, length k = length (psyms (gp g)) ->
      (list_sum k <= n)%nat -> (list_sum k <= get_order g)%nat -> (forall j, In j k -> (Z.of_nat j <= 170)%Z) ->
      exists v, get_derivative g k = Ok v /\ component N i v = F k center.
Proof.
  intros HN HE HI HS NU ST M32.
  assert (X : forall i, (i < N)%nat -> exists g, vpy_eval env p = Ok (WVec g) /\ ((n <= get_order g)%nat \/ get_order g = 0%nat) /\
    let f := fun x => py_real p (inputs vd (G i) point x) in
    (exists F, derivatives (psyms (gp g)) n f F) /\
    forall F, derivatives (psyms (gp g)) n f F -> forall k, length k = length (psyms (gp g)) ->
      (list_sum k <= n)%nat -> (list_sum k <= get_order g)%nat -> (forall j, In j k -> (Z.of_nat j <= 170)%Z) ->
      exists v, get_derivative g k = Ok v /\ component N i v = F k center).
  { intros i Hi.
    destruct (python_derivatives n m vd (fun s => if vd s then VGdual (G i s) else VFloat (point s)) (G i) point p
      ltac:(intros s; reflexivity) (HS i Hi) NU (fun s => HI i s Hi) M32) as (h & Eh & Oh & DE & D).
    assert (HC : forall s, is_component N i (env s) (if vd s then VGdual (G i s) else VFloat (point s))).
    { intros s. specialize (HE s). destruct (vd s); [destruct HE as (g & -> & B); exact (B i Hi)|rewrite HE; reflexivity]. }
    pose proof (eval_components Hi (proj1 sign_R) (proj2 sign_R) env _ HC p (ST i Hi)) as O.
    rewrite Eh in O. destruct (vpy_eval env p) as [[v|g]|x]; cbn [component_outcome is_component] in O; [destruct v; tauto| |tauto].
    destruct (both_coef Hi (proj1 sign_R) (proj2 sign_R) _ g h O) as (_ & Oe & _).
    assert (Se : psyms (gp g) = psyms (gp h)).
    { pose proof (both_crel Hi (proj1 sign_R) (proj2 sign_R) _ g h O) as C. destruct C. intuition. }
    exists g. split; auto. rewrite Oe, Se. split; auto. split; auto. intros F HF k L1 L2 L3 L4.
    pose proof (proj1 (proj2 (proj2 (both_read Hi (proj1 sign_R) (proj2 sign_R) g h O))) k) as R.
    rewrite (D F HF k L1 L2 L3 L4) in R. destruct (get_derivative g k) as [v|]; cbn in R; [|contradiction]. exists v. auto. }
  destruct (X 0%nat HN) as (g & E & Og & _). exists g. split; auto. split; auto. intros i Hi.
  destruct (X i Hi) as (g' & E' & _ & R). rewrite E in E'. injection E' as <-. exact R.
Qed.

(** 2 / x + log(x) at x = gdual_vdouble([1, 2], "x", 3): the first derivatives are -1 and 0. *)
Lemma vfirst c F : 0 < c -> derivatives ["dx"] 3 (fun x => 2 / (c + x "dx") + ln (c + x "dx")) F -> F [1%nat] center = - 2 / (c * c) + 1 / c.
Proof.
  intros Hc (F0 & r & Hr & D & _). cbn in F0.
  assert (X := D [0%nat] "dx" center eq_refl ltac:(cbn; lia) ltac:(left; auto) ltac:(intros s; unfold center; rewrite Rabs_R0; lra)). cbn in X.
  apply is_derive_Reals, is_derive_unique in X. rewrite <- X. apply is_derive_unique.
  apply (is_derive_ext (fun t => 2 / (c + t) + ln (c + t))); [intros t; rewrite F0; reflexivity|].
  unfold center. auto_derive; [repeat split; lra|field; lra].
Qed.
Lemma vderiv_case : exists g v, vpy_eval vcase_env vcase_expr = Ok (WVec g) /\ get_derivative g [1%nat] = Ok v /\
  component 2 0 v = -1 /\ component 2 1 v = 0.
Proof.
  assert (GV : forall i, gvar (component 2 i vcase_c) "x" 3 = Ok (vcase_g i)) by (intros; reflexivity).
  assert (CI : forall i, (i < 2)%nat -> component 2 i vcase_c = 1 + INR i) by (intros [|[|i]] H; [cbn; ring|cbn; ring|lia]).
  assert (VA : forall i x, value (vcase_g i) x = component 2 i vcase_c + x "dx").
  { intros i x. rewrite (gvar_value _ "x" 3 _ x (GV i)). reflexivity. }
  destruct (vec_derivatives 2 3 3 (fun s => String.eqb s "x") vcase_env (fun i _ => vcase_g i) (fun _ => 0) vcase_expr) as (g & E & Og & H).
  - lia.
  - intros s. unfold vcase_env. destruct (String.eqb s "x"); [|reflexivity]. exists vcase_x. split; auto.
    intros i Hi. eapply (both_var 2 i vcase_c "x" 3); [reflexivity|apply GV].
  - intros i s Hi _. split; [exact (reach_var _ _ _ _ (GV i))|]. pose proof (gvar_spec (component 2 i vcase_c) "x" 3) as S. rewrite GV in S.
    destruct S as (_ & _ & O & S & _). split; [|left; unfold get_order in *; lia].
    rewrite S. intros s' [<-|[]]. exists "x"%char, "". split; [reflexivity|discriminate].
  - intros i Hi. assert (P : inputs (fun s => String.eqb s "x") (fun _ => vcase_g i) (fun _ => 0) center "x" = 1 + INR i).
    { unfold inputs. cbn [String.eqb Ascii.eqb Bool.eqb]. rewrite VA, CI by auto. unfold center. ring. }
    pose proof (pos_INR i).
    unfold vcase_expr. cbn [py_smooth py_real]. rewrite P. unfold math_ok. cbn [lookup find math_table fst snd String.eqb Ascii.eqb Bool.eqb mf_dom mf_upto].
    split; [split; [auto|split; [auto|intros X; Lra.lra]]|]. split; [|auto]. split; [auto|].
    split; [cbn; Lra.lra|intros _; exact I].
  - reflexivity.
  - intros i Hi. apply no_steps_ok. cbn. split; [split; [auto|split; [auto|discriminate]]|]. split; [|discriminate]. split; [auto|discriminate].
  - lia.
  - assert (S : psyms (gp g) = ["dx"] /\ get_order g = 3%nat).
    { assert (E' : exists g', vpy_eval vcase_env vcase_expr = Ok (WVec g') /\ psyms (gp g') = ["dx"] /\ get_order g' = 3%nat).
      { eexists. split; [reflexivity|]. split; reflexivity. }
      destruct E' as (g' & E' & S). rewrite E in E'. injection E' as <-. exact S. }
    destruct S as [S O3].
    assert (V : forall i x, (i < 2)%nat -> py_real vcase_expr (inputs (fun s => String.eqb s "x") (fun _ => vcase_g i) (fun _ => 0) x) =
      2 / (1 + INR i + x "dx") + ln (1 + INR i + x "dx")).
    { intros i x Hi. unfold vcase_expr. cbn [py_real]. unfold inputs. cbn [String.eqb Ascii.eqb Bool.eqb]. rewrite VA, CI by auto. reflexivity. }
    assert (Y : forall i, (i < 2)%nat -> exists v, get_derivative g [1%nat] = Ok v /\
      component 2 i v = - 2 / ((1 + INR i) * (1 + INR i)) + 1 / (1 + INR i)).
    { intros i Hi. destruct (H i Hi) as [[F HF] D]. destruct (D F HF [1%nat]) as (v & Ev & Cv).
      - rewrite S. reflexivity.
      - cbn. lia.
      - rewrite O3. cbn. lia.
      - intros j [<-|[]]. lia.
      - exists v. split; auto. rewrite Cv. apply vfirst; [pose proof (pos_INR i); lra|]. rewrite S in HF.
        destruct HF as (F0 & R). split; [|exact R]. intros x. rewrite F0. apply V. auto. }
    destruct (Y 0%nat ltac:(lia)) as (v & Ev & C0). destruct (Y 1%nat ltac:(lia)) as (v' & Ev' & C1). rewrite Ev in Ev'. injection Ev' as <-.
    exists g, v. split; auto. split; auto. rewrite C0, C1. cbn. split; field.
Qed.
