(** * Python expressions over gdual_vdouble: kinds and expansions (proof file). *)
From Coq Require Import String Ascii List Arith Bool Lia ZArith Reals QArith.Qcanon.
From Verif Require Import Ops Syms Poly Gdual Functions Spec FunAlg ElemR SpecTaylor Vectorized SpecVec CompRel VecProofs VecSamples
  CoreProofs ValueProofs MiscProofs PyFun SpecPy PyFunProofs PyVec SpecPyVec PyVecProofs.
Import ListNotations.
Local Open Scope string_scope.

Lemma no_steps_ok (K : Type) (o : Ops K) (e : Elem K) N i env env' (p : pyexpr K) : no_steps p -> steps_ok N i env env' p.
Proof.
  induction p; cbn [no_steps steps_ok]; intros H; repeat match goal with X : _ /\ _ |- _ => destruct X end; auto.
  - split; [auto|]. split; [auto|]. intros; contradiction.
  - split; [auto|]. intros; contradiction.
  - split; [auto|]. intros; contradiction.
Qed.

Section Kinds.
  Context {K : Type} {o : Ops K} {e : Elem K} {N : nat}.
  Lemma kinds (vd : string -> bool) (env : string -> vpyval K N) :
    (forall s, vd s = true <-> exists g, env s = WVec g) ->
    forall p v, vpy_eval env p = Ok v -> (has_vec vd p = true <-> exists g, v = WVec g).
  Proof.
    intros HV. assert (NP : forall v : pyval K, ~ exists g : gdual (vec K N), WPlain v = WVec g) by (intros v [g X]; discriminate).
    assert (YV : forall g' : gdual (vec K N), exists g, WVec g' = WVec g) by eauto.
    induction p; cbn [vpy_eval has_vec]; intros v E.
    - injection E as <-. split; [discriminate|]. intros X. destruct (NP _ X).
    - injection E as <-. split; [discriminate|]. intros X. destruct (NP _ X).
    - injection E as <-. apply HV.
    - destruct (vpy_eval env p1) as [v1|]; [|discriminate]. destruct (vpy_eval env p2) as [v2|]; [|discriminate]. cbn [rbind] in E.
      specialize (IHp1 _ eq_refl). specialize (IHp2 _ eq_refl). rewrite orb_true_iff, IHp1, IHp2.
      destruct v1 as [v1|g1], v2 as [v2|g2].
      + rewrite vbin_plain in E. destruct (py_bin op v1 v2); [|discriminate]. injection E as <-.
        split; [intros [X|X]; destruct (NP _ X)|intros X; destruct (NP _ X)].
      + destruct v1; cbn [vpy_bin] in E; try discriminate; injection E as <-; split; auto.
      + destruct v2; cbn [vpy_bin] in E; try discriminate; injection E as <-; split; auto.
      + cbn [vpy_bin] in E. injection E as <-; split; auto.
    - destruct (vpy_eval env p) as [v1|]; [|discriminate]. cbn [rbind] in E. injection E as <-. rewrite (IHp _ eq_refl).
      destruct v1; cbn [vpy_neg]; split; auto; intros X; destruct (NP _ X).
    - destruct (vpy_eval env p) as [v1|]; [|discriminate]. cbn [rbind] in E. injection E as <-. rewrite (IHp _ eq_refl).
      destruct v1; cbn [vpy_pos]; split; auto; intros X; destruct (NP _ X).
    - destruct (vpy_eval env p) as [v1|]; [|discriminate]. cbn [rbind] in E. rewrite (IHp _ eq_refl).
      destruct v1 as [v1|g1]; cbn [vpy_call] in E.
      + destruct (py_call name v1); [|discriminate]. injection E as <-. split; intros X; destruct (NP _ X).
      + destruct (lookup name module_table) as [f|]; [|discriminate]. destruct (gdual_vfun f g1); [|discriminate]. injection E as <-. split; auto.
    - destruct (vpy_eval env p) as [v1|]; [|discriminate]. cbn [rbind] in E. rewrite (IHp _ eq_refl).
      destruct v1 as [v1|g1]; cbn [vpy_method] in E.
      + destruct (py_method name v1); [|discriminate]. injection E as <-. split; intros X; destruct (NP _ X).
      + destruct (lookup name method_table) as [f|]; [|discriminate]. destruct (gdual_vfun f g1); [|discriminate]. injection E as <-. split; auto.
  Qed.
  Lemma plain (env : string -> pyval K) p :
    vpy_eval (N := N) (fun s => WPlain (env s)) p = match py_eval env p with Ok v => Ok (WPlain v) | Throw x => Throw x end.
  Proof.
    induction p; cbn [vpy_eval py_eval]; try reflexivity.
    - rewrite IHp1. destruct (py_eval env p1) as [u|]; cbn [rbind]; auto. rewrite IHp2. destruct (py_eval env p2) as [w|]; cbn [rbind]; auto.
      rewrite vbin_plain. destruct (py_bin op u w); reflexivity.
    - rewrite IHp. destruct (py_eval env p); reflexivity.
    - rewrite IHp. destruct (py_eval env p); reflexivity.
    - rewrite IHp. destruct (py_eval env p); reflexivity.
    - rewrite IHp. destruct (py_eval env p); reflexivity.
  Qed.
  Lemma mixed op (g : gdual (vec K N)) (d : gdual K) :
    vpy_bin op (WVec g) (WPlain (VGdual d)) = Throw OtherException /\ vpy_bin op (WPlain (VGdual d)) (WVec g) = Throw OtherException.
  Proof. split; reflexivity. Qed.
  Lemma vmethods (g : gdual (vec K N)) :
    (forall f, lookup f module_table <> None -> vpy_method f (WVec g) = vpy_call f (WVec g)) /\
    (forall f h, In (f, h) numpy_names -> vpy_method f (WVec g) = vpy_call h (WVec g)).
  Proof.
    split.
    - intros f H. cbn [vpy_method vpy_call].
      assert (L : lookup f method_table = lookup f module_table).
      { pose proof (methods K o e f) as M. unfold lookup in *. destruct (find _ module_table) as [p|] eqn:E; [|contradiction].
        apply find_some in E. destruct E as [I E]. apply String.eqb_eq in E. subst f.
        cbn [module_table] in I. repeat (destruct I as [<-|I]; [reflexivity|]). destruct I. }
      rewrite L. reflexivity.
    - intros f h I. cbn [numpy_names] in I. repeat (destruct I as [[= <- <-]|I]; [reflexivity|]). destruct I.
  Qed.
End Kinds.

(** Expansions. *)
Open Scope R_scope.
Lemma vec_taylor (N n m : nat) (vd : string -> bool) (env : string -> vpyval R N) (G : nat -> string -> gdual R) (point : string -> R) (p : pyexpr R) :
  (0 < N)%nat ->
  (forall s, if vd s then exists g, env s = WVec g /\ (forall i, (i < N)%nat -> both N i true g (G i s)) else env s = WPlain (VFloat (point s))) ->
  (forall i s, (i < N)%nat -> vd s = true -> input n m (G i s)) ->
  (forall i, (i < N)%nat -> py_smooth vd p (inputs vd (G i) point center) m) -> is_number vd p = false ->
  (forall i, (i < N)%nat -> steps_ok N i env (fun s => if vd s then VGdual (G i s) else VFloat (point s)) p) ->
  exists g, vpy_eval env p = Ok (WVec g) /\ forall i, (i < N)%nat -> exists h, both N i true g h /\
    component N i (constant_cf g) = py_real p (inputs vd (G i) point center) /\
    taylor_of n h (fun x => py_real p (inputs vd (G i) point x)).
Proof.
  intros HN HE HI HS NU ST.
  assert (X : forall i, (i < N)%nat -> exists g h, vpy_eval env p = Ok (WVec g) /\ both N i true g h /\
     component N i (constant_cf g) = py_real p (inputs vd (G i) point center) /\
     taylor_of n h (fun x => py_real p (inputs vd (G i) point x))).
  { intros i Hi.
    pose proof (python_gdual m n vd (fun s => if vd s then VGdual (G i s) else VFloat (point s)) (G i) point
      ltac:(intros s; reflexivity) (fun s => HI i s Hi) p (HS i Hi) NU) as (h & Eh & _ & Ch & Th).
    assert (HC : forall s, is_component N i (env s) (if vd s then VGdual (G i s) else VFloat (point s))).
    { intros s. specialize (HE s). destruct (vd s); [destruct HE as (g & -> & B); exact (B i Hi)|rewrite HE; reflexivity]. }
    pose proof (eval_components Hi (proj1 sign_R) (proj2 sign_R) env _ HC p (ST i Hi)) as O.
    rewrite Eh in O. destruct (vpy_eval env p) as [[v|g]|x]; cbn [component_outcome is_component] in O; [destruct v; tauto| |tauto].
    exists g, h. split; auto. split; auto. split; auto.
    rewrite <- Ch. exact (proj1 (both_read Hi (proj1 sign_R) (proj2 sign_R) g h O)). }
  destruct (X 0%nat HN) as (g & _ & E & _). exists g. split; auto. intros i Hi.
  destruct (X i Hi) as (g' & h & E' & R). rewrite E in E'. injection E' as <-. exists h. exact R.
Qed.

(** Cases: x = gdual_vdouble([1, 2], "x", 3) and 2 / x + log(x). *)
Definition vcase_c : vec R 2 := @mkVec R 2 [1; 2] eq_refl.
Definition vcase_x : gdual (vec R 2) := match gvar vcase_c "x" 3 with Ok g => g | Throw _ => gdefault end.
Definition vcase_g (i : nat) : gdual R := match gvar (component 2 i vcase_c) "x" 3 with Ok g => g | Throw _ => gdefault end.
Definition vcase_env (s : string) : vpyval R 2 := if String.eqb s "x" then WVec vcase_x else WPlain (VFloat 0).
Definition vcase_expr : pyexpr R := EBin BAdd (EBin BDiv (EInt 2) (EName "x")) (ECall "log" (EName "x")).
Lemma vcase : exists g, vpy_eval vcase_env vcase_expr = Ok (WVec g) /\
  component 2 0 (constant_cf g) = 2 /\ component 2 1 (constant_cf g) = 1 + ln 2 /\
  exists h, both 2 1 true g h /\ taylor_of 3 h (fun x => 2 / (2 + x "dx") + ln (2 + x "dx")).
Proof.
  assert (GV : forall i, gvar (component 2 i vcase_c) "x" 3 = Ok (vcase_g i)) by (intros; reflexivity).
  assert (CI : forall i, (i < 2)%nat -> component 2 i vcase_c = 1 + INR i) by (intros [|[|i]] H; [cbn; ring|cbn; ring|lia]).
  assert (VA : forall i x, value (vcase_g i) x = component 2 i vcase_c + x "dx").
  { intros i x. rewrite (gvar_value _ "x" 3 _ x (GV i)). reflexivity. }
  destruct (vec_taylor 2 3 3 (fun s => String.eqb s "x") vcase_env (fun i _ => vcase_g i) (fun _ => 0) vcase_expr) as (g & E & H).
  - lia.
  - intros s. unfold vcase_env. destruct (String.eqb s "x"); [|reflexivity]. exists vcase_x. split; auto.
    intros i Hi. eapply (both_var 2 i vcase_c "x" 3); [reflexivity|apply GV].
  - intros i s Hi _. split; [exact (reach_var _ _ _ _ (GV i))|]. pose proof (gvar_spec (component 2 i vcase_c) "x" 3) as S. rewrite GV in S.
    destruct S as (_ & _ & O & S & _). split; [|left; unfold get_order in *; lia].
    rewrite S. intros s' [<-|[]]. exists "x"%char, "". split; [reflexivity|discriminate].
  - intros i Hi. assert (P : inputs (fun s => String.eqb s "x") (fun _ => vcase_g i) (fun _ => 0) center "x" = 1 + INR i).
    { unfold inputs. cbn [String.eqb Ascii.eqb Bool.eqb]. rewrite VA, CI by auto. unfold center. ring. }
    pose proof (pos_INR i).
    unfold vcase_expr. cbn [py_smooth py_real]. rewrite P. unfold math_ok. cbn [lookup find math_table fst snd String.eqb Ascii.eqb Bool.eqb mf_dom mf_upto].
    split; [split; [auto|split; [auto|intros X; Lra.lra]]|]. split; [|auto]. split; [auto|].
    split; [cbn; Lra.lra|intros _; exact I].
  - reflexivity.
  - intros i Hi. apply no_steps_ok. cbn. split; [split; [auto|split; [auto|discriminate]]|]. split; [|discriminate]. split; [auto|discriminate].
  - exists g. split; auto.
    assert (V : forall i x, (i < 2)%nat -> py_real vcase_expr (inputs (fun s => String.eqb s "x") (fun _ => vcase_g i) (fun _ => 0) x) =
      2 / (1 + INR i + x "dx") + ln (1 + INR i + x "dx")).
    { intros i x Hi. unfold vcase_expr. cbn [py_real]. unfold inputs. cbn [String.eqb Ascii.eqb Bool.eqb]. rewrite VA, CI by auto. reflexivity. }
    split; [|split].
    + destruct (H 0%nat) as (h & _ & C & _); [lia|]. rewrite C, V by lia. unfold center. cbn [INR].
      replace (1 + 0 + 0) with 1 by ring. rewrite ln_1. field.
    + destruct (H 1%nat) as (h & _ & C & _); [lia|]. rewrite C, V by lia. unfold center. cbn [INR].
      replace (1 + 1 + 0) with 2 by ring. field.
    + destruct (H 1%nat) as (h & B & _ & c & d & Hd & Hc & T); [lia|]. exists h. split; auto.
      exists c, d. split; auto. split; auto. intros x r Hx Hr. specialize (T x r Hx Hr). rewrite V in T by lia. cbn [INR] in T.
      replace (1 + 1) with 2 in T by ring. exact T.
Qed.

(** abs(-1 + [1, 2] dx) *)
Lemma abs_differs (e : Elem Qc) : exists (env : string -> vpyval Qc 2) (env' : string -> pyval Qc) g h,
  (forall s, is_component 2 1 (env s) (env' s)) /\
  vpy_eval env (ECall "abs" (EName "x")) = Ok (WVec g) /\ py_eval env' (ECall "abs" (EName "x")) = Ok (VGdual h) /\
  component 2 1 (coef g ["dx"] [1%nat]) <> coef h ["dx"] [1%nat].
Proof.
  destruct (abs_counterexample (e := e)) as (a & b & B & D).
  exists (fun _ => WVec a), (fun _ => VGdual b), (gabs_vec a), (gabs b). split; [intros s; exact B|]. split; [reflexivity|]. split; [reflexivity|]. exact D.
Qed.
(** 2 ** ([0, 1] dx) *)
Lemma pow_differs (e : Elem Qc) : exists (env : string -> vpyval Qc 2) (env' : string -> pyval Qc) g h,
  (forall s, is_component 2 0 (env s) (env' s)) /\
  vpy_eval env (EBin BPow (EInt 2) (EName "x")) = Ok (WVec g) /\ py_eval env' (EBin BPow (EInt 2) (EName "x")) = Ok (VGdual h) /\
  get_order g = 2%nat /\ get_order h = 0%nat.
Proof.
  destruct (pow_counterexample (e := e)) as (a & b & B & D1 & D2).
  exists (fun _ => WVec a), (fun _ => VGdual b), (gpow_sg (vec_num (q 2)) a), (gpow_sg (q 2) b).
  split; [intros s; exact B|]. split; [reflexivity|]. split; [reflexivity|]. auto.
Qed.
