(** * Python expressions over Taylor models: examples and a counterexample (C52) *)
From Coq Require Import String Ascii Reals Lra Lia List ZArith Bool.
From Verif Require Import Ops Syms SymsFacts Poly PolyFacts Gdual GdualFacts Functions Spec CoreProofs ValueProofs MiscProofs ElemR SpecTaylor TayProofs Interval TaylorModel TMFunctions SpecTM TMMaps TMArith TMMul TMPow TMSamples TMInst TMFlat TMRefute TMRefute4 TMTaylor TMBounds TMMisc TMGlue TMPoly PyFun SpecPy PyFunProofs PyTM SpecPyTM PyTMProofs PyTMAffine PyTMMore.
Import ListNotations.
Open Scope R_scope.
Local Open Scope string_scope.

Lemma not_flat n (f : (string -> R) -> R) : f center <> 0 -> ~ SpecPyTM.flat n f.
Proof.
  intros Hf (C & d & Hd & HC & B). assert (P : 0 < Rabs (f center)) by (apply Rabs_pos_lt; auto).
  set (r := Rmin d (Rmin 1 (Rabs (f center) / (2 * (C + 1))))).
  assert (0 < Rabs (f center) / (2 * (C + 1))) by (apply Rdiv_lt_0_compat; lra).
  assert (Hr : 0 < r) by (unfold r; repeat apply Rmin_pos; lra).
  assert (R1 : r <= 1) by (unfold r; eapply Rle_trans; [apply Rmin_r|apply Rmin_l]).
  assert (R2 : r <= Rabs (f center) / (2 * (C + 1))) by (unfold r; eapply Rle_trans; [apply Rmin_r|apply Rmin_r]).
  assert (X : Rabs (f center) <= C * r ^ S n).
  { apply B; [|unfold r; apply Rmin_l]. intros s. unfold center. rewrite Rabs_R0. lra. }
  assert (Q : r ^ S n <= r) by (cbn; assert (r ^ n <= 1) by (rewrite <- (pow1 n); apply pow_incr; lra); assert (0 <= r ^ n) by (apply pow_le; lra); nra).
  assert (C * r ^ S n <= (C + 1) * r) by (apply Rmult_le_compat; try lra; apply pow_le; lra).
  assert ((C + 1) * r <= (C + 1) * (Rabs (f center) / (2 * (C + 1)))) by (apply Rmult_le_compat_l; lra).
  replace ((C + 1) * (Rabs (f center) / (2 * (C + 1)))) with (Rabs (f center) / 2) in * by (field; lra). lra.
Qed.

(** x: the variable at 2 on [1, 3], order 3; y = 3.0 *)
Definition ptm (s : string) : bool := String.eqb s "x".
Definition pmodel : taylor_model R := var 3 2 (0, 0) (1, 3).
Definition penv (s : string) : tval R := if ptm s then TModel pmodel else TNum (VFloat 3).
Definition genv (s : string) : pyval R := if ptm s then VGdual (m_tpol pmodel) else VFloat 3.
(** y * (1 / x) - 1 *)
Definition pexpr : pyexpr R := EBin BSub (EBin BMul (EName "y") (EBin BDiv (EInt 1) (EName "x"))) (EInt 1).
(** 5 - x / 2 + 2 ** 3 * x *)
Definition paffine : pyexpr R :=
  EBin BAdd (EBin BSub (EInt 5) (EBin BDiv (EName "x") (EInt 2))) (EBin BMul (EBin BPow (EInt 2) (EInt 3)) (EName "x")).

Lemma pmodel_rep : represents (on (1, 3)) pmodel (fun x => x "x").
Proof. apply var_represents; try lra; try lia; unfold SpecTM.within; cbn; lra. Qed.
Lemma pmodel_reach : reach (m_tpol pmodel).
Proof.
  assert (E : gvar 0 "x" 3 = Ok (mkG (mkPoly ["dx"] [([1%nat], 1)]) 3)).
  { unfold gvar. cbn. unfold padd, pconst, pvar. cbn. unfold Reqb. repeat (destruct (Req_EM_T _ _); try lra; cbn). reflexivity. }
  replace (m_tpol pmodel) with (gadd (gconst 2) (mkG (mkPoly ["dx"] [([1%nat], 1)]) 3)); [apply reach_add; [apply reach_const|exact (reach_var _ _ _ _ E)]|].
  unfold gadd. cbn. unfold padd. cbn. repeat (unfold Reqb; destruct (Req_EM_T _ _); try lra; cbn). reflexivity.
Qed.
Lemma pmodel_input : input 3 3 (m_tpol pmodel).
Proof.
  split; [exact pmodel_reach|]. split; [|left; cbn; lia].
  cbn. intros s [<-|[]]. exists "x"%char, "". split; [reflexivity|discriminate].
Qed.
Lemma pinputs x s : inputs ptm (fun _ => m_tpol pmodel) (fun _ => 3) x s = if ptm s then 2 + x "dx" else 3.
Proof. unfold inputs. destruct (ptm s); auto. cbn. ring. Qed.

Lemma poly_case : exists T g, tp_eval (iv := iv_std) in_order penv pexpr = Ok (TModel T) /\ py_eval genv pexpr = Ok (VGdual g) /\ geqb (m_tpol T) g = true /\
  (1 <= get_order (m_tpol T) <= 3)%nat /\ constant_cf (m_tpol T) = 1 / 2 /\ taylor_of 3 (m_tpol T) (fun x => 3 * (1 / (2 + x "dx")) - 1).
Proof.
  remember (inputs ptm (fun _ => m_tpol pmodel) (fun _ => 3)) as y eqn:Ey.
  assert (Y0 : forall s, y center s = if ptm s then 2 else 3) by (intros s; rewrite Ey, pinputs; unfold center; destruct (ptm s); auto; lra).
  assert (HE : models_hold ptm penv (fun _ => pmodel) (fun _ => 3)) by (intros s; reflexivity).
  assert (HG : names_hold ptm genv (fun _ => m_tpol pmodel) (fun _ => 3)) by (intros s; reflexivity).
  assert (Sm : py_smooth ptm pexpr (y center) 3) by (cbn; rewrite ?Y0; cbn; repeat split; auto; lra).
  assert (Pr : proper ptm 3 y pexpr).
  { cbn. repeat split; auto; intros _; apply not_flat; cbn; rewrite ?Y0; cbn; lra. }
  subst y. destruct (tm_recip_defined in_order pmodel (proj1 pmodel_rep)) as [Q EQ].
  { cbn. lia. } { apply var_simple. } { apply in_order_permutes. } { apply in_order_ordered. } { unfold SpecTM.within. cbn. lra. }
  { left. apply var_positive; cbn; lra. }
  assert (RQ := div_sg_scaled in_order pmodel (on (1, 3)) _ 1 Q pmodel_rep ltac:(cbn; lia) (var_simple _ _ _) in_order_permutes (in_order_ordered _) (or_introl eq_refl) EQ).
  destruct (mul_scalars Q _ _ 3 RQ) as ((P & EP & RP) & _). destruct (add_scalars P _ _ 1 RP) as (_ & _ & (T & ET & RT)).
  assert (EV : tp_eval (iv := iv_std) in_order penv pexpr = Ok (TModel T)).
  { cbn [tp_eval pexpr rbind]. change (penv "x") with (TModel pmodel). change (penv "y") with (TNum (VFloat (3 : R))). cbn [tp_bin as_double].
    change (kofZ 1) with (1 : R). rewrite EQ. cbn [rbind model tp_bin as_double]. rewrite EP. cbn [rbind model tp_bin as_double]. change (kofZ 1) with (1 : R). rewrite ET. reflexivity. }
  destruct (model_gdual (iv := iv_std) in_order 3 ptm penv (fun _ => pmodel) genv (fun _ => 3) pexpr ltac:(lia) ltac:(cbn; lia) HE
    ltac:(intros s _; split; [exact pmodel_input|reflexivity]) HG Sm Pr eq_refl _ EV) as (T' & g & [= <-] & Eg & G).
  destruct (model_polynomial (iv := iv_std) in_order 3 3 ptm penv (fun _ => pmodel) (fun _ => 3) pexpr ltac:(cbn; lia) HE
    ltac:(intros s _; split; [apply pmodel_rep|split; cbn; lia]) Sm Pr eq_refl _ EV) as (T' & [= <-] & O & C0 & TT).
  exists T, g. split; [exact EV|]. split; [exact Eg|]. split; [exact G|]. split; [exact O|]. split.
  - rewrite C0. cbn [py_real pexpr]. rewrite !Y0. cbn. lra.
  - destruct TT as (c & d & Hd & Hc & B). exists c, d. split; auto. split; auto. intros x r Hx Hr. specialize (B x r Hx Hr).
    cbn [py_real pexpr] in B. rewrite !pinputs in B. cbn [ptm String.eqb Ascii.eqb Bool.eqb] in B. exact B.
Qed.

Lemma affine_case : exists T, tp_eval (iv := iv_std) in_order penv paffine = Ok (TModel T) /\
  represents (on (1, 3)) T (fun x => 5 - x "x" / 2 + 8 * x "x").
Proof.
  destruct (affine_enclosed (iv := iv_std) in_order ptm penv (fun _ => pmodel) (fun _ => 3) (on (1, 3)) (fun _ x => x "x") (fun _ => 2) (fun _ => (1, 3)) paffine)
    as (T & E & RT & _).
  - intros s. reflexivity.
  - intros s _. split; [exact pmodel_rep|]. split; intros t v [[= <- <-]|[]]; reflexivity.
  - left. intros s _. unfold symmetric. cbn. ring.
  - cbn. repeat split; auto.
  - cbn. repeat split; auto; try lra. left. lra.
  - reflexivity.
  - exists T. split; auto. destruct RT as [W X]. split; auto. intros x Hx. destruct (X x Hx) as [X1 X2]. split; auto.
    replace (5 - x "x" / 2 + 8 * x "x") with (py_real paffine (values ptm (fun _ x => x "x") (fun _ => 3) x)); auto.
    cbn [py_real paffine]. unfold values. cbn [ptm String.eqb Ascii.eqb Bool.eqb]. rewrite (rpow_Z 2 3) by (left; lra). unfold powerRZ. change (Pos.to_nat 3) with 3%nat. field.
Qed.

(** ** (1 + x**3) * (1 + x**3) at order 1 has the polynomial 0. *)
Definition cmodel : taylor_model R := var0 1 1 (0, 0) (-1, 1).
Definition cenv (s : string) : tval R := TModel cmodel.
Definition ccube : pyexpr R := EBin BAdd (EInt 1) (EBin BPow (EName "x") (EInt 3)).
Definition csquare : pyexpr R := EBin BMul ccube ccube.
Lemma cube_run {iv : IvFun R} iter : permutes iter -> ordered_on iter ["x"] -> tm_pow_int iter cmodel 3 = Ok (tm_const 0).
Proof.
  intros Hp Hi. set (A := cmodel). assert (RA : represents (on (-1, 1)) A (fun x => 1 * x "x")) by (apply var0_represents; try lra; try lia; unfold SpecTM.within; cbn; lra).
  unfold tm_pow_int. cbn [Z.eqb Z.ltb Z.compare Pos.compare Pos.compare_cont]. change (Z.to_nat 3 - 1)%nat with 2%nat. cbn [seq fold_left].
  destruct (tm_mul_sg_ok A (on (-1, 1)) _ RA 1) as (M & EM & RM). change (@k1 R OpsR) with 1. rewrite EM. cbn [rbind].
  assert (X := make_fields _ _ _ _ _ EM).
  destruct (square_run iter Hp M A 1 1 (-1, 1) Hi) as (T & E & WT & Z & _); try lra; try apply RM; try apply RA; try (rewrite X; reflexivity); try reflexivity.
  - intros rho. rewrite X. cbn [m_tpol]. rewrite value_mul_sg by apply RA. cbn. ring.
  - intros rho. cbn. ring.
  - rewrite E. cbn [rbind]. apply tm_mul_zero; auto. apply RA.
Qed.
Lemma cube_square_wrong {iv : IvFun R} iter : permutes iter -> ordered_on iter ["x"] ->
  exists tm env S pt e T, models_hold tm env S pt /\
    (forall s, tm s = true -> well_formed (S s) /\ get_order (m_tpol (S s)) = 1%nat /\ m_rem (S s) = (0, 0)) /\
    py_smooth tm e (inputs tm (fun s => m_tpol (S s)) pt center) 1 /\ is_number tm e = false /\
    tp_eval iter env e = Ok (TModel T) /\ (forall x, value (m_tpol T) x = 0) /\ py_real e (inputs tm (fun s => m_tpol (S s)) pt center) = 1.
Proof.
  intros Hp Hi.
  assert (RA : represents (on (-1, 1)) cmodel (fun x => 1 * x "x")) by (apply var0_represents; try lra; try lia; unfold SpecTM.within; cbn; lra).
  assert (Vp : valid (gadd_sg 1 (gconst 0 : gdual R))) by (apply valid_add_sg, valid_const).
  destruct (flat_make (gadd_sg 1 (gconst 0)) (0, 0) Vp) as (B & EB & _ & FB).
  { reflexivity. } { reflexivity. }
  destruct (mul_order_zero iter B B Hp FB FB) as (T & ET & Z).
  assert (Y0 : inputs (fun _ => true) (fun _ => m_tpol cmodel) (fun _ => 0) center "x" = 0) by (unfold inputs; cbn; unfold center; ring).
  exists (fun _ => true), cenv, (fun _ => cmodel), (fun _ => 0), csquare, T.
  split; [intros s; reflexivity|]. split; [intros s _; split; [apply RA|split; reflexivity]|].
  split; [|split; [reflexivity|split; [|split]]].
  - cbn [py_smooth csquare ccube is_number py_real negb]. rewrite Y0. repeat split; auto; right; right; exists 2%nat; cbn; lra.
  - cbn [tp_eval csquare ccube rbind]. change (cenv "x") with (TModel cmodel). cbn [tp_bin as_double tp_pow].
    replace (Z.leb (- two31) 3 && Z.ltb 3 two31)%bool with true by reflexivity. rewrite cube_run by auto. cbn [rbind model tp_bin as_double].
    change (tm_add_sg (kofZ 1) (tm_const (0 : R))) with (tm_make (gadd_sg (1 : R) (gconst (0 : R))) (0, 0) [] []). rewrite EB. cbn [rbind model tp_bin]. rewrite ET. reflexivity.
  - exact Z.
  - cbn [py_real csquare ccube]. rewrite Y0. rewrite (rpow_Z 0 3) by (right; right; exists 2%nat; cbn; lra). unfold powerRZ. change (Pos.to_nat 3) with 3%nat. ring.
Qed.

Lemma intervals_case : exists env A I (D : point -> Prop) (f h : point -> R), env "x" = TModel A /\ env "i" = TInterval I /\ represents D A f /\
  (forall x, D x -> SpecTM.within I (h x)) /\ D (at_x 2) /\ psyms (gp (m_tpol A)) <> [].
Proof.
  exists (fun s => if String.eqb s "x" then TModel pmodel else TInterval (1, 3)), pmodel, (1, 3), (on (1, 3)), (fun x => x "x"), (fun x => x "x").
  split; [reflexivity|]. split; [reflexivity|]. split; [exact pmodel_rep|]. split; [auto|]. split; [unfold on, SpecTM.within, at_x; cbn; lra|discriminate].
Qed.
