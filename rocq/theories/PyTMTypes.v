(** * Python expressions over Taylor models (proof file for C52): types, intervals *)
From Coq Require Import String Ascii Reals Lra Lia List ZArith Bool.
From Verif Require Import Ops Syms Poly Gdual Functions Spec ElemR SpecTaylor Interval TaylorModel TMFunctions SpecTM TMGlue TMPoly PyFun SpecPy PyFunProofs PyTM SpecPyTM PyTMProofs.
Import ListNotations.
Local Open Scope string_scope.

Section Types.
  Context {K : Type} {oK : Ops K} {eK : Elem K} {iv : IvFun K}.
  Variable iter : list (string * (K * K)) -> list (string * (K * K)).

  Lemma model_kind r v : model r = Ok v -> kind_of (v : tval K) = KModel.
  Proof. unfold model. intros E. apply rbind_Ok in E. destruct E as (t & _ & [= <-]). reflexivity. Qed.
  Lemma number_bin_kind op a b v : number (py_bin op a b) = Ok v -> bin_type op (kind_of (TNum a)) (kind_of (TNum b)) = Some (kind_of (v : tval K)).
  Proof.
    unfold number. intros E. apply rbind_Ok in E. destruct E as (u & E & [= <-]).
    destruct a as [z|x|d], b as [z'|x'|d'], op; cbn in E; try (injection E as <-; reflexivity); unfold num_div, int_pow, num_pow in E;
      repeat match type of E with (if ?c then _ else _) = _ => destruct c; try discriminate end; injection E as <-; reflexivity.
  Qed.
  Lemma bin_kind op v w u : tp_bin iter op v w = Ok u -> bin_type op (kind_of v) (kind_of w) = Some (kind_of u).
  Proof.
    intros E. destruct v as [a|t|i], w as [b|t'|i'].
    - assert (B : tp_bin iter op (TNum a) (TNum b) = number (py_bin op a b)) by (destruct a; reflexivity). rewrite B in E. apply number_bin_kind. exact E.
    - destruct a as [z|x|d]; destruct op; cbn in E; try discriminate; apply model_kind in E; cbn; rewrite E; reflexivity.
    - destruct a; discriminate.
    - destruct b as [z|x|d]; destruct op; cbn in E; try discriminate; apply model_kind in E; cbn; rewrite E; reflexivity.
    - destruct op; cbn in E; try discriminate; apply model_kind in E; cbn; rewrite E; reflexivity.
    - destruct op; cbn in E; try discriminate; apply model_kind in E; cbn; rewrite E; reflexivity.
    - discriminate.
    - destruct op; cbn in E; try discriminate; apply model_kind in E; cbn; rewrite E; reflexivity.
    - discriminate.
  Qed.
  Lemma module_listed f g : lookup f module_table = Some g -> listed f (map fst math_table) = true.
  Proof.
    unfold module_table. rewrite !lookup_cons.
    repeat match goal with |- (if String.eqb f ?s then _ else _) = _ -> _ => destruct (String.eqb f s) eqn:?; [one; intros _; reflexivity|] end.
    intros H0; discriminate H0.
  Qed.
  Lemma method_listed f g : lookup f method_table = Some g -> listed (plain_name f) (map fst math_table) = true.
  Proof.
    unfold method_table. rewrite !lookup_cons.
    repeat match goal with |- (if String.eqb f ?s then _ else _) = _ -> _ => destruct (String.eqb f s) eqn:?; [one; intros _; reflexivity|] end.
    intros H0; discriminate H0.
  Qed.
  Lemma tm_module_listed f g : lookup f tm_module_table = Some g -> listed f model_functions = true.
  Proof.
    unfold tm_module_table. rewrite !lookup_cons.
    repeat match goal with |- (if String.eqb f ?s then _ else _) = _ -> _ => destruct (String.eqb f s) eqn:?; [one; intros _; reflexivity|] end.
    intros H0; discriminate H0.
  Qed.
  Lemma tm_method_listed f g : lookup f tm_method_table = Some g -> listed (plain_name f) model_functions = true.
  Proof.
    unfold tm_method_table. rewrite !lookup_cons.
    repeat match goal with |- (if String.eqb f ?s then _ else _) = _ -> _ => destruct (String.eqb f s) eqn:?; [one; intros _; reflexivity|] end.
    intros H0; discriminate H0.
  Qed.

  Lemma types env e v : tp_eval iter env e = Ok v -> type_of (fun s => kind_of (env s)) e = Some (kind_of v).
  Proof.
    revert v. induction e as [z|x|s|op a IHa b IHb|a IHa|a IHa|f a IHa|f a IHa]; intros v E; cbn [tp_eval type_of] in *.
    - injection E as <-. reflexivity.
    - injection E as <-. reflexivity.
    - injection E as <-. reflexivity.
    - apply rbind_Ok in E. destruct E as (va & Ea & E). apply rbind_Ok in E. destruct E as (vb & Eb & E).
      rewrite (IHa va Ea), (IHb vb Eb). apply bin_kind. exact E.
    - apply rbind_Ok in E. destruct E as (va & Ea & E). rewrite (IHa va Ea). destruct va as [n|t|i]; cbn in E; [|apply model_kind in E; rewrite E; reflexivity|discriminate].
      injection E as <-. destruct n; reflexivity.
    - apply rbind_Ok in E. destruct E as (va & Ea & E). rewrite (IHa va Ea). destruct va as [n|t|i]; cbn in E; [|discriminate|discriminate].
      injection E as <-. destruct n; reflexivity.
    - apply rbind_Ok in E. destruct E as (va & Ea & E). rewrite (IHa va Ea). destruct va as [n|t|i]; cbn [tp_call] in E; [| |discriminate].
      + unfold number in E. apply rbind_Ok in E. destruct E as (u & E & [= <-]). unfold py_call in E.
        destruct (lookup f module_table) as [g|] eqn:L; [|discriminate]. apply module_listed in L. unfold fun_type.
        destruct n as [z|x|d]; cbn [kind_of]; rewrite L; [injection E as <-; reflexivity|injection E as <-; reflexivity|].
        apply rbind_Ok in E. destruct E as (r & _ & [= <-]). reflexivity.
      + destruct (lookup f tm_module_table) as [g|] eqn:L; [|discriminate]. apply tm_module_listed in L. cbn [kind_of fun_type]. rewrite L.
        apply model_kind in E. rewrite E. reflexivity.
    - apply rbind_Ok in E. destruct E as (va & Ea & E). rewrite (IHa va Ea). destruct va as [n|t|i]; cbn [tp_method] in E; [| |discriminate].
      + unfold number in E. apply rbind_Ok in E. destruct E as (u & E & [= <-]). destruct n as [z|x|d]; cbn [py_method] in E; try discriminate.
        destruct (lookup f method_table) as [g|] eqn:L; [|discriminate]. apply method_listed in L. cbn [kind_of fun_type]. rewrite L.
        apply rbind_Ok in E. destruct E as (r & _ & [= <-]). reflexivity.
      + destruct (lookup f tm_method_table) as [g|] eqn:L; [|discriminate]. apply tm_method_listed in L. cbn [kind_of fun_type]. rewrite L.
        apply model_kind in E. rewrite E. reflexivity.
  Qed.
End Types.

(** ** Intervals *)
Open Scope R_scope.
Lemma interval_operands {iv : IvFun R} (iter : list (string * (R * R)) -> list (string * (R * R))) env a i (A : taylor_model R) I (D : point -> Prop) f (h : point -> R) :
  env a = TModel A -> env i = TInterval I -> represents D A f -> (forall x, D x -> within I (h x)) ->
  let gives op s t g := exists T, tp_eval iter env (EBin op (EName s) (EName t)) = Ok (TModel T) /\ represents D T g in
  gives BAdd a i (fun x => f x + h x) /\ gives BAdd i a (fun x => h x + f x) /\ gives BSub a i (fun x => f x - h x).
Proof.
  intros Ea Ei RA HI gives. destruct (add_intervals A D f I h RA HI) as ((T1 & E1 & R1) & (T2 & E2 & R2) & (T3 & E3 & R3)).
  unfold gives. cbn [tp_eval rbind]. rewrite Ea, Ei. cbn [tp_bin]. repeat split.
  - exists T2. rewrite E2. auto.
  - exists T1. rewrite E1. auto.
  - exists T3. rewrite E3. auto.
Qed.
Lemma interval_throws {iv : IvFun R} (iter : list (string * (R * R)) -> list (string * (R * R))) env a i (A : taylor_model R) I :
  env a = TModel A -> env i = TInterval I -> well_formed A ->
  let throws op s t := exists x, tp_eval iter env (EBin op (EName s) (EName t)) = Throw x in
  (psyms (gp (m_tpol A)) <> [] -> throws BMul i a /\ throws BDiv i a) /\
  (length (psyms (gp (m_tpol A))) <> 1%nat -> throws BMul a i /\ throws BDiv a i).
Proof.
  intros Ea Ei W throws. destruct (mul_intervals iter I A W) as [H1 H2]. unfold throws. cbn [tp_eval rbind]. rewrite Ea, Ei. cbn [tp_bin].
  split; intros H; split.
  - exists InvalidArgument. rewrite H1 by auto. reflexivity.
  - exists InvalidArgument. change (tm_div_ig iter I A) with (tm_mul_ig iter I A). rewrite H1 by auto. reflexivity.
  - exists InvalidArgument. rewrite H2 by auto. reflexivity.
  - exists InvalidArgument. change (tm_div_gi iter A I) with (tm_mul_gi iter A I). rewrite H2 by auto. reflexivity.
Qed.
Lemma listed_cons s a l : listed s (a :: l) = true -> s = a \/ listed s l = true.
Proof. cbn. intros H. apply orb_true_iff in H. destruct H as [H|H]; auto. left. apply String.eqb_eq. exact H. Qed.
Lemma functions_named {iv : IvFun R} (iter : list (string * (R * R)) -> list (string * (R * R))) f : listed f model_functions = true ->
  exists F, (forall x, real1 F x = math_fun f x) /\
    forall t, tp_call iter f (TModel t) = rbind (tm_apply iter F t) (fun T => Ok (TModel T)) /\
      tp_method iter f (TModel t) = rbind (tm_apply iter F t) (fun T => Ok (TModel T)).
Proof.
  intros H. unfold model_functions in H.
  repeat (apply listed_cons in H; destruct H as [->|H]; [first [
    solve [exists Fexp; split; [reflexivity|intros t; split; reflexivity]] | solve [exists Flog; split; [reflexivity|intros t; split; reflexivity]] |
    solve [exists Fsqrt; split; [reflexivity|intros t; split; reflexivity]] | solve [exists Fsin; split; [reflexivity|intros t; split; reflexivity]] |
    solve [exists Fcos; split; [reflexivity|intros t; split; reflexivity]] | solve [exists Ftan; split; [reflexivity|intros t; split; reflexivity]] |
    solve [exists Fasin; split; [reflexivity|intros t; split; reflexivity]] | solve [exists Facos; split; [reflexivity|intros t; split; reflexivity]] |
    solve [exists Fatan; split; [reflexivity|intros t; split; reflexivity]] | solve [exists Fsinh; split; [reflexivity|intros t; split; reflexivity]] |
    solve [exists Fcosh; split; [reflexivity|intros t; split; reflexivity]] | solve [exists Ftanh; split; [reflexivity|intros t; split; reflexivity]] |
    solve [exists Fasinh; split; [reflexivity|intros t; split; reflexivity]] | solve [exists Facosh; split; [reflexivity|intros t; split; reflexivity]] |
    solve [exists Fatanh; split; [reflexivity|intros t; split; reflexivity]] | solve [exists Fabs; split; [reflexivity|intros t; split; reflexivity]]]|]).
  discriminate.
Qed.
