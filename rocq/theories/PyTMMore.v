(** * Python expressions over Taylor models (proof file for C52): consequences *)
From Coq Require Import String Ascii Reals Lra Lia List ZArith Bool.
From Verif Require Import Ops Syms SymsFacts Poly PolyFacts Gdual GdualFacts Functions Spec CoreProofs ElemR SpecTaylor Taylor TayProofs TayIdent Interval TaylorModel TMFunctions SpecTM TMArith TMPow TMGlue TMPoly PyFun SpecPy PyFunProofs PyTM SpecPyTM PyTMProofs.
Import ListNotations.
Open Scope R_scope.
Local Open Scope string_scope.

Section More.
  Context {iv : IvFun R}.
  Variable iter : list (string * (R * R)) -> list (string * (R * R)).

  Lemma model_polynomial n m tm env S pt e :
    (2 * Z.of_nat m < 4294967285)%Z -> models_hold tm env S pt ->
    (forall s, tm s = true -> valid (m_tpol (S s)) /\ (1 <= get_order (m_tpol (S s)) <= m)%nat /\ (n <= get_order (m_tpol (S s)))%nat) ->
    let y := inputs tm (fun s => m_tpol (S s)) pt in
    py_smooth tm e (y center) m -> proper tm n y e -> is_number tm e = false ->
    forall v, tp_eval iter env e = Ok v -> exists T, v = TModel T /\ (1 <= get_order (m_tpol T) <= m)%nat /\
      constant_cf (m_tpol T) = py_real e (y center) /\ taylor_of n (m_tpol T) (fun x => py_real e (y x)).
  Proof.
    intros HM HE HI y Sm Pr N v E. assert (H := eval_okt iter m n HM tm env S pt HE HI e Sm Pr). rewrite N in H.
    destruct (H v E) as (T & -> & X & O). exists T. split; auto. split; auto. split; [symmetry; exact (expands_at _ _ _ X)|apply X].
  Qed.

  Lemma model_gdual n tm env S genv pt e :
    (1 <= n)%nat -> (2 * Z.of_nat n < 4294967285)%Z -> models_hold tm env S pt ->
    (forall s, tm s = true -> input n n (m_tpol (S s)) /\ get_order (m_tpol (S s)) = n) ->
    names_hold tm genv (fun s => m_tpol (S s)) pt ->
    let y := inputs tm (fun s => m_tpol (S s)) pt in
    py_smooth tm e (y center) n -> proper tm n y e -> is_number tm e = false ->
    forall v, tp_eval iter env e = Ok v -> exists T g, v = TModel T /\ py_eval genv e = Ok (VGdual g) /\ geqb (m_tpol T) g = true.
  Proof.
    intros Hn HM HE HI HG y Sm Pr N v E.
    assert (HI1 : forall s, tm s = true -> input n n (m_tpol (S s))) by (intros s H; apply HI; auto).
    assert (HI2 : forall s, tm s = true -> valid (m_tpol (S s)) /\ (1 <= get_order (m_tpol (S s)) <= n)%nat /\ (n <= get_order (m_tpol (S s)))%nat).
    { intros s H. destruct (HI s H) as [I O]. split; [apply (input_ok n n _ I)|]. lia. }
    assert (H := eval_okt iter n n HM tm env S pt HE HI2 e Sm Pr). rewrite N in H. destruct (H v E) as (T & -> & X & O).
    assert (H' := eval_ok n n tm genv (fun s => m_tpol (S s)) pt HG HI1 e Sm). rewrite N in H'. destruct H' as (g & Eg & Y & _ & _ & O').
    exists T, g. split; auto. split; auto. apply (eq_of_expands n _ _ (fun x => py_real e (y x))); auto; lia.
  Qed.

  Lemma model_equal n tm env S pt e f :
    (1 <= n)%nat -> (2 * Z.of_nat n < 4294967285)%Z -> models_hold tm env S pt ->
    (forall s, tm s = true -> input n n (m_tpol (S s)) /\ get_order (m_tpol (S s)) = n) ->
    let y := inputs tm (fun s => m_tpol (S s)) pt in
    py_smooth tm e (y center) n -> proper tm n y e -> is_number tm e = false ->
    py_smooth tm f (y center) n -> proper tm n y f -> is_number tm f = false ->
    (exists d, 0 < d /\ forall z, (forall s, Rabs (z s - y center s) <= d) -> py_real e z = py_real f z) ->
    forall T U, tp_eval iter env e = Ok (TModel T) -> tp_eval iter env f = Ok (TModel U) -> geqb (m_tpol T) (m_tpol U) = true.
  Proof.
    intros Hn HM HE HI y Se Pe Ne Sf Pf Nf (d & Hd & EQ) T U ET EU.
    assert (HI1 : forall s, tm s = true -> input n n (m_tpol (S s))) by (intros s H; apply HI; auto).
    assert (HI2 : forall s, tm s = true -> valid (m_tpol (S s)) /\ (1 <= get_order (m_tpol (S s)) <= n)%nat /\ (n <= get_order (m_tpol (S s)))%nat).
    { intros s H. destruct (HI s H) as [I O]. split; [apply (input_ok n n _ I)|]. lia. }
    assert (H := eval_okt iter n n HM tm env S pt HE HI2 e Se Pe). rewrite Ne in H. destruct (H _ ET) as (T' & [= <-] & X & O).
    assert (H' := eval_okt iter n n HM tm env S pt HE HI2 f Sf Pf). rewrite Nf in H'. destruct (H' _ EU) as (U' & [= <-] & Y & O').
    apply (eq_of_expands n _ _ (fun x => py_real e (y x))); auto; try lia.
    eapply expands_fun; [|exact Y].
    destruct (inputs_near n n tm (fun s => m_tpol (S s)) pt HI1 (pnames e ++ pnames f) d Hd) as (d' & Hd' & B).
    exists d'. split; auto. intros x Hx.
    set (z := fun s => if in_dec string_dec s (pnames e ++ pnames f) then y x s else y center s).
    assert (Y1 : forall k, (forall s, In s (pnames k) -> In s (pnames e ++ pnames f)) -> py_real k (y x) = py_real k z).
    { intros k Hk. apply py_real_ext. intros s Hs. unfold z. destruct (in_dec _ _ _) as [|W]; auto. exfalso. auto. }
    cbv beta. fold y. rewrite (Y1 e), (Y1 f) by (intros; apply in_or_app; auto). symmetry. apply EQ.
    intros s. unfold z. destruct (in_dec _ _ _); [apply B; auto|]. rewrite Rminus_eq_0, Rabs_R0. lra.
  Qed.

  (** ** Integers as floats *)
  Lemma tm_pow_fbar A w T : tm_pow iter A w = Ok T -> exists F, f_bar_remainder_bounds iter A = Ok F.
  Proof. unfold tm_pow. intros E. apply rbind_Ok in E. destruct E as (F & E & _). eauto. Qed.
  Lemma same_number a b : same_value a b -> match a, b with VGdual _, _ | _, VGdual _ => True | _, _ => as_double a = as_double b end.
  Proof. destruct a, b; cbn; auto; intros [= E]; auto. Qed.
  Lemma tp_pow_same A a b T : same_value a b -> (forall z, b <> VInt z) -> (forall d, b <> VGdual d) -> tp_pow iter A b = Ok T -> tp_pow iter A a = Ok T.
  Proof.
    intros Sv Hb Hg E. destruct b as [z|w|d]; [exfalso; eapply Hb; reflexivity| |exfalso; eapply Hg; reflexivity].
    destruct a as [z|w'|d]; cbn in *; [| |contradiction].
    - injection Sv as Sv. rewrite <- Sv in E. destruct (_ && _)%bool; auto.
      destruct (tm_pow_fbar A _ T E) as [F EF]. rewrite <- (proj1 (pow_dispatch iter A F EF z)). auto.
    - injection Sv as Sv. rewrite Sv. auto.
  Qed.
  Lemma number_float op a b v : number (py_bin op a b) = Ok v -> not_int (TNum a) -> not_int v.
  Proof.
    intros E Na z. unfold number in E. apply rbind_Ok in E. destruct E as (u & E & [= <-]). intros [= ->].
    destruct a as [k|x|d]; [eapply Na; reflexivity| |]; destruct b as [k'|x'|d'], op; cbn in E; try discriminate; unfold num_div, num_pow in E;
      repeat match type of E with (if ?c then _ else _) = _ => destruct c; try discriminate end.
  Qed.
  Lemma same_call name a b v : same_value a b -> number (py_call name b) = Ok v -> not_int v /\ exists w, number (py_call name a) = Ok w /\ same_t w v.
  Proof.
    intros Sv E. unfold number in *. apply rbind_Ok in E. destruct E as (u & E & [= <-]). unfold py_call in *.
    destruct (lookup name module_table) as [h|]; [|discriminate].
    pose proof (same_number _ _ Sv) as A. destruct a as [z|x|d], b as [z'|x'|d']; cbn in Sv; try contradiction; cbn in A.
    1,2,3,4: injection E as <-; split; [intros k; discriminate|]; eexists; split; [reflexivity|]; cbn; cbn in A; rewrite ?A; reflexivity.
    subst d'. split.
    - intros z [= ->]. destruct (gdual_fun h d); cbn in E; discriminate.
    - rewrite E. exists (TNum u). split; [reflexivity|apply same_refl].
  Qed.

  Lemma floats_model env e : (forall s, not_int (env s)) -> forall v, tp_eval iter env (floats e) = Ok v ->
    not_int v /\ exists w, tp_eval iter env e = Ok w /\ same_t w v.
  Proof.
    intros HE. induction e as [z|x|s|op a IHa b IHb|a IHa|a IHa|f a IHa|f a IHa]; intros v E; cbn [tp_eval floats] in E.
    - injection E as <-. split; [intros k; discriminate|]. exists (TNum (VInt z)). split; reflexivity.
    - injection E as <-. split; [intros k; discriminate|]. exists (TNum (VFloat x)). split; reflexivity.
    - injection E as <-. split; [apply HE|]. exists (env s). split; [reflexivity|]. destruct (env s); cbn; auto. apply same_refl.
    - apply rbind_Ok in E. destruct E as (va & Ea & E). apply rbind_Ok in E. destruct E as (vb & Eb & E).
      destruct (IHa va Ea) as (Na & wa & Ea' & Sa). destruct (IHb vb Eb) as (Nb & wb & Eb' & Sb).
      cbn [tp_eval]. rewrite Ea', Eb'. cbn [rbind].
      destruct wa as [ra|ta|ia], va as [ra'|ta'|ia']; cbn in Sa; try contradiction; destruct wb as [rb|tb|ib], vb as [rb'|tb'|ib']; cbn in Sb; try contradiction; subst.
      + rewrite bin_numbers in *. split; [apply (number_float op ra' rb' v E Na)|].
        pose proof (same_bin op _ _ _ _ Sa Sb) as H. unfold number in *. apply rbind_Ok in E. destruct E as (u & E & [= <-]). rewrite E in H.
        destruct (py_bin op ra rb) as [w|]; cbn in H; [|contradiction]. exists (TNum w). split; [reflexivity|exact H].
      + pose proof (same_number _ _ Sa) as D. destruct ra as [z|x|d], ra' as [z'|x'|d']; cbn in Sa; try contradiction; try (cbn in E; discriminate);
        cbn [tp_bin as_double] in *; destruct op; try discriminate; try rewrite D; (split; [|exists v; split; [exact E|]]);
          unfold model in E; apply rbind_Ok in E; destruct E as (T & ET & [= <-]); try (intros k; discriminate); reflexivity.
      + cbn in E. destruct ra' as [z'|x'|d']; discriminate.
      + assert (D := same_number _ _ Sb). assert (ND : forall d, rb' <> VGdual d) by (intros d ->; discriminate E).
        destruct op.
        5:{ assert (E' : model (tp_pow iter ta' rb') = Ok v) by (rewrite <- E; destruct rb'; [reflexivity|reflexivity|exfalso; eapply ND; reflexivity]).
            unfold model in E'. apply rbind_Ok in E'. destruct E' as (T & ET & [= <-]). split; [intros k; discriminate|]. exists (TModel T). split; [|reflexivity].
            assert (Q : tp_pow iter ta' rb = Ok T) by (apply (tp_pow_same ta' rb rb'); auto; intros z ->; eapply Nb; reflexivity).
            destruct rb as [z|x|d]; cbn [tp_bin]; [rewrite Q; reflexivity|rewrite Q; reflexivity|].
            destruct rb'; cbn in Sb; try contradiction. exfalso. eapply ND; reflexivity. }
        1,2,3,4: destruct rb as [z|x|d], rb' as [z'|x'|d']; cbn in Sb; try contradiction; try (cbn in E; discriminate);
          cbn [tp_bin as_double] in *; try rewrite D; (split; [|exists v; split; [exact E|]]);
          unfold model in E; apply rbind_Ok in E; destruct E as (T & ET & [= <-]); try (intros k; discriminate); reflexivity.
      + split; [|exists v; split; [exact E|]]; cbn [tp_bin] in E; destruct op; try discriminate; unfold model in E; apply rbind_Ok in E; destruct E as (T & ET & [= <-]);
          try (intros k; discriminate); reflexivity.
      + split; [|exists v; split; [exact E|]]; cbn [tp_bin] in E; destruct op; try discriminate; unfold model in E; apply rbind_Ok in E; destruct E as (T & ET & [= <-]);
          try (intros k; discriminate); reflexivity.
      + discriminate.
      + split; [|exists v; split; [exact E|]]; cbn [tp_bin] in E; destruct op; try discriminate; unfold model in E; apply rbind_Ok in E; destruct E as (T & ET & [= <-]);
          try (intros k; discriminate); reflexivity.
      + discriminate.
    - apply rbind_Ok in E. destruct E as (va & Ea & E). destruct (IHa va Ea) as (Na & wa & Ea' & Sa). cbn [tp_eval]. rewrite Ea'. cbn [rbind].
      destruct wa as [ra|ta|ia], va as [ra'|ta'|ia']; cbn in Sa; try contradiction; cbn [tp_neg] in *; try discriminate.
      + injection E as <-. split.
        * intros k [= H]. destruct ra' as [z|x|d]; try discriminate. eapply Na; reflexivity.
        * exists (TNum (py_neg ra)). split; [reflexivity|]. destruct ra, ra'; cbn in *; try contradiction; try injection Sa as Sa; subst; rewrite ?opp_IZR, ?Sa; auto.
      + subst. split; [|exists v; split; [exact E|]]; unfold model in E; apply rbind_Ok in E; destruct E as (T & ET & [= <-]); try (intros k; discriminate); reflexivity.
    - apply rbind_Ok in E. destruct E as (va & Ea & E). destruct (IHa va Ea) as (Na & wa & Ea' & Sa). cbn [tp_eval]. rewrite Ea'. cbn [rbind].
      destruct wa as [ra|ta|ia], va as [ra'|ta'|ia']; cbn in Sa; try contradiction; cbn [tp_pos] in *; try discriminate.
      injection E as <-. split.
      + intros k [= H]. destruct ra' as [z|x|d]; try discriminate. eapply Na; reflexivity.
      + exists (TNum (py_pos ra)). split; [reflexivity|]. destruct ra, ra'; cbn in *; try contradiction; subst; auto.
    - apply rbind_Ok in E. destruct E as (va & Ea & E). destruct (IHa va Ea) as (Na & wa & Ea' & Sa). cbn [tp_eval]. rewrite Ea'. cbn [rbind].
      destruct wa as [ra|ta|ia], va as [ra'|ta'|ia']; cbn in Sa; try contradiction; cbn [tp_call] in *; try discriminate.
      + apply (same_call f ra ra' v Sa E).
      + subst. destruct (lookup f tm_module_table); [|discriminate].
        split; [|exists v; split; [exact E|]]; unfold model in E; apply rbind_Ok in E; destruct E as (T & ET & [= <-]); try (intros k; discriminate); reflexivity.
    - apply rbind_Ok in E. destruct E as (va & Ea & E). destruct (IHa va Ea) as (Na & wa & Ea' & Sa). cbn [tp_eval]. rewrite Ea'. cbn [rbind].
      destruct wa as [ra|ta|ia], va as [ra'|ta'|ia']; cbn in Sa; try contradiction; cbn [tp_method] in *; try discriminate.
      + destruct ra as [z|x|d], ra' as [z'|x'|d']; cbn in Sa; try contradiction; try discriminate. subst d'.
        split; [|exists v; split; [exact E|]]; unfold number in E; apply rbind_Ok in E; destruct E as (u & E & [= <-]).
        * intros k [= ->]. cbn in E. destruct (lookup f method_table) as [h|]; [|discriminate]. destruct (gdual_fun h d); cbn in E; discriminate.
        * apply same_refl.
      + subst. destruct (lookup f tm_method_table); [|discriminate].
        split; [|exists v; split; [exact E|]]; unfold model in E; apply rbind_Ok in E; destruct E as (T & ET & [= <-]); try (intros k; discriminate); reflexivity.
  Qed.
End More.

Lemma tm_methods (K : Type) (oK : Ops K) (eK : Elem K) (iv : IvFun K) (iter : list (string * (K * K)) -> list (string * (K * K))) (t : taylor_model K) :
  (forall f, lookup f tm_module_table <> None -> tp_method iter f (TModel t) = tp_call iter f (TModel t)) /\
  (forall f g, In (f, g) numpy_names -> tp_method iter f (TModel t) = tp_call iter g (TModel t)).
Proof.
  split.
  - intros f. unfold tm_module_table. rewrite !lookup_cons.
    repeat match goal with |- (if String.eqb f ?s then _ else _) <> _ -> _ =>
      destruct (String.eqb f s) eqn:?; [one; intros _; reflexivity|] end.
    intros H. exfalso. apply H. reflexivity.
  - intros f g. cbn [numpy_names In]. intros H. repeat (destruct H as [[= <- <-]|H]; [reflexivity|]). contradiction.
Qed.
