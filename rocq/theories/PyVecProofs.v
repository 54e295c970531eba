(** * Python expressions over gdual_vdouble (proof file). *)
From Coq Require Import String List Arith Bool Lia ZArith.
From Verif Require Import Ops Syms SymsFacts Poly PolyFacts Sem Den Gdual GdualFacts Functions Spec CoefFacts FunAlg
  Vectorized SpecVec CompRel VecProofs PyFun PyVec SpecPyVec.
Import ListNotations.
Local Open Scope string_scope.

Section PyVecProofs.
  Context {K : Type} {o : Ops K} {fl : FieldLaws o} {e : Elem K} {N i : nat}.
  Hypothesis Hi : (i < N)%nat.
  Hypothesis Hsign : forall z : K, z <> k0 -> kltb k0 z = negb (kltb z k0).
  Hypothesis H00 : kltb (k0 : K) k0 = false.

  #[local] Instance HCv : Hom (OpsVec (N := N)) o (component N i) := Hom_comp Hi.
  #[local] Instance HEv : HomElem (ElemVec (N := N)) e (component N i) := HomElem_comp Hi.

  Definition plain_num (v : pyval K) : Prop := match v with VGdual _ => False | _ => True end.
  Lemma num_is v w : is_component N i (WPlain v) w <-> plain_num v /\ v = w.
  Proof.
    destruct v, w; cbn; split; intros H; try tauto; (destruct H; subst; auto; congruence) || (subst; auto) || (destruct H; congruence).
  Qed.
  Lemma num_bin op v w r : plain_num v -> plain_num w -> py_bin op v w = Ok r -> plain_num r.
  Proof.
    destruct v, w; cbn [plain_num py_bin]; try tauto; intros _ _; destruct op; unfold num_div, int_pow, num_pow;
      repeat match goal with |- (if ?b then _ else _) = Ok _ -> _ => destruct b end; intros E; inversion E; subst; cbn; auto.
  Qed.
  Lemma vbin_plain op (v w : pyval K) : vpy_bin (N := N) op (WPlain v) (WPlain w) = rbind (py_bin op v w) (fun r => Ok (WPlain r)).
  Proof. destruct v, w; reflexivity. Qed.
  Lemma gfun_outcome f g h : both N i true g h ->
    (f = P1 Fabs -> length (vl (constant_cf g)) = N \/ kltb (component N i (constant_cf g)) k0 = false) ->
    match gdual_vfun f g, gdual_fun f h with
    | Ok a, Ok b => both N i true a b | Throw x, Throw y => x = y | _, _ => False end.
  Proof.
    intros B A. destruct f as [f|f]; cbn [gdual_vfun gdual_fun].
    - assert (D : f = Fabs \/ f <> Fabs) by (destruct f; auto; right; discriminate).
      destruct D as [->|D]; [apply both_abs; auto|]. destruct f; try contradiction; apply both_fun1; auto.
    - pose proof (both_crel Hi Hsign H00 _ _ _ B) as R.
      assert (Es : get_symbol_set g = get_symbol_set h) by (unfold get_symbol_set; f_equal; exact (cr_syms _ _ _ _ R eq_refl)).
      pose proof (crel_funD (component N i) true f g h Es R) as S.
      unfold rres in S. destruct (runD f g) as [a|x] eqn:E1, (runD f h) as [b|y] eqn:E2; auto.
      apply (both_funD N i true f g h); auto.
  Qed.
  Lemma lookup_abs t f : (t = module_table \/ t = method_table) -> lookup f t = Some (P1 Fabs) -> f = "abs".
  Proof.
    intros T L. unfold lookup in L. destruct (find _ t) as [p|] eqn:E; [|discriminate]. apply find_some in E. destruct E as [I E].
    apply String.eqb_eq in E. subst f. injection L as L.
    destruct T as [-> | ->]; cbn [module_table method_table] in I; 
      repeat (destruct I as [<-|I]; [try discriminate L; try reflexivity|]); destruct I.
  Qed.

  Lemma eval_components env env' : (forall s, is_component N i (env s) (env' s)) -> forall p, steps_ok N i env env' p ->
    component_outcome N i (vpy_eval env p) (py_eval env' p).
  Proof.
    intros HE. induction p; cbn [steps_ok vpy_eval py_eval]; intros ST.
    - reflexivity.
    - reflexivity.
    - apply HE.
    - destruct ST as (S1 & S2 & SP). specialize (IHp1 S1). specialize (IHp2 S2).
      destruct (vpy_eval env p1) as [v|x] eqn:E1, (py_eval env' p1) as [w|y] eqn:E1'; cbn [component_outcome rbind] in *; try tauto.
      destruct (vpy_eval env p2) as [v2|x] eqn:E2, (py_eval env' p2) as [w2|y] eqn:E2'; cbn [component_outcome rbind] in *; try tauto.
      destruct v as [v|g], v2 as [v2|g2].
      + apply num_is in IHp1. apply num_is in IHp2. destruct IHp1 as [P1 <-], IHp2 as [P2 <-]. rewrite vbin_plain.
        destruct (py_bin op v v2) eqn:E; cbn [rbind component_outcome]; [|reflexivity]. apply num_is. split; auto. eapply num_bin; [exact P1|exact P2|exact E].
      + apply num_is in IHp1. destruct IHp1 as [P1 <-]. destruct w2 as [| |h2]; cbn [is_component] in IHp2; try tauto.
        assert (DG : op = BPow -> (gdegree g2 = 0 <-> gdegree h2 = 0)) by (intros; eapply SP; eauto).
        set (x := as_double v).
        assert (R : component_outcome N i (vpy_bin op (WPlain v) (WVec g2)) (py_bin op (VFloat x) (VGdual h2))).
        { destruct v; cbn [plain_num] in P1; try tauto; destruct op; cbn [vpy_bin py_bin component_outcome is_component as_double] in *;
            (apply both_pow_sg; auto) || exact (both_add_sg N i true (vec_num x) _ _ IHp2) || exact (both_sub_sg N i true (vec_num x) _ _ IHp2) ||
            exact (both_mul_sg N i true (vec_num x) _ _ IHp2) || exact (both_div_sg N i true (vec_num x) _ _ IHp2). }
        replace (py_bin op v (VGdual h2)) with (py_bin op (VFloat x) (VGdual h2)); [exact R|].
        destruct v; cbn [plain_num] in P1; try tauto; reflexivity.
      + apply num_is in IHp2. destruct IHp2 as [P2 <-]. destruct w as [| |h]; cbn [is_component] in IHp1; try tauto.
        set (x := as_double v2).
        assert (R : component_outcome N i (vpy_bin op (WVec g) (WPlain v2)) (py_bin op (VGdual h) (VFloat x))).
        { destruct v2; cbn [plain_num] in P2; try tauto; destruct op; cbn [vpy_bin py_bin component_outcome is_component as_double] in *;
            (apply both_pow_real; auto) || exact (both_add_gs N i true (vec_num x) _ _ IHp1) || exact (both_sub_gs N i true (vec_num x) _ _ IHp1) ||
            exact (both_mul_gs N i true (vec_num x) _ _ IHp1) || exact (both_div_gs N i true (vec_num x) _ _ IHp1). }
        replace (py_bin op (VGdual h) v2) with (py_bin op (VGdual h) (VFloat x)); [exact R|].
        destruct v2; cbn [plain_num] in P2; try tauto; reflexivity.
      + destruct w as [| |h]; cbn [is_component] in IHp1; try tauto. destruct w2 as [| |h2]; cbn [is_component] in IHp2; try tauto.
        cbn [vpy_bin py_bin component_outcome is_component].
        destruct op; [exact (both_add N i true true _ _ _ _ IHp1 IHp2)|exact (both_sub N i true true _ _ _ _ IHp1 IHp2)|
          exact (both_mul N i true true _ _ _ _ IHp1 IHp2)|exact (both_div N i true true _ _ _ _ IHp1 IHp2)|exact (both_pow N i true true _ _ _ _ IHp1 IHp2)].
    - specialize (IHp ST).
      destruct (vpy_eval env p) as [v|x] eqn:E1, (py_eval env' p) as [w|y] eqn:E1'; cbn [component_outcome rbind] in *; try tauto.
      destruct v as [v|g].
      + apply num_is in IHp. destruct IHp as [P1 <-]. cbn [vpy_neg]. apply num_is. destruct v; cbn in *; auto.
      + destruct w as [| |h]; cbn [is_component] in IHp; try tauto. cbn. apply both_neg; auto.
    - specialize (IHp ST).
      destruct (vpy_eval env p) as [v|x] eqn:E1, (py_eval env' p) as [w|y] eqn:E1'; cbn [component_outcome rbind] in *; try tauto.
      destruct v as [v|g].
      + apply num_is in IHp. destruct IHp as [P1 <-]. cbn [vpy_pos]. apply num_is. destruct v; cbn in *; auto.
      + destruct w as [| |h]; cbn [is_component] in IHp; try tauto.
    - destruct ST as [S1 SA]. specialize (IHp S1).
      destruct (vpy_eval env p) as [v|x] eqn:E1, (py_eval env' p) as [w|y] eqn:E1'; cbn [component_outcome rbind] in *; try tauto.
      destruct v as [v|g].
      + apply num_is in IHp. destruct IHp as [P1 <-]. cbn [vpy_call]. unfold py_call.
        destruct (lookup name module_table); [|reflexivity]. destruct v; cbn [plain_num] in P1; try tauto; reflexivity.
      + destruct w as [| |h]; cbn [is_component] in IHp; try tauto. cbn [vpy_call]. unfold py_call.
        destruct (lookup name module_table) as [f|] eqn:L; [|reflexivity].
        assert (G := gfun_outcome f g h IHp ltac:(intros ->; apply SA with (g := g); auto; eapply lookup_abs; [left; reflexivity|exact L])).
        destruct (gdual_vfun f g), (gdual_fun f h); cbn [rbind component_outcome is_component]; auto.
    - destruct ST as [S1 SA]. specialize (IHp S1).
      destruct (vpy_eval env p) as [v|x] eqn:E1, (py_eval env' p) as [w|y] eqn:E1'; cbn [component_outcome rbind] in *; try tauto.
      destruct v as [v|g].
      + apply num_is in IHp. destruct IHp as [P1 <-]. cbn [vpy_method]. unfold py_method.
        destruct v; cbn [plain_num] in P1; try tauto; destruct (lookup name method_table); reflexivity.
      + destruct w as [| |h]; cbn [is_component] in IHp; try tauto. cbn [vpy_method]. unfold py_method.
        destruct (lookup name method_table) as [f|] eqn:L; [|reflexivity].
        assert (G := gfun_outcome f g h IHp ltac:(intros ->; apply SA with (g := g); auto; eapply lookup_abs; [right; reflexivity|exact L])).
        destruct (gdual_vfun f g), (gdual_fun f h); cbn [rbind component_outcome is_component]; auto.
  Qed.
End PyVecProofs.
