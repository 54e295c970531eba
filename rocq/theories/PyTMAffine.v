(** * Python expressions over Taylor models (proof file for C52): sums and multiples *)
From Coq Require Import String Ascii Reals Lra Lia List ZArith Bool.
From Verif Require Import Ops Syms SymsFacts Poly PolyFacts Gdual GdualFacts Functions Spec CoreProofs ElemR SpecTaylor Interval TaylorModel TMFunctions SpecTM TMMaps TMArith TMPow TMGlue TMPoly PyFun SpecPy PyFunProofs PyTM SpecPyTM PyTMProofs.
Import ListNotations.
Open Scope R_scope.
Local Open Scope string_scope.

Lemma sym_add I J : fst I = - snd I -> fst J = - snd J -> fst (iadd I J) = - snd (iadd I J).
Proof. intros H H'. cbn. rewrite H, H'. ring. Qed.
Lemma sym_sub I J : fst I = - snd I -> fst J = - snd J -> fst (isub I J) = - snd (isub I J).
Proof. intros H H'. cbn. rewrite H, H'. ring. Qed.
Lemma sym_mul_r I c : fst I = - snd I -> fst (imul I (ipt c)) = - snd (imul I (ipt c)).
Proof.
  intros H. unfold imul. cbn [fst snd ipt]. rewrite !kmin_Rmin, !kmax_Rmax, H. cbn.
  replace (- snd I * c) with (- (snd I * c)) by ring. unfold Rmin, Rmax. repeat destruct (Rle_dec _ _); lra.
Qed.
Lemma sym_mul_l I c : fst I = - snd I -> fst (imul (ipt c) I) = - snd (imul (ipt c) I).
Proof.
  intros H. unfold imul. cbn [fst snd ipt]. rewrite !kmin_Rmin, !kmax_Rmax, H. cbn.
  replace (c * - snd I) with (- (c * snd I)) by ring. unfold Rmin, Rmax. repeat destruct (Rle_dec _ _); lra.
Qed.

Section Affine.
  Context {iv : IvFun R}.
  Variable iter : list (string * (R * R)) -> list (string * (R * R)).
  Variables (tm : string -> bool) (env : string -> tval R) (S : string -> taylor_model R) (pt : string -> R).
  Hypothesis HE : models_hold tm env S pt.

  Lemma number_eval e q : (forall s, tm s = false -> q s = pt s) -> is_number tm e = true -> py_smooth tm e pt 0 ->
    (exists v, tp_eval iter env e = Ok (TNum v) /\ number_of v = Some (py_real e pt)) /\ py_real e q = py_real e pt.
  Proof.
    intros Q. induction e as [z|x|s|op a IHa b IHb|a IHa|a IHa|f a IHa|f a IHa]; cbn [is_number py_smooth]; intros N Sm.
    - split; [exists (VInt z); auto|auto].
    - split; [exists (VFloat x); auto|auto].
    - apply negb_true_iff in N. specialize (HE s). rewrite N in HE. split; [exists (VFloat (pt s)); cbn; rewrite HE; auto|cbn; auto].
    - apply andb_true_iff in N. destruct N as [Na Nb], Sm as (Sa & Sb & D). rewrite Nb in D.
      destruct (IHa Na Sa) as ((v & Ev & Nv) & Ca), (IHb Nb Sb) as ((w & Ew & Nw) & Cb).
      destruct (num_bin op v w _ _ Nv Nw D) as (u & Eu & Nu). split; [|destruct op; cbn; rewrite Ca, Cb; reflexivity].
      exists u. cbn [tp_eval]. rewrite Ev, Ew. cbn [rbind]. rewrite bin_numbers, Eu, Nu. split; [reflexivity|]. destruct op; reflexivity.
    - destruct (IHa N Sm) as ((v & Ev & Nv) & Ca). split; [|cbn; rewrite Ca; auto].
      exists (py_neg v). cbn. rewrite Ev. split; [reflexivity|].
      destruct (number_cases _ _ Nv) as [(z & -> & ->)| ->]; cbn; auto. rewrite opp_IZR. auto.
    - destruct (IHa N Sm) as ((v & Ev & Nv) & Ca). split; [|cbn; rewrite Ca; auto].
      exists v. cbn. rewrite Ev. split; [destruct v; [reflexivity|reflexivity|discriminate]|exact Nv].
    - destruct Sm as [Sa D]. unfold math_ok in D.
      destruct (lookup f math_table) as [m|] eqn:Em; [|contradiction]. destruct D as [D U].
      assert (MV : forall x, math_fun f x = mf_val m x) by (intros; unfold math_fun; rewrite Em; auto).
      destruct (module_math f m Em) as (h & Eh & Mh).
      destruct (IHa N Sa) as ((v & Ev & Nv) & Ca). split; [|cbn; rewrite Ca; auto].
      exists (VFloat (std_fun h (as_double v))). cbn. rewrite Ev. cbn. unfold py_call. rewrite Eh.
      rewrite (as_double_number _ _ Nv), std_real, MV, (proj1 Mh).
      split; [destruct v; [reflexivity|reflexivity|discriminate]|reflexivity].
    - destruct Sm as (_ & _ & X). congruence.
  Qed.

  Variables (D : point -> Prop) (F : string -> point -> R) (c : string -> R) (J : string -> R * R) (sy : Prop).
  Hypothesis HI : forall s, tm s = true -> represents D (S s) (F s) /\ about c J (S s) /\ (sy -> symmetric (S s)).
  Definition oka (t : taylor_model R) (f : point -> R) : Prop := represents D t f /\ about c J t /\ (sy -> symmetric t).
  Let y (x : point) := values tm F pt x.

  Lemma oka_fun t f g : (forall x, f x = g x) -> oka t f -> oka t g.
  Proof. intros E ((W & X) & A). split; auto. split; auto. intros x Hx. rewrite <- E. auto. Qed.
  Lemma oka_make A f p r T g : oka A f -> tm_make p r (m_exp A) (m_domain A) = Ok T -> represents D T g -> (sy -> fst r = - snd r) -> oka T g.
  Proof.
    intros (_ & X & _) E RT Y. apply make_fields in E. split; auto. subst T. split; [exact X|]. exact Y.
  Qed.
  Lemma about_same A B : about c J A -> about c J B -> same_centers A B /\ close_centers A B /\ close_domains A B.
  Proof.
    intros [H1 H2] [K1 K2]. assert (P : forall u, close u u) by (intros u; unfold close; rewrite Rminus_eq_0, Rabs_R0; lra).
    split; [|split].
    - intros s u v Hu Hv. rewrite (H1 _ _ Hu), (K1 _ _ Hv). auto.
    - intros s u v Hu Hv. rewrite (H1 _ _ Hu), (K1 _ _ Hv). auto.
    - intros s u v Hu Hv. rewrite (H2 _ _ Hu), (K2 _ _ Hv). auto.
  Qed.
  (** The maps of a sum. *)
  Lemma merged_about A B p r ce cd ne nd T : well_formed A -> well_formed B -> about c J A -> about c J B ->
    common_exp A B = Ok ce -> common_domain A B = Ok cd -> trim_map (get_symbol_set p) ce = Ok ne -> trim_map (get_symbol_set p) cd = Ok nd ->
    tm_make p r ne nd = Ok T -> about c J T /\ m_rem T = r.
  Proof.
    intros WA WB [A1 A2] [B1 B2] E1 E2 E3 E4 E5.
    assert (C1 := common_spec scalar_equal (m_exp A) (m_exp B) (wf_exp _ WA) (wf_exp _ WB)). unfold common_exp in E1. rewrite E1 in C1.
    assert (C2 := common_spec interval_equal (m_domain A) (m_domain B) (wf_dom _ WA) (wf_dom _ WB)). unfold common_domain in E2. rewrite E2 in C2.
    destruct C1 as (K1 & _ & M1), C2 as (K2 & _ & M2).
    assert (T1 := trim_spec (get_symbol_set p) ce K1). rewrite E3 in T1. destruct T1 as (_ & _ & T1).
    assert (T2 := trim_spec (get_symbol_set p) cd K2). rewrite E4 in T2. destruct T2 as (_ & _ & T2).
    apply make_fields in E5. subst T. split; [|reflexivity]. split; cbn [m_exp m_domain].
    - intros s v H. apply T1 in H. destruct H as [_ H]. apply M1 in H. destruct H as [H|[H _]]; eauto.
    - intros s v H. apply T2 in H. destruct H as [_ H]. apply M2 in H. destruct H as [H|[H _]]; eauto.
  Qed.
  Lemma oka_add A B f g : oka A f -> oka B g -> exists T, tm_add A B = Ok T /\ oka T (fun x => f x + g x).
  Proof.
    intros ((WA & XA) & AA & SA) ((WB & XB) & AB & SB). destruct (about_same A B AA AB) as (C1 & C2 & C3).
    destruct (tm_add_cases A B WA WB) as (H & _ & H'). destruct (H (conj C2 C3)) as [T E]. exists T. split; auto. split; [apply H'; auto|].
    unfold tm_add in E. apply rbind_Ok in E. destruct E as (ce & E1 & E). apply rbind_Ok in E. destruct E as (cd & E2 & E).
    apply rbind_Ok in E. destruct E as (ne & E3 & E). apply rbind_Ok in E. destruct E as (nd & E4 & E).
    destruct (merged_about A B _ _ _ _ _ _ T WA WB AA AB E1 E2 E3 E4 E) as [AT RT]. split; auto. intros Y. unfold symmetric. rewrite RT. apply sym_add; [apply SA|apply SB]; auto.
  Qed.
  Lemma oka_sub A B f g : oka A f -> oka B g -> exists T, tm_sub A B = Ok T /\ oka T (fun x => f x - g x).
  Proof.
    intros ((WA & XA) & AA & SA) ((WB & XB) & AB & SB). destruct (about_same A B AA AB) as (C1 & C2 & C3).
    destruct (tm_sub_cases A B WA WB) as (H & _ & H'). destruct (H (conj C2 C3)) as [T E]. exists T. split; auto. split; [apply H'; auto|].
    unfold tm_sub in E. apply rbind_Ok in E. destruct E as (ce & E1 & E). apply rbind_Ok in E. destruct E as (cd & E2 & E).
    apply rbind_Ok in E. destruct E as (ne & E3 & E). apply rbind_Ok in E. destruct E as (nd & E4 & E).
    destruct (merged_about A B _ _ _ _ _ _ T WA WB AA AB E1 E2 E3 E4 E) as [AT RT]. split; auto. intros Y. unfold symmetric. rewrite RT. apply sym_sub; [apply SA|apply SB]; auto.
  Qed.

  Lemma affine_eval e : affine tm e -> sy \/ no_negation tm e -> py_smooth tm e pt 0 -> is_number tm e = false ->
    exists T, tp_eval iter env e = Ok (TModel T) /\ oka T (fun x => py_real e (y x)).
  Proof.
    assert (Q : forall x s, tm s = false -> y x s = pt s) by (intros x s H; unfold y, values; rewrite H; auto).
    induction e as [z|x|s|op a IHa b IHb|a IHa|a IHa|f a IHa|f a IHa]; cbn [is_number py_smooth affine no_negation]; intros Af Sy Sm N; try discriminate.
    - apply negb_false_iff in N. exists (S s). cbn. specialize (HE s). rewrite N in HE. rewrite HE. split; auto.
      apply (oka_fun _ (F s)); [intros x; unfold y, values; rewrite N; auto|apply HI; auto].
    - destruct Af as (Aa & Ab & Ao), Sm as (Sa & Sb & Dd).
      assert (Sya : sy \/ no_negation tm a) by tauto. assert (Syb : sy \/ no_negation tm b) by tauto.
      destruct (is_number tm a) eqn:Na, (is_number tm b) eqn:Nb; cbn [andb] in N; try discriminate.
      + destruct (IHb Ab Syb Sb eq_refl) as (B & EB & OB). assert (OB' := OB). destruct OB' as (RB & AB & YB).
        destruct (number_eval a (y (fun _ => 0)) (Q _) Na Sa) as ((v & Ev & Nv) & _).
        assert (Ca : forall x, py_real a (y x) = py_real a pt) by (intros x; apply (number_eval a (y x) (Q x) Na Sa)).
        set (w := py_real a pt) in *. pose proof (as_double_number _ _ Nv) as Dv.
        assert (E' : tp_eval iter env (EBin op a b) = match op with BAdd => model (tm_add_sg w B) | BSub => model (tm_sub_sg w B) | BMul => model (tm_mul_sg w B)
            | BDiv => model (tm_div_sg iter w B) | BPow => Throw OtherException end).
        { cbn [tp_eval]. rewrite Ev, EB. cbn [rbind]. rewrite <- Dv. destruct v; [reflexivity|reflexivity|discriminate]. }
        rewrite E'. destruct (add_scalars B D _ w RB) as ((T1 & E1 & R1) & _). destruct (mul_scalars B D _ w RB) as ((T2 & E2 & R2) & _).
        destruct op; try (destruct Ao; discriminate); try discriminate Ao.
        * exists T1. rewrite E1. split; [reflexivity|]. apply (oka_fun _ (fun x => w + py_real b (y x))); [intros x; cbn; rewrite Ca; auto|].
          apply (oka_make B _ _ _ T1 _ OB E1 R1); auto.
        * destruct Sy as [Sy|(_ & _ & [Sy|Sy])]; try discriminate. destruct (negations B D _ w RB (YB Sy)) as ((T3 & E3 & R3) & _).
          exists T3. rewrite E3. split; [reflexivity|]. apply (oka_fun _ (fun x => w - py_real b (y x))); [intros x; cbn; rewrite Ca; auto|].
          apply (oka_make B _ _ _ T3 _ OB E3 R3); auto.
        * exists T2. rewrite E2. split; [reflexivity|]. apply (oka_fun _ (fun x => w * py_real b (y x))); [intros x; cbn; rewrite Ca; auto|].
          apply (oka_make B _ _ _ T2 _ OB E2 R2). intros Y. apply sym_mul_l. apply YB; auto.
      + destruct (IHa Aa Sya Sa eq_refl) as (A & EA & OA). assert (OA' := OA). destruct OA' as (RA & AA & YA).
        destruct (number_eval b (y (fun _ => 0)) (Q _) Nb Sb) as ((v & Ev & Nv) & _).
        assert (Cb : forall x, py_real b (y x) = py_real b pt) by (intros x; apply (number_eval b (y x) (Q x) Nb Sb)).
        set (w := py_real b pt) in *. pose proof (as_double_number _ _ Nv) as Dv.
        assert (E' : tp_eval iter env (EBin op a b) = match op with BAdd => model (tm_add_gs A w) | BSub => model (tm_sub_gs A w) | BMul => model (tm_mul_gs A w)
            | BDiv => model (tm_div_gs A w) | BPow => model (tp_pow iter A v) end).
        { cbn [tp_eval]. rewrite Ev, EA. cbn [rbind]. rewrite <- Dv. destruct v; [reflexivity|reflexivity|discriminate]. }
        rewrite E'. destruct (add_scalars A D _ w RA) as (_ & (T1 & E1 & R1) & (T2 & E2 & R2)). destruct (mul_scalars A D _ w RA) as (_ & (T3 & E3 & R3)).
        destruct op; try (destruct Ao; discriminate).
        * exists T1. rewrite E1. split; [reflexivity|]. apply (oka_fun _ (fun x => py_real a (y x) + w)); [intros x; cbn; rewrite Cb; auto|].
          apply (oka_make A _ _ _ T1 _ OA E1 R1); auto.
        * exists T2. rewrite E2. split; [reflexivity|]. apply (oka_fun _ (fun x => py_real a (y x) - w)); [intros x; cbn; rewrite Cb; auto|].
          apply (oka_make A _ _ _ T2 _ OA E2 R2); auto.
        * exists T3. rewrite E3. split; [reflexivity|]. apply (oka_fun _ (fun x => py_real a (y x) * w)); [intros x; cbn; rewrite Cb; auto|].
          apply (oka_make A _ _ _ T3 _ OA E3 R3). intros Y. apply sym_mul_r. apply YA; auto.
        * destruct (div_number A D _ w RA Dd) as (T4 & E4 & R4). exists T4. rewrite E4. split; [reflexivity|].
          apply (oka_fun _ (fun x => py_real a (y x) / w)); [intros x; cbn; rewrite Cb; auto|].
          unfold tm_div_gs in E4. apply rbind_Ok in E4. destruct E4 as (r & Er & E4). apply (oka_make A _ _ _ T4 _ OA E4 R4).
          intros Y. unfold idiv in Er. destruct (zero_in _); [discriminate|]. injection Er as <-. apply sym_mul_r. apply YA; auto.
      + destruct (IHa Aa Sya Sa eq_refl) as (A & EA & OA). destruct (IHb Ab Syb Sb eq_refl) as (B & EB & OB).
        cbn [tp_eval]. rewrite EA, EB. cbn [rbind tp_bin].
        destruct op; try (destruct Ao; discriminate); try discriminate Ao.
        * destruct (oka_add A B _ _ OA OB) as (T & E & O). exists T. rewrite E. split; [reflexivity|exact O].
        * destruct (oka_sub A B _ _ OA OB) as (T & E & O). exists T. rewrite E. split; [reflexivity|exact O].
    - destruct Sy as [Sy|[_ Sy]]; [|congruence]. destruct (IHa Af (or_introl Sy) Sm N) as (A & EA & OA). assert (OA' := OA). destruct OA' as (RA & AA & YA).
      destruct (negations A D _ 0 RA (YA Sy)) as (_ & (T & E & RT)). exists T. cbn [tp_eval]. rewrite EA. cbn [rbind tp_neg]. rewrite E. split; [reflexivity|].
      apply (oka_make A _ _ _ T _ OA E RT); auto.
    - destruct Af; congruence.
    - destruct Af; congruence.
    - contradiction.
  Qed.
End Affine.

Lemma affine_enclosed {iv : IvFun R} (iter : list (string * (R * R)) -> list (string * (R * R))) tm env S pt (D : point -> Prop) F c J e :
  models_hold tm env S pt -> (forall s, tm s = true -> represents D (S s) (F s) /\ about c J (S s)) ->
  (forall s, tm s = true -> symmetric (S s)) \/ no_negation tm e -> affine tm e -> py_smooth tm e pt 0 -> is_number tm e = false ->
  exists T, tp_eval iter env e = Ok (TModel T) /\ represents D T (fun x => py_real e (values tm F pt x)) /\ about c J T.
Proof.
  intros HE HI Sy Af Sm N.
  destruct (affine_eval iter tm env S pt HE D F c J (forall s, tm s = true -> symmetric (S s))) with (e := e) as (T & E & (RT & AT & _)); auto.
  - intros s H. destruct (HI s H). auto.
  - exists T. auto.
Qed.
