(** * Proofs about Python scripts *)
From Coq Require Import String Ascii Reals List ZArith Bool Arith Lra Lia.
From Coquelicot Require Import Coquelicot.
From Verif Require Import Ops Syms SymsFacts Poly PolyFacts Sem Den Gdual GdualFacts Functions FunStruct Spec CoefFacts CoreProofs ValueProofs CalcProofs MiscProofs FunAlg ElemR Uni UniFun UniFun2 TayUnique TayQuad SpecTaylor
  Taylor TayFun TayProofs TayIdent TayDeriv PyFun SpecPy PyFunProofs PyScript SpecPyScript Smooth SmoothFun PyDeriv.
Import ListNotations.
Open Scope R_scope.
Local Open Scope string_scope.

Lemma ok_le m n k g f : (k <= n)%nat -> ok m n g f -> ok m k g f.
Proof.
  intros L ((V & O & T) & X). split; auto. split; auto. split; [destruct O; [left; lia|auto]|apply (taylor_le n); auto].
Qed.
(** ** Expressions over names that stand for any smooth functions *)
Section Expr.
  Variables (m : nat) (M : meaning) (env : string -> pyval R).
  Definition holds : Prop := forall s, if holds_gdual M s
    then (exists g, env s = VGdual g /\ ok m (order_of M s) g (fun_of M s)) /\ smoothf (fun_of M s)
    else exists c, number_of (env s) = Some c /\ forall x, fun_of M s x = c.
  Hypothesis H : holds.
  Let gd := holds_gdual M.

  Lemma number_at e x : is_number gd e = true -> py_real e (at_point M x) = py_real e (at_point M center).
  Proof.
    induction e as [z|v|s|op a IHa b IHb|a IHa|a IHa|f a IHa|f a IHa]; cbn; auto; intros E.
    - unfold at_point. specialize (H s). fold gd in H. destruct (gd s); [discriminate|]. destruct H as (c & _ & Hc). rewrite !Hc. auto.
    - apply andb_prop in E. destruct E as [H1 H2]. rewrite (IHa H1), (IHb H2). auto.
    - rewrite IHa; auto.
    - rewrite IHa; auto.
    - rewrite IHa; auto.
  Qed.
  Lemma smooth_expr e : py_smooth gd e (at_point M center) m -> smoothf (fun x => py_real e (at_point M x)).
  Proof.
    induction e as [z|v|s|op a IHa b IHb|a IHa|a IHa|f a IHa|f a IHa]; cbn [py_smooth]; intros S.
    - apply (smooth_const (IZR z)).
    - apply (smooth_const v).
    - cbn. unfold at_point. specialize (H s). fold gd in H. destruct (gd s); [apply H|]. destruct H as (c & _ & Hc).
      apply (smooth_ext (fun _ => c)); auto. apply smooth_const.
    - destruct S as (Ha & Hb & S). specialize (IHa Ha). specialize (IHb Hb). destruct op; cbn [py_real].
      + apply smooth_plus; auto.
      + apply smooth_minus; auto.
      + apply smooth_mult; auto.
      + apply smooth_div; auto.
      + destruct (is_number gd b) eqn:E; [|apply smooth_rpow; auto].
        apply (smooth_ext (fun x => rpow (py_real a (at_point M x)) (py_real b (at_point M center)))).
        * intros x. rewrite (number_at b x E). reflexivity.
        * apply smooth_rpow_const; auto.
    - cbn. apply smooth_opp; auto.
    - cbn. auto.
    - destruct S as (Ha & S). unfold math_ok in S. cbn [py_real]. unfold math_fun.
      destruct (lookup f math_table) as [mf|] eqn:E; [|contradiction]. apply (smooth_math f mf); auto. apply S.
    - destruct S as (Ha & S & _). unfold math_ok in S. cbn [py_real]. unfold math_fun.
      destruct (lookup (plain_name f) math_table) as [mf|] eqn:E; [|contradiction]. apply (smooth_math (plain_name f) mf); auto. apply S.
  Qed.

  Definition num_ok' (e : pyexpr R) : Prop := exists v, py_eval env e = Ok v /\ number_of v = Some (py_real e (at_point M center)).
  Definition gd_ok' (e : pyexpr R) : Prop := exists g, py_eval env e = Ok (VGdual g) /\ ok m (least_order M e) g (fun x => py_real e (at_point M x)).
  Lemma ok_ext' n g f f' : (forall x, f x = f' x) -> ok m n g f -> ok m n g f'.
  Proof. intros E. apply ok_fun. exists 1. split; [lra|auto]. Qed.

  Lemma eval_holds e : py_smooth gd e (at_point M center) m -> if is_number gd e then num_ok' e else gd_ok' e.
  Proof.
    induction e as [z|x|s|op a IHa b IHb|a IHa|a IHa|f a IHa|f a IHa]; cbn [is_number py_smooth]; intros Sm.
    - exists (VInt z). auto.
    - exists (VFloat x). auto.
    - specialize (H s). fold gd in H. destruct (gd s) eqn:E; cbn.
      + destruct H as ((g & Eg & O) & _). exists g. cbn. rewrite Eg. auto.
      + destruct H as (c & Ec & Hc). exists (env s). cbn. split; auto. unfold at_point. rewrite Hc. exact Ec.
    - destruct Sm as (Sa & Sb & D). specialize (IHa Sa). specialize (IHb Sb).
      assert (Ca := number_at a). assert (Cb := number_at b). unfold gd_ok'. cbn [least_order]. fold gd.
      destruct (is_number gd a), (is_number gd b); cbn [andb].
      + destruct IHa as (v & Ev & Nv), IHb as (w & Ew & Nw).
        pose proof (num_bin op v w _ _ Nv Nw D) as X.
        destruct X as (u & Eu & Nu). exists u. cbn [py_eval]. rewrite Ev, Ew. cbn [rbind]. rewrite Eu, Nu. split; [reflexivity|].
        destruct op; reflexivity.
      + destruct IHa as (v & Ev & Nv), IHb as (h & Eh & Hh).
        destruct (ok_sg m (least_order M b) op v _ h _ Nv Hh) as (r & Er & Hr); [destruct op; auto|].
        exists r. cbn [py_eval]. rewrite Ev, Eh. split; [exact Er|].
        eapply ok_ext'; [|exact Hr]. intros x. destruct op; cbn; rewrite ?(Ca x eq_refl); reflexivity.
      + destruct IHa as (h & Eh & Hh), IHb as (w & Ew & Nw).
        destruct (ok_gs m (least_order M a) op h _ w _ Hh Nw) as (r & Er & Hr); [destruct op; auto|].
        exists r. cbn [py_eval]. rewrite Ew, Eh. split; [exact Er|].
        eapply ok_ext'; [|exact Hr]. intros x. destruct op; cbn; rewrite ?(Cb x eq_refl); reflexivity.
      + destruct IHa as (h & Eh & Hh), IHb as (k & Ek & Hk).
        destruct (ok_gg m (Nat.min (least_order M a) (least_order M b)) op h k _ _ (ok_le _ _ _ _ _ (Nat.le_min_l _ _) Hh) (ok_le _ _ _ _ _ (Nat.le_min_r _ _) Hk)) as (r & Er & Hr); [destruct op; auto|].
        exists r. cbn [py_eval]. rewrite Ek, Eh. split; [exact Er|].
        eapply ok_ext'; [|exact Hr]. intros x. destruct op; cbn; reflexivity.
    - specialize (IHa Sm). destruct (is_number gd a).
      + destruct IHa as (v & Ev & Nv).
        exists (py_neg v). cbn. rewrite Ev. split; [reflexivity|].
        destruct (number_cases _ _ Nv) as [(z & -> & ->)| ->]; cbn; auto. rewrite opp_IZR. auto.
      + destruct IHa as (h & Eh & Hh). exists (gneg h). cbn. rewrite Eh. split; [reflexivity|]. apply ok_neg. exact Hh.
    - specialize (IHa Sm). destruct (is_number gd a).
      + destruct IHa as (v & Ev & Nv).
        exists v. cbn. rewrite Ev. split; [destruct v; [reflexivity|reflexivity|discriminate]|exact Nv].
      + destruct IHa as (h & Eh & Hh). exists h. cbn. rewrite Eh. split; [reflexivity|exact Hh].
    - destruct Sm as [Sa D]. specialize (IHa Sa). unfold math_ok in D.
      destruct (lookup f math_table) as [mf|] eqn:Em; [|contradiction]. destruct D as [D U].
      destruct (module_math f mf Em) as (h & Eh & Mh).
      assert (MV : forall x, math_fun f x = mf_val mf x) by (intros; unfold math_fun; rewrite Em; auto).
      destruct (is_number gd a).
      + destruct IHa as (v & Ev & Nv).
        exists (VFloat (std_fun h (as_double v))). cbn. rewrite Ev. cbn. unfold py_call. rewrite Eh.
        rewrite (as_double_number _ _ Nv), std_real, MV, (proj1 Mh).
        split; [destruct v; [reflexivity|reflexivity|discriminate]|reflexivity].
      + destruct IHa as (k & Ek & Hk). destruct (ok_call m (least_order M a) h mf k _ Hk Mh D (U eq_refl)) as (r & Er & Hr).
        exists r. cbn. rewrite Ek. cbn. unfold py_call. rewrite Eh, Er. split; [reflexivity|].
        eapply ok_ext'; [|exact Hr]. intros x. cbn. rewrite MV. reflexivity.
    - destruct Sm as (Sa & D & NA). specialize (IHa Sa). unfold math_ok in D. rewrite NA in *.
      destruct (lookup (plain_name f) math_table) as [mf|] eqn:Em; [|contradiction]. destruct D as [D U].
      destruct (method_math f mf Em) as (h & Eh & Mh).
      assert (MV : forall x, math_fun (plain_name f) x = mf_val mf x) by (intros; unfold math_fun; rewrite Em; auto).
      destruct IHa as (k & Ek & Hk). destruct (ok_call m (least_order M a) h mf k _ Hk Mh D (U eq_refl)) as (r & Er & Hr).
      exists r. cbn. rewrite Ek. cbn. rewrite Eh, Er. split; [reflexivity|].
      eapply ok_ext'; [|exact Hr]. intros x. cbn. rewrite MV. reflexivity.
  Qed.
End Expr.

(** ** Statements *)
Lemma eqb_dec {A} (s t : string) (a b : A) : (if String.eqb s t then a else b) = if string_dec s t then a else b.
Proof. destruct (String.eqb_spec s t), (string_dec s t); auto; contradiction. Qed.
Lemma holds_assign_gd m M env s g f n : holds m M env -> ok m n g f -> smoothf f -> holds m (assign M s true f n) (set_name env s (VGdual g)).
Proof.
  intros H O S t. specialize (H t). unfold assign. cbn. unfold set_name, put. rewrite eqb_dec. destruct (string_dec t s); auto. split; auto. exists g. auto.
Qed.
Lemma holds_assign_num m M env s v c f n : holds m M env -> number_of v = Some c -> (forall x, f x = c) -> holds m (assign M s false f n) (set_name env s v).
Proof.
  intros H O S t. specialize (H t). unfold assign. cbn. unfold set_name, put. rewrite eqb_dec. destruct (string_dec t s); auto. exists c. auto.
Qed.
(** The derivative of a smooth function. *)
Lemma smooth_Derive s f : smoothf f ->
  smoothf (fun x => Derive (fun t => f (update x s t)) (x s)) /\
  exists q, 0 < q /\ forall x, small x q -> derivable_pt_lim (fun t => f (update x s t)) (x s) (Derive (fun t => f (update x s t)) (x s)).
Proof.
  intros (a & d & Hd & Da & Ea). destruct (sdef_near a Da) as (r1 & P1 & B1 & D1).
  assert (X : forall x, small x (Rmin r1 (d / 2)) -> is_derive (fun t => f (update x s t)) (x s) (seval (sd s a) x)).
  { intros x Hx. apply (is_derive_ext_loc (fun t => seval a (update x s t))); [|apply sd_derive, D1; eapply small_le; [exact Hx|apply Rmin_l]].
    exists (mkposreal (d / 2) ltac:(lra)). intros t Ht. symmetry. apply Ea. intros v. unfold update.
    assert (Hv := Hx v). assert (Hs := Hx s). assert (L := Rmin_r r1 (d / 2)).
    destruct (String.eqb v s); [|lra]. change (Rabs (t - x s) < d / 2) in Ht. replace t with (x s + (t - x s)) by ring.
    eapply Rle_trans; [apply Rabs_triang|lra]. }
  assert (P : 0 < Rmin r1 (d / 2)) by (apply Rmin_case; lra). split.
  - exists (sd s a), (Rmin r1 (d / 2)). split; auto. split; [apply sd_def; auto|]. intros x Hx. apply is_derive_unique. auto.
  - exists (Rmin r1 (d / 2)). split; auto. intros x Hx. apply is_derive_Reals. apply Derive_correct. eexists. apply X. auto.
Qed.
Lemma ok_partial m n g f v : ok m (S n) g f -> smoothf f -> (exists c r, v = String c r /\ c <> "d"%char) ->
  exists r, gpartial g v = Ok r /\ ok m n r (fun x => Derive (fun t => f (update x (dsym v) t)) (x (dsym v))).
Proof.
  intros ((V & O & T) & Rg & Go & Om) S (c & w & -> & Hc).
  destruct (gpartial g (String c w)) as [r|x] eqn:E.
  - exists r. split; auto. destruct (valid_partial g _ r V E) as [Vr Or].
    assert (Sr := gpartial_sto _ _ g _ r (sto_valid _ V) E).
    split; [|split; [eapply reach_partial; eauto|split]].
    + split; auto. split; [unfold get_order in *; rewrite Or; destruct O; [left; lia|auto]|].
      apply (partial_smooth n g r (String c w) f); auto. apply smooth_Derive; auto.
    + eapply goods_sto; [exact Go|exact Sr].
    + unfold get_order in *. rewrite Or. auto.
  - exfalso. unfold gpartial, check_var_name in E. cbn in E. destruct (Ascii.eqb_spec c "d"%char); [auto|discriminate].
Qed.

Lemma ok_variable m k c v : variable_name v -> (k <= m)%nat -> (Z.of_nat m < 4294967285)%Z ->
  exists g, gvar c v k = Ok g /\ ok m k g (fun x => c + x (dsym v)).
Proof.
  intros (a & r & -> & Ha) L Hm. pose proof (gvar_spec c (String a r) k) as S. destruct (gvar c (String a r) k) as [g|x] eqn:E.
  - exists g. split; auto. destruct S as (_ & _ & O & S & V). assert (Rg := reach_var _ _ _ g E).
    split; [apply (expands_var k k); auto|split; [auto|split; [|rewrite O; auto]]].
    intros s Hs. pose proof (reach_names neg_nz_R g Rg) as [_ N]. rewrite S in N. unfold gsyms in Hs.
    rewrite <- N in Hs. destruct Hs as [<-|[]]. exists a, r. auto.
  - exfalso. destruct x; auto; [destruct S as [S|[r' S]]; [lia|inversion S; auto]|discriminate].
Qed.
Lemma smooth_variable c v : smoothf (fun x => c + x v).
Proof. apply smooth_plus; [apply smooth_const|apply smooth_var]. Qed.
Lemma number_double v r : number_of v = Some r -> (forall g, v <> VGdual g) /\ as_double v = r.
Proof. intros H. split; [intros g ->; discriminate|apply as_double_number; auto]. Qed.

Lemma less_holds m M env x y : holds m M env -> holds_gdual M x = holds_gdual M y ->
  py_less (env x) (env y) = Ok (Rltb (fun_of M x center) (fun_of M y center)).
Proof.
  intros H E. pose proof (H x) as Hx. pose proof (H y) as Hy. rewrite <- E in Hy. destruct (holds_gdual M x).
  - destruct Hx as ((g & Eg & (X & _)) & _), Hy as ((h & Eh & (Y & _)) & _). rewrite Eg, Eh. cbn. unfold gltb.
    rewrite (expands_at _ _ _ X), (expands_at _ _ _ Y). reflexivity.
  - destruct Hx as (a & Ea & Ha), Hy as (b & Eb & Hb). rewrite Ha, Hb.
    destruct (number_cases _ _ Ea) as [(z & -> & ->)| ->], (number_cases _ _ Eb) as [(z' & -> & ->)| ->]; cbn; auto.
    f_equal. unfold Rltb. destruct (Rlt_dec (IZR z) (IZR z')) as [L|L], (Z.ltb_spec z z') as [L'|L']; auto.
    + apply lt_IZR in L. lia.
    + destruct L. apply IZR_lt. auto.
Qed.
Lemma exec_holds m c : (Z.of_nat m < 4294967285)%Z -> forall M env, holds m M env -> runs_smoothly m c M ->
  exists env', py_exec c env = Ok env' /\ holds m (means c M) env'.
Proof.
  intros Hm. induction c as [|a IHa b IHb|s e|s c v k|s a v|s a|x y a IHa b IHb|k b IHb]; intros M env H S; cbn [py_exec means runs_smoothly] in *.
  - exists env. auto.
  - destruct S as [Sa Sb]. destruct (IHa M env H Sa) as (env1 & E1 & H1).
    destruct (IHb (means a M) env1 H1 Sb) as (env2 & E2 & H2). exists env2. rewrite E1. auto.
  - pose proof (eval_holds m M env H e S) as X. destruct (is_number (holds_gdual M) e) eqn:E; cbn [negb].
    + destruct X as (v & Ev & Nv). rewrite Ev. eexists. split; [reflexivity|]. eapply holds_assign_num; eauto.
      intros x. apply (number_at m M env H); auto.
    + destruct X as (g & Eg & Og). rewrite Eg. eexists. split; [reflexivity|]. apply holds_assign_gd; auto. apply (smooth_expr m M env H); auto.
  - destruct S as (Gc & Hv & Hk). pose proof (H c) as Hc. rewrite Gc in Hc. destruct Hc as (r & Er & Fr).
    destruct (ok_variable m k r v Hv Hk Hm) as (g & Eg & Og). rewrite Fr. exists (set_name env s (VGdual g)). split.
    + destruct (env c) as [z|y|g']; cbn in *; [| |discriminate]; injection Er as Er; rewrite Er, Eg; auto.
    + apply holds_assign_gd; auto. apply smooth_variable.
  - destruct S as (Ga & Hv & L). pose proof (H a) as Ha. rewrite Ga in Ha. destruct Ha as ((g & Eg & Og) & Sg). rewrite Eg.
    destruct (order_of M a) as [|n]; [lia|]. replace (Datatypes.S n - 1)%nat with n by lia.
    destruct (ok_partial m n g _ v Og Sg Hv) as (r & Er & Or). rewrite Er. eexists. split; [reflexivity|].
    apply holds_assign_gd; auto. apply smooth_Derive; auto.
  - pose proof (H a) as Ha. rewrite S in Ha. destruct Ha as ((g & Eg & Og) & Sg). rewrite Eg. eexists. split; [reflexivity|].
    apply (holds_assign_num m M env s _ (constant_cf g)); auto. intros _. destruct Og as (X & _). exact (expands_at _ _ _ X).
  - destruct S as [Sxy S]. rewrite (less_holds m M env x y H Sxy). cbn [rbind]. unfold Rltb.
    destruct (Rlt_dec (fun_of M x center) (fun_of M y center)); auto.
  - revert M env H S. induction k as [|k IHk]; intros M env H S; cbn [loop repeat_for].
    + exists env. auto.
    + destruct (IHb M env H) as (env1 & E1 & H1); [apply (S 0%nat); lia|].
      rewrite E1. cbn [rbind]. apply IHk; auto. intros j Hj. apply (S (Datatypes.S j)). lia.
Qed.

Lemma starts_holds m M env : starts m M env -> holds m M env.
Proof.
  intros H s. specialize (H s). destruct (holds_gdual M s); auto. destruct H as (g & Eg & I & F). split.
  - exists g. split; auto. eapply ok_ext'; [|apply input_ok; exact I]. intros x. symmetry. apply F.
  - apply (smooth_ext (value g)); auto. apply smooth_value.
Qed.
Lemma holds_ends m M env : holds m M env -> ends m M env.
Proof.
  intros H s. specialize (H s). destruct (holds_gdual M s).
  - destruct H as ((g & Eg & X & Rg & Go & O) & _). exists g. split; auto. split; [|split; [symmetry; exact (expands_at _ _ _ X)|apply X]].
    split; auto. split; [|destruct X as (_ & [X|X] & _); [left; split; auto|auto]]. intros t Ht. pose proof (reach_names neg_nz_R g Rg) as [_ E].
    assert (Hd : In (dsym t) (gsyms g)) by (unfold gsyms; rewrite <- E; apply in_map; exact Ht).
    destruct (Go _ Hd) as (c & r & Hc & Hn). exists c, r. split; auto. injection Hc. auto.
  - destruct H as (c & Ec & Hc). rewrite Hc. auto.
Qed.
Lemma script m c M env : (Z.of_nat m < 4294967285)%Z -> starts m M env -> runs_smoothly m c M ->
  exists env', py_exec c env = Ok env' /\ ends m (means c M) env'.
Proof.
  intros Hm H S. destruct (exec_holds m c Hm M env (starts_holds _ _ _ H) S) as (env' & E & H'). exists env'. split; auto. apply holds_ends. auto.
Qed.

(** ** Types *)
Section Types.
  Context {K : Type} {oK : Ops K} {eK : Elem K}.
  Lemma num_pow_type (x y : K) u : num_pow x y = Ok u -> is_gdual u = false.
  Proof. unfold num_pow. repeat match goal with |- context [if ?b then _ else _] => destruct b end; intros [= <-]; auto. Qed.
  Lemma num_div_type (x y : K) u : num_div x y = Ok u -> is_gdual u = false.
  Proof. unfold num_div. destruct (keqb _ _); intros [= <-]; auto. Qed.
  Lemma bin_type op (v w u : pyval K) : py_bin op v w = Ok u -> is_gdual u = is_gdual v || is_gdual w.
  Proof.
    destruct v, w; destruct op; cbn; intros E; try (injection E as <-; reflexivity);
      try (apply num_pow_type in E; exact E); try (apply num_div_type in E; exact E).
    unfold int_pow in E. destruct (Z.leb 0 z0); [injection E as <-; reflexivity|apply num_pow_type in E; exact E].
  Qed.
  Lemma eval_type env gd (e : pyexpr K) : (forall s, is_gdual (env s) = gd s) -> forall v, py_eval env e = Ok v ->
    methods_typed gd e /\ is_gdual v = gives_gdual gd e.
  Proof.
    intros H. induction e as [z|x|s|op a IHa b IHb|a IHa|a IHa|f a IHa|f a IHa]; cbn [py_eval methods_typed gives_gdual]; intros v E;
      try (injection E as <-; auto; fail).
    - destruct (py_eval env a) as [va|]; [|discriminate]. destruct (py_eval env b) as [vb|]; [|discriminate]. cbn in E.
      destruct (IHa va eq_refl) as [Ma Ta], (IHb vb eq_refl) as [Mb Tb]. rewrite (bin_type _ _ _ _ E), Ta, Tb. auto.
    - destruct (py_eval env a) as [va|]; [|discriminate]. cbn in E. destruct (IHa va eq_refl) as [Ma Ta].
      injection E as <-. destruct va; auto.
    - destruct (py_eval env a) as [va|]; [|discriminate]. cbn in E. destruct (IHa va eq_refl) as [Ma Ta].
      injection E as <-. destruct va; auto.
    - destruct (py_eval env a) as [va|]; [|discriminate]. cbn in E. destruct (IHa va eq_refl) as [Ma Ta].
      split; auto. rewrite <- Ta. unfold py_call in E. destruct (lookup f module_table); [|destruct va; discriminate].
      destruct va; cbn in E; try (injection E as <-; reflexivity).
      destruct (gdual_fun _ _); [injection E as <-; reflexivity|discriminate].
    - destruct (py_eval env a) as [va|]; [|discriminate]. cbn in E. destruct (IHa va eq_refl) as [Ma Ta].
      unfold py_method in E. destruct va; try discriminate. cbn in Ta. rewrite <- Ta. split; auto.
      destruct (lookup f method_table); [|discriminate].
      destruct (gdual_fun _ _); [injection E as <-; reflexivity|discriminate].
  Qed.
  Lemma name_checked v : check_var_name v = Ok tt -> variable_name v.
  Proof.
    unfold check_var_name. destruct v as [|c r]; [discriminate|]. cbn. destruct (Ascii.eqb_spec c "d"%char); [discriminate|]. exists c, r. auto.
  Qed.
  Lemma put_types (env : string -> pyval K) gd s v b : (forall s, is_gdual (env s) = gd s) -> is_gdual v = b -> forall t, is_gdual (set_name env s v t) = put gd s b t.
  Proof. intros H <- t. unfold set_name, put. rewrite eqb_dec. destruct (string_dec t s); auto. Qed.
  Lemma less_type (v w : pyval K) t : py_less v w = Ok t -> is_gdual v = is_gdual w.
  Proof. destruct v, w; cbn; auto; discriminate. Qed.
  Lemma exec_types (c : pstmt K) : forall env env' gd, (forall s, is_gdual (env s) = gd s) -> py_exec c env = Ok env' ->
    exists gd', typed c gd gd' /\ forall s, is_gdual (env' s) = gd' s.
  Proof.
    induction c as [|a IHa b IHb|s e|s c v k|s a v|s a|x y a IHa b IHb|k b IHb]; intros env env' gd H E; cbn [py_exec] in *.
    - injection E as <-. exists gd. split; [constructor|auto].
    - destruct (py_exec a env) as [env1|] eqn:E1; [|discriminate]. cbn in E. destruct (IHa _ _ _ H E1) as (g1 & Wa & Ta).
      destruct (IHb _ _ _ Ta E) as (g2 & Wb & Tb). exists g2. split; [econstructor; eauto|auto].
    - destruct (py_eval env e) as [v|] eqn:Ev; [|discriminate]. cbn in E. injection E as <-.
      destruct (eval_type env gd e H v Ev) as [Me Te]. eexists. split; [apply T_assign; auto|]. apply put_types; auto.
    - specialize (H c) as Hc. exists (put gd s true). split.
      + destruct (env c); try discriminate; (apply T_variable; [auto|]); apply name_checked; revert E; unfold gvar;
          destruct (check_order k); cbn; try discriminate; destruct (check_var_name v) as [[]|]; auto; discriminate.
      + destruct (env c); try discriminate; (destruct (gvar _ _ _); [|discriminate]); cbn in E; injection E as <-; apply put_types; auto.
    - specialize (H a) as Ha. destruct (env a) as [| |g]; try discriminate. unfold gpartial in E.
      destruct (check_var_name v) as [[]|] eqn:N; [|discriminate]. cbn in E. injection E as <-.
      exists (put gd s true). split; [apply T_partial; [auto|apply name_checked; auto]|apply put_types; auto].
    - specialize (H a) as Ha. destruct (env a) as [| |g]; try discriminate. injection E as <-.
      exists (put gd s false). split; [apply T_constant; auto|apply put_types; auto].
    - destruct (py_less (env x) (env y)) as [t|] eqn:L; [|discriminate]. cbn in E. apply less_type in L. rewrite !H in L.
      destruct t; [destruct (IHa _ _ _ H E) as (g & W & T)|destruct (IHb _ _ _ H E) as (g & W & T)]; exists g; split; auto;
        [apply T_then|apply T_else]; auto.
    - revert env gd H E. induction k as [|k IHk]; intros env gd H E; cbn [loop] in *.
      + injection E as <-. exists gd. split; [constructor|auto].
      + destruct (py_exec b env) as [env1|] eqn:E1; [|discriminate]. cbn in E. destruct (IHb _ _ _ H E1) as (g1 & Wb & Tb).
        destruct (IHk _ _ Tb E) as (g2 & W & T). exists g2. split; auto. econstructor; eauto.
  Qed.
End Types.
