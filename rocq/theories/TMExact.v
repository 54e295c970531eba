(** * What the operations make of exact constants of order 0 (proof file) *)
From Coq Require Import String List Arith Bool ZArith Reals Permutation Lra Lia.
From Verif Require Import Ops Syms SymsFacts Poly PolyFacts Gdual GdualFacts Functions FunStruct Spec CoefFacts CoreProofs CalcProofs ValueProofs MiscProofs ElemR FunAlg Interval TaylorModel TMFunctions SpecTM TMMaps TMArith TMMul TMTaylor TMBounds TMPow TMMisc TMSamples TMFlat TMRefute.
Import ListNotations.
Local Open Scope string_scope.
Local Open Scope list_scope.
Local Open Scope R_scope.

(** A model without variables, of order 0 and with remainder [0, 0], of the number [v]. *)
Record exact_model (v : R) (t : taylor_model R) : Prop := mkExact {
  ex_flat : flat t; ex_rem : m_rem t = (0, 0); ex_value : forall rho, value (m_tpol t) rho = v }.
Lemma exact_cst v : exact_model v (cst v (0, 0)).
Proof. constructor; [apply flat_cst|reflexivity|intros; apply value_const]. Qed.
Lemma exact_represents v t D : exact_model v t -> represents D t (fun _ => v).
Proof.
  intros [F E V]. split; [apply F|]. intros x _. split; [rewrite (flat_domain t F); intros ? ? []|]. rewrite E, V. unfold within. cbn. lra.
Qed.
Lemma exact_of v t : represents everywhere t (fun _ => v) -> psyms (gp (m_tpol t)) = [] -> get_order (m_tpol t) = 0%nat -> m_rem t = (0, 0) -> exact_model v t.
Proof.
  intros [W H] S O E. assert (F : flat t) by (constructor; auto). constructor; auto. intros rho. rewrite flat_value by auto.
  destruct (H (at_x 0) I) as [_ X]. rewrite E in X. rewrite flat_value in X by auto. unfold within in X. cbn [fst snd] in X. lra.
Qed.
Lemma exact_cf v t : exact_model v t -> constant_cf (m_tpol t) = v.
Proof. intros [F E V]. rewrite <- (flat_value t (at_x 0)) by auto. apply V. Qed.
Lemma exact_syms v t : exact_model v t -> psyms (gp (m_tpol t)) = [].
Proof. intros [F _ _]. apply F. Qed.
Lemma exact_order v t : exact_model v t -> get_order (m_tpol t) = 0%nat.
Proof. intros [F _ _]. apply F. Qed.
Lemma exact_nonzero v t : exact_model v t -> v <> 0 <-> nonzero (m_tpol t).
Proof.
  intros [F _ V]. split.
  - intros N C. apply N. rewrite <- (V (at_x 0)). unfold value. rewrite C. reflexivity.
  - intros N ->. apply (nonzero_value (m_tpol t) (gconst 0)) in N; [|apply F|apply valid_const|intros; rewrite V, value_const; auto].
    apply N. rewrite const_zero_gdual. reflexivity.
Qed.
Lemma ipow_zero n : ipow ((0, 0) : ivl) (n + 1) = (0, 0).
Proof.
  unfold ipow. cbn [fst snd]. rewrite !kpow_pow, !pow_i by lia. destruct (Nat.even _); auto.
  assert (X : Rltb 0 0 = false) by (apply Rltb_false; lra). cbn. rewrite X. auto.
Qed.
Lemma idiv_zero I J Q : I = (0, 0) -> idiv I J = Ok Q -> Q = ((0, 0) : ivl).
Proof. intros ->. unfold idiv. destruct (zero_in J); [discriminate|]. intros E. injection E as <-. apply imul_zero_l. Qed.

Section Exact.
  Context {iv : IvFun R}.
  Variable iter : list (string * ivl) -> list (string * ivl).
  Hypothesis Hp : permutes iter.
  Hypothesis Hiv : iv_sound iv.
  Hypothesis Hs : forall I, 0 < fst I -> fst I <= snd I -> 0 < fst (i_sqrt I).
  Section One.
    Variables (v : R) (A : taylor_model R).
    Hypothesis HA : exact_model v A.
    Let F := ex_flat _ _ HA.
    Let RA : represents everywhere A (fun _ => v) := exact_represents v A everywhere HA.
    Let SA : simple A := flat_simple A F.
    Let Oo : (Z.of_nat (get_order (m_tpol A)) < 4294967296)%Z.
    Proof. rewrite (exact_order v A HA). lia. Qed.
    Let Oi : ordered_on iter (variables A).
    Proof. rewrite (flat_variables A F). apply no_vars; auto. Qed.
    Let EF : f_bar_remainder_bounds iter A = Ok (0, 0).
    Proof. rewrite (flat_f_bar iter A Hp F), (ex_rem _ _ HA). auto. Qed.
    Let S0 : sto (gsyms (m_tpol A)) (gord (m_tpol A)) (m_tpol A).
    Proof. apply sto_valid, F. Qed.
    Let Pos : 0 < v -> positive_model A.
    Proof. intros H x _. rewrite (ex_value _ _ HA), (ex_rem _ _ HA). cbn. lra. Qed.
    Let Neg : v < 0 -> negative_model A.
    Proof. intros H x _. rewrite (ex_value _ _ HA), (ex_rem _ _ HA). cbn. lra. Qed.
    Let R0 : within (m_rem A) 0.
    Proof. rewrite (ex_rem _ _ HA). unfold within. cbn. lra. Qed.
    Let E0 := exact_order v A HA.
    Lemma exact_fields T w r : represents everywhere T (fun _ => w) -> sto (gsyms (m_tpol A)) (gord (m_tpol A)) r -> m_tpol T = r -> m_rem T = (0, 0) ->
      exact_model w T.
    Proof.
      intros RT S ET ER. apply exact_of; auto; rewrite ET.
      - etransitivity; [exact (sto_sym _ _ _ S)|apply F].
      - etransitivity; [exact (sto_ord _ _ _ S)|apply F].
    Qed.
    Lemma trig_zero even odd neg : trig_remainder even odd neg (constant_cf (m_tpol A)) (0, 0) (get_order (m_tpol A)) = (0, 0).
    Proof. unfold trig_remainder. rewrite E0, (ipow_zero 0). apply imul_zero_r. Qed.
    Lemma exact_sin : exists T, tm_sin iter A = Ok T /\ exact_model (sin v) T.
    Proof.
      destruct (tm_sin_ok iter A everywhere (fun _ => v) RA Oo SA Hp Oi Hiv) as (T & E & RT); [rewrite E0; lia|].
      exists T. split; auto. unfold tm_sin in E. rewrite EF in E. cbn [rbind] in E. apply factorial_fits_Ok in E. destruct E as [E _]. apply make_fields in E.
      apply (exact_fields T (sin v) (gsin (m_tpol A)) RT); [apply gsin_sto; apply S0|subst T; auto|subst T; apply trig_zero].
    Qed.
    Lemma exact_cos : exists T, tm_cos iter A = Ok T /\ exact_model (cos v) T.
    Proof.
      destruct (tm_cos_ok iter A everywhere (fun _ => v) RA Oo SA Hp Oi Hiv) as (T & E & RT); [rewrite E0; lia|].
      exists T. split; auto. unfold tm_cos in E. rewrite EF in E. cbn [rbind] in E. apply factorial_fits_Ok in E. destruct E as [E _]. apply make_fields in E.
      apply (exact_fields T (cos v) (gcos (m_tpol A)) RT); [apply gcos_sto; apply S0|subst T; auto|subst T; apply trig_zero].
    Qed.
    Lemma exact_sinh : exists T, tm_sinh iter A = Ok T /\ exact_model (sinh v) T.
    Proof.
      destruct (tm_sinh_ok iter A everywhere (fun _ => v) RA Oo SA Hp Oi Hiv) as (T & E & RT); [rewrite E0; lia|].
      exists T. split; auto. unfold tm_sinh in E. rewrite EF in E. cbn [rbind] in E. apply factorial_fits_Ok in E. destruct E as [E _]. apply make_fields in E.
      apply (exact_fields T (sinh v) (gsinh (m_tpol A)) RT); [apply gsinh_sto; apply S0|subst T; auto|subst T; apply trig_zero].
    Qed.
    Lemma exact_cosh : exists T, tm_cosh iter A = Ok T /\ exact_model (cosh v) T.
    Proof.
      destruct (tm_cosh_ok iter A everywhere (fun _ => v) RA Oo SA Hp Oi Hiv) as (T & E & RT); [rewrite E0; lia|].
      exists T. split; auto. unfold tm_cosh in E. rewrite EF in E. cbn [rbind] in E. apply factorial_fits_Ok in E. destruct E as [E _]. apply make_fields in E.
      apply (exact_fields T (cosh v) (gcosh (m_tpol A)) RT); [apply gcosh_sto; apply S0|subst T; auto|subst T; apply trig_zero].
    Qed.
    Lemma exact_recip : v <> 0 -> exists T, tm_div_sg iter 1 A = Ok T /\ exact_model (/ v) T.
    Proof.
      intros N. destruct (tm_recip_defined iter A (fl_wf _ F) Oo (flat_linear A F) Hp Oi R0) as [T E].
      { destruct (Rdichotomy _ _ N); [right|left]; auto. }
      exists T. split; auto. assert (RT := tm_div_sg_ok iter A everywhere (fun _ => v) RA Oo SA Hp Oi T E).
      unfold tm_div_sg in E. destruct (tm_bounds iter A); cbn [rbind] in E; [|discriminate]. destruct (zero_in _); [discriminate|].
      rewrite EF in E. cbn [rbind] in E. destruct (idiv _ _); cbn [rbind] in E; [|discriminate]. destruct (idiv _ _) as [lead|] eqn:El; cbn [rbind] in E; [|discriminate].
      destruct (idiv (ipt k1) _); cbn [rbind] in E; [|discriminate]. apply make_fields in E.
      apply (exact_fields T (/ v) (gdiv_sg 1 (m_tpol A)) RT); [apply sto_div_sg; apply S0|subst T; auto|subst T].
      apply idiv_zero in El; [cbn [m_rem]; rewrite El; apply imul_zero_l|]. rewrite E0, (ipow_zero 0). apply imul_zero_r.
    Qed.
    Lemma exact_log : 0 < v -> exists T, tm_log iter A = Ok T /\ exact_model (ln v) T.
    Proof.
      intros N. destruct (tm_log_defined iter A (fl_wf _ F) Oo (flat_linear A F) Hp Oi R0) as [T E]; auto.
      exists T. split; auto. assert (RT := tm_log_ok iter A everywhere (fun _ => v) RA Oo SA Hp Oi T E).
      unfold tm_log in E. destruct (tm_bounds iter A); cbn [rbind] in E; [|discriminate]. destruct (negb _); [discriminate|].
      rewrite EF in E. cbn [rbind] in E. destruct (idiv _ _) as [lead|] eqn:El; cbn [rbind] in E; [|discriminate].
      destruct (idiv (0, 0) _); cbn [rbind] in E; [|discriminate]. destruct (idiv (ipt k1) _); cbn [rbind] in E; [|discriminate]. apply make_fields in E.
      apply (exact_fields T (ln v) (glog (m_tpol A)) RT); [apply sto_log; apply S0|subst T; auto|subst T].
      apply idiv_zero in El; [cbn [m_rem]; rewrite El; apply imul_zero_l|]. rewrite E0, (ipow_zero 0). apply imul_zero_r.
    Qed.
    Lemma exact_log_nonpos : v < 0 -> tm_log iter A = Throw RuntimeError.
    Proof.
      intros N. unfold tm_log. rewrite (flat_bounds iter A Hp F), (exact_cf v A HA), (ex_rem _ _ HA). cbn [rbind].
      replace (iabove _ _) with false; auto. symmetry. unfold iabove. apply negb_false_iff. apply Rltb_true. cbn. lra.
    Qed.
    (** the test for a positive argument lets 0 pass; the division by the constant term throws *)
    Lemma exact_log_zero : v = 0 -> tm_log iter A = Throw OtherException.
    Proof.
      intros N. unfold tm_log. rewrite (flat_bounds iter A Hp F), (exact_cf v A HA), (ex_rem _ _ HA). cbn [rbind].
      replace (iabove _ _) with true; [|symmetry; unfold iabove; apply negb_true_iff; apply Rltb_false; cbn; lra].
      cbn [negb]. rewrite EF. cbn [rbind]. rewrite E0. change (0 + 1)%nat with 1%nat. rewrite kpow_pow, N. unfold idiv at 1.
      replace (zero_in _) with true; auto. symmetry. apply zero_in_spec. unfold within. cbn. lra.
    Qed.
    Lemma exact_sqrt : 0 < v -> exists T, tm_sqrt iter A = Ok T /\ exact_model (sqrt v) T.
    Proof.
      intros N. destruct (tm_sqrt_defined iter A (fl_wf _ F) Oo (flat_linear A F) Hp Oi R0 Hs) as [T E]; auto; [rewrite E0; lia|].
      exists T. split; auto. assert (RT := tm_sqrt_ok iter A everywhere (fun _ => v) RA Oo SA Hp Oi Hiv T). rewrite E0 in RT. specialize (RT ltac:(lia) E).
      unfold tm_sqrt in E. rewrite EF in E. cbn [rbind] in E. destruct (tm_bounds iter A); cbn [rbind] in E; [|discriminate]. destruct (negb _); [discriminate|].
      destruct (root_denominator _ _ _); cbn [rbind] in E; [|discriminate]. apply factorial_fits_Ok in E. destruct E as [E _]. destruct (idiv _ _) as [q|] eqn:Eq; cbn [rbind] in E; [|discriminate].
      destruct (idiv (imul q _) _) as [rem|] eqn:Er; cbn [rbind] in E; [|discriminate]. unfold trimmed in E.
      destruct (trim_map _ _); cbn [rbind] in E; [|discriminate]. destruct (trim_map _ _); cbn [rbind] in E; [|discriminate]. apply make_fields in E.
      apply (exact_fields T (sqrt v) (gpow_real (m_tpol A) (1 / kofZ 2)%K) RT); [apply sto_pow_real; apply S0|subst T; auto|subst T].
      apply idiv_zero in Eq; [|rewrite E0, (ipow_zero 0); apply imul_zero_r]. cbn [m_rem]. apply (idiv_zero _ _ _ ltac:(rewrite Eq; apply imul_zero_l) Er).
    Qed.
    Lemma exact_make w r T : represents everywhere T (fun _ => w) -> T = mkTM r (get_order r) (get_symbol_set_size r) (m_rem T) (m_exp T) (m_domain T) ->
      sto (gsyms (m_tpol A)) (gord (m_tpol A)) r -> m_rem T = (0, 0) -> exact_model w T.
    Proof. intros RT ET S ER. apply (exact_fields T w r RT S); auto. rewrite ET. auto. Qed.
    Lemma exact_add_gs c : exists T, tm_add_gs A c = Ok T /\ exact_model (v + c) T.
    Proof.
      destruct (tm_add_gs_ok A everywhere (fun _ => v) RA c) as (T & E & RT). exists T. split; auto. apply make_fields in E.
      apply (exact_fields T (v + c) (gadd_gs (m_tpol A) c) RT); [apply sto_add_gs; auto|subst T; auto|subst T; apply HA].
    Qed.
    Lemma exact_add_sg c : exists T, tm_add_sg c A = Ok T /\ exact_model (c + v) T.
    Proof.
      destruct (tm_add_sg_ok A everywhere (fun _ => v) RA c) as (T & E & RT). exists T. split; auto. apply make_fields in E.
      apply (exact_fields T (c + v) (gadd_sg c (m_tpol A)) RT); [apply sto_add_sg; auto|subst T; auto|subst T; apply HA].
    Qed.
    Lemma exact_sub_gs c : exists T, tm_sub_gs A c = Ok T /\ exact_model (v - c) T.
    Proof.
      destruct (tm_sub_gs_ok A everywhere (fun _ => v) RA c) as (T & E & RT). exists T. split; auto. apply make_fields in E.
      apply (exact_fields T (v - c) (gsub_gs (m_tpol A) c) RT); [apply sto_sub_gs; auto|subst T; auto|subst T; apply HA].
    Qed.
    Lemma exact_sub_sg c : exists T, tm_sub_sg c A = Ok T /\ exact_model (c - v) T.
    Proof.
      destruct (tm_sub_sg_ok A everywhere (fun _ => v) RA c) as (T & E & RT); [rewrite (ex_rem _ _ HA); cbn; lra|]. exists T. split; auto. apply make_fields in E.
      apply (exact_fields T (c - v) (gsub_sg c (m_tpol A)) RT); [apply sto_sub_sg; auto|subst T; auto|subst T; apply HA].
    Qed.
    Lemma exact_mul_sg c : exists T, tm_mul_sg c A = Ok T /\ exact_model (c * v) T.
    Proof.
      destruct (tm_mul_sg_ok A everywhere (fun _ => v) RA c) as (T & E & RT). exists T. split; auto. apply make_fields in E.
      apply (exact_fields T (c * v) (gmul_sg c (m_tpol A)) RT); [apply sto_mul_sg; auto|subst T; auto|subst T]. cbn [m_rem]. rewrite (ex_rem _ _ HA). apply imul_zero_r.
    Qed.
    Lemma exact_mul_gs c : exists T, tm_mul_gs A c = Ok T /\ exact_model (v * c) T.
    Proof.
      destruct (tm_mul_gs_ok A everywhere (fun _ => v) RA c) as (T & E & RT). exists T. split; auto. apply make_fields in E.
      apply (exact_fields T (v * c) (gmul_gs (m_tpol A) c) RT); [apply sto_mul_gs; auto|subst T; auto|subst T]. cbn [m_rem]. rewrite (ex_rem _ _ HA). apply imul_zero_l.
    Qed.
    Lemma exact_bounds_of : tm_bounds iter A = Ok (v, v).
    Proof. rewrite (flat_bounds iter A Hp F), (exact_cf v A HA). auto. Qed.
  End One.
  Lemma exact_zero : exact_model 0 (tm_const 0).
  Proof. exact (exact_cst 0). Qed.
  Lemma exact_mul v w A B : exact_model v A -> exact_model w B -> tm_mul iter A B = Ok (tm_const 0).
  Proof. intros [FA RA _] [FB RB _]. apply flat_mul_exact; auto. Qed.
  Lemma exact_add v w A B : exact_model v A -> exact_model w B -> exists T, tm_add A B = Ok T /\ exact_model (v + w) T.
  Proof.
    intros HA HB. assert (FA := ex_flat _ _ HA). assert (FB := ex_flat _ _ HB). destruct (tm_add_cases A B (fl_wf _ FA) (fl_wf _ FB)) as (X & _ & Y).
    destruct X as [T E].
    { split; intros s a b H; [rewrite (flat_exp A FA) in H|rewrite (flat_domain A FA) in H]; destruct H. }
    exists T. split; auto. assert (RT := Y T everywhere _ _ E ltac:(intros s a b H; rewrite (flat_exp A FA) in H; destruct H)
      (proj2 (exact_represents v A everywhere HA)) (proj2 (exact_represents w B everywhere HB))).
    unfold tm_add in E. destruct (common_exp A B); cbn [rbind] in E; [|discriminate]. destruct (common_domain A B); cbn [rbind] in E; [|discriminate].
    destruct (trim_map _ _); cbn [rbind] in E; [|discriminate]. destruct (trim_map _ _); cbn [rbind] in E; [|discriminate]. apply make_fields in E.
    apply exact_of; auto; subst T; cbn [m_tpol m_rem].
    - change (psyms _) with (gsyms (gadd (m_tpol A) (m_tpol B))). rewrite gsyms_add. unfold gsyms. rewrite (fl_syms _ FA), (fl_syms _ FB). reflexivity.
    - unfold get_order, gadd. cbn [gord]. assert (X := fl_order _ FA). assert (Y' := fl_order _ FB). unfold get_order in *. rewrite X, Y'. reflexivity.
    - rewrite (ex_rem _ _ HA), (ex_rem _ _ HB). apply iadd_zero.
  Qed.
  Lemma exact_square v A : exact_model v A -> tm_pow_int iter A 2 = Ok (tm_const 0).
  Proof.
    intros HA. unfold tm_pow_int. cbn [Z.eqb Z.ltb Z.compare Pos.compare Pos.compare_cont]. change (Z.to_nat 2 - 1)%nat with 1%nat. cbn [seq fold_left].
    destruct (exact_mul_sg v A HA 1) as (T & E & HT). change (@k1 R OpsR) with 1. rewrite E. cbn [rbind]. apply (exact_mul _ _ _ _ HT HA).
  Qed.
  Lemma exact_div v w A B : exact_model v A -> exact_model w B -> w <> 0 -> tm_div iter A B = Ok (tm_const 0).
  Proof.
    intros HA HB N. unfold tm_div. destruct (exact_recip w B HB N) as (T & E & HT). change (@k1 R OpsR) with 1. rewrite E. cbn [rbind]. apply (exact_mul _ _ _ _ HA HT).
  Qed.

  (** tan and tanh of every exact constant are 0 *)
  Lemma exact_tan v A : exact_model v A -> cos v <> 0 -> tm_tan iter A = Ok (tm_const 0).
  Proof.
    intros HA N. unfold tm_tan. destruct (exact_sin v A HA) as (S & ES & HS). destruct (exact_cos v A HA) as (C & EC & HC). rewrite ES, EC. cbn [rbind].
    apply (exact_div _ _ _ _ HS HC N).
  Qed.
  Lemma exact_tanh v A : exact_model v A -> tm_tanh iter A = Ok (tm_const 0).
  Proof.
    intros HA. unfold tm_tanh. destruct (exact_sinh v A HA) as (S & ES & HS). destruct (exact_cosh v A HA) as (C & EC & HC). rewrite ES, EC. cbn [rbind].
    apply (exact_div _ _ _ _ HS HC). unfold cosh. assert (X := exp_pos v). assert (Y := exp_pos (- v)). lra.
  Qed.
  (** asinh v is ln (v + 1); acosh and atanh always throw *)
  Lemma exact_asinh v A : exact_model v A -> -1 < v -> exists T, tm_asinh iter A = Ok T /\ exact_model (ln (v + 1)) T.
  Proof.
    intros HA N. unfold tm_asinh. rewrite (exact_square v A HA). cbn [rbind]. destruct (exact_add_gs 0 _ exact_zero 1) as (S & ES & HS).
    change (@k1 R OpsR) with 1. rewrite ES. cbn [rbind]. destruct (exact_sqrt _ _ HS) as (Q & EQ & HQ); [lra|]. rewrite EQ. cbn [rbind].
    destruct (exact_add _ _ _ _ HA HQ) as (P & EP & HP). rewrite EP. cbn [rbind]. replace (0 + 1) with 1 in HP by ring. rewrite sqrt_1 in HP.
    apply exact_log; auto. lra.
  Qed.
  Lemma exact_acosh v A : exact_model v A -> tm_acosh iter A = Throw RuntimeError.
  Proof.
    intros HA. unfold tm_acosh. rewrite (exact_square v A HA). cbn [rbind]. rewrite (exact_bounds_of 0 _ exact_zero). cbn [rbind].
    replace (iabove _ _) with false; auto. symmetry. unfold iabove. apply negb_false_iff. apply Rltb_true. cbn. lra.
  Qed.
  Lemma exact_atanh v A : exact_model v A -> v <> 1 -> tm_atanh iter A = Throw OtherException.
  Proof.
    intros HA N. unfold tm_atanh. destruct (exact_add_sg v A HA 1) as (S & ES & HS). destruct (exact_sub_sg v A HA 1) as (Q & EQ & HQ).
    change (@k1 R OpsR) with 1. rewrite ES, EQ. cbn [rbind]. rewrite (exact_div _ _ _ _ HS HQ) by lra. cbn [rbind]. rewrite (exact_log_zero 0 _ exact_zero) by auto. auto.
  Qed.
End Exact.
