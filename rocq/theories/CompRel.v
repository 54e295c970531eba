(** * Homomorphic images of gduals (proof file).

    [crel fl a b]: the gdual [b] over [K] is the image of the gdual [a] over
    [A] under a homomorphism of coefficients; with [fl = true] they also have
    the same symbol set.  Every operation of the model preserves it. *)

From Coq Require Import String List Arith Bool Lia ZArith Setoid Morphisms Ring Field.
From Verif Require Import Ops Syms SymsFacts Poly PolyFacts Sem Den Gdual GdualFacts Functions Spec CoefFacts FunAlg.
Import ListNotations.

Lemma fold_rel {A B C} (R : A -> B -> Prop) (f : A -> C -> A) (g : B -> C -> B) l :
  (forall a b i, R a b -> R (f a i) (g b i)) -> forall a b, R a b -> R (fold_left f l a) (fold_left g l b).
Proof. intros H. induction l as [|i l IH]; simpl; auto. Qed.

Section CompRel.
  Context {A K : Type} {oA : Ops A} {oK : Ops K} {fl : FieldLaws oK}.
  Variable h : A -> K.
  Context {hh : Hom oA oK h}.
  Local Open Scope K_scope.
  Notation idK := (fun x : K => x).
  Add Field KfieldC : (fl_field (K:=K)).

  Record crel (b : bool) (x : gdual A) (y : gdual K) : Prop := mkCrel {
    cr_wf1 : gwf x; cr_wf2 : gwf y;
    cr_ord : gord x = gord y;
    cr_den : seqv None (gden h x) (gden idK y);
    cr_syms : b = true -> gsyms x = gsyms y }.

  Lemma crel_weaken b x y : crel b x y -> crel false x y.
  Proof. intros []. constructor; auto. discriminate. Qed.
  Lemma crel_andb1 b b' x y : crel b x y -> crel (b && b') x y.
  Proof. intros []. constructor; auto. intros E. apply andb_true_iff in E. tauto. Qed.
  Lemma crel_andb2 b b' x y : crel b' x y -> crel (b && b') x y.
  Proof. intros []. constructor; auto. intros E. apply andb_true_iff in E. tauto. Qed.

  Lemma crel_cc b x y : crel b x y -> h (constant_cf x) = constant_cf y.
  Proof.
    intros [Wx Wy _ D _]. rewrite (constant_cf_scc h) by auto. change (constant_cf y) with (idK (constant_cf y)).
    rewrite (constant_cf_scc idK) by auto. apply (scc_eqv None). exact D.
  Qed.

  Lemma crel_const b v v' : h v = v' -> crel b (gconst v) (gconst v').
  Proof.
    intros <-. constructor; auto with gwf. rewrite (gden_const h), (gden_const idK). reflexivity.
  Qed.
  Lemma crel_const_ord b v v' n : h v = v' -> crel b (gconst_ord v n) (gconst_ord v' n).
  Proof.
    intros <-. constructor; auto with gwf. rewrite (gden_const_ord h), (gden_const_ord idK). reflexivity.
  Qed.
  Lemma crel_default b : crel b gdefault gdefault.
  Proof.
    constructor; try apply gdefault_gwf; auto.
    unfold gdefault, gden; cbn [gp]. rewrite (den_pconst h), (den_pconst idK), (hom_0 h). reflexivity.
  Qed.
  Lemma crel_add b x y x' y' : crel b x x' -> crel b y y' -> crel b (gadd x y) (gadd x' y').
  Proof.
    intros [W1 W2 O1 D1 S1] [W3 W4 O2 D2 S2]. constructor; auto with gwf.
    - cbn [gadd gord]. congruence.
    - rewrite (gden_add h), (gden_add idK) by auto. rewrite D1, D2. reflexivity.
    - intros E. rewrite !gsyms_add, S1, S2 by auto. reflexivity.
  Qed.
  Lemma crel_sub b x y x' y' : crel b x x' -> crel b y y' -> crel b (gsub x y) (gsub x' y').
  Proof.
    intros [W1 W2 O1 D1 S1] [W3 W4 O2 D2 S2]. constructor; auto with gwf.
    - cbn [gsub gord]. congruence.
    - rewrite (gden_sub h), (gden_sub idK) by auto. rewrite D1, D2. reflexivity.
    - intros E. rewrite !gsyms_sub, S1, S2 by auto. reflexivity.
  Qed.
  Lemma crel_neg b x x' : crel b x x' -> crel b (gneg x) (gneg x').
  Proof.
    intros [W1 W2 O1 D1 S1]. constructor; auto with gwf.
    rewrite (gden_neg h), (gden_neg idK) by auto. rewrite D1. reflexivity.
  Qed.
  Lemma crel_mul b x y x' y' : crel b x x' -> crel b y y' -> crel b (gmul x y) (gmul x' y').
  Proof.
    intros [W1 W2 O1 D1 S1] [W3 W4 O2 D2 S2].
    assert (E : gord (gmul x y) = gord (gmul x' y')) by (unfold gmul; cbn [gord]; congruence).
    assert (Wm : gwf (gmul x y)) by auto with gwf. assert (Wm' : gwf (gmul x' y')) by auto with gwf.
    constructor; auto with gwf.
    - apply (seqv_bounded (gord (gmul x y))).
      + apply den_sdle. apply (gwf_dle_le (gmul x y)); auto.
      + apply den_sdle. apply (gwf_dle_le (gmul x' y')); auto. lia.
      + rewrite (gden_mul h), (gden_mul idK) by (auto; rewrite ?E; unfold gmul; cbn [gord]; lia).
        rewrite (seqv_full (Some (gord (gmul x y))) _ _ D1), (seqv_full (Some (gord (gmul x y))) _ _ D2). reflexivity.
    - intros E'. rewrite !gsyms_mul, S1, S2 by auto. reflexivity.
  Qed.
  Lemma crel_add_sg b v v' x x' : h v = v' -> crel b x x' -> crel b (gadd_sg v x) (gadd_sg v' x').
  Proof.
    intros <- [W1 W2 O1 D1 S1]. constructor; auto with gwf.
    rewrite (gden_add_sg h), (gden_add_sg idK) by auto. rewrite D1. reflexivity.
  Qed.
  Lemma crel_add_gs b v v' x x' : h v = v' -> crel b x x' -> crel b (gadd_gs x v) (gadd_gs x' v').
  Proof. apply crel_add_sg. Qed.
  Lemma crel_sub_sg b v v' x x' : h v = v' -> crel b x x' -> crel b (gsub_sg v x) (gsub_sg v' x').
  Proof.
    intros <- [W1 W2 O1 D1 S1]. constructor; auto with gwf.
    rewrite (gden_sub_sg h), (gden_sub_sg idK) by auto. rewrite D1. reflexivity.
  Qed.
  Lemma crel_sub_gs b v v' x x' : h v = v' -> crel b x x' -> crel b (gsub_gs x v) (gsub_gs x' v').
  Proof.
    intros <- [W1 W2 O1 D1 S1]. constructor; auto with gwf.
    - rewrite (gden_sub_gs h), (gden_sub_gs idK) by auto. rewrite D1. reflexivity.
    - intros E. rewrite !gsyms_gsub_gs by auto. auto.
  Qed.
  Lemma crel_mul_sg b v v' x x' : h v = v' -> crel b x x' -> crel b (gmul_sg v x) (gmul_sg v' x').
  Proof.
    intros E H. unfold gmul_sg. rewrite <- (cr_ord _ _ _ H). apply crel_mul; auto. apply crel_const_ord; auto.
  Qed.
  Lemma crel_mul_gs b v v' x x' : h v = v' -> crel b x x' -> crel b (gmul_gs x v) (gmul_gs x' v').
  Proof.
    intros E H. unfold gmul_gs. rewrite <- (cr_ord _ _ _ H). apply crel_mul; auto. apply crel_const_ord; auto.
  Qed.
  Lemma crel_div_gs b v v' x x' : h v = v' -> crel b x x' -> crel b (gdiv_gs x v) (gdiv_gs x' v').
  Proof.
    intros E H. unfold gdiv_gs. apply crel_mul_gs; auto. rewrite (hom_div h), (hom_1 h), E. reflexivity.
  Qed.

  (** Scalars computed on both sides *)
  Hint Rewrite (hom_0 h) (hom_1 h) (hom_add h) (hom_sub h) (hom_mul h) (hom_opp h) (hom_div h) (hom_ofZ h)
    (hom_abs h) (hom_ofnat h) (hom_pow h) : hom.
  Ltac hs := autorewrite with hom; congruence.
  Ltac cr := repeat (try assumption; lazymatch goal with
    | |- crel _ (gadd _ _) _ => apply crel_add
    | |- crel _ (gsub _ _) _ => apply crel_sub
    | |- crel _ (gneg _) _ => apply crel_neg
    | |- crel _ (gmul _ _) _ => apply crel_mul
    | |- crel _ (gadd_sg _ _) _ => apply crel_add_sg
    | |- crel _ (gadd_gs _ _) _ => apply crel_add_gs
    | |- crel _ (gsub_sg _ _) _ => apply crel_sub_sg
    | |- crel _ (gsub_gs _ _) _ => apply crel_sub_gs
    | |- crel _ (gmul_sg _ _) _ => apply crel_mul_sg
    | |- crel _ (gmul_gs _ _) _ => apply crel_mul_gs
    | |- crel _ (gdiv_gs _ _) _ => apply crel_div_gs
    | |- crel _ (gconst _) _ => apply crel_const
    end).

  (** Loops: the state is a tuple; gduals are related by [crel], numbers by [h]. *)
  Definition R2 b (s : gdual A * gdual A) (t : gdual K * gdual K) : Prop :=
    crel b (fst s) (fst t) /\ crel b (snd s) (snd t).
  Definition R3 b (s : gdual A * A * gdual A) (t : gdual K * K * gdual K) : Prop :=
    crel b (fst (fst s)) (fst (fst t)) /\ h (snd (fst s)) = snd (fst t) /\ crel b (snd s) (snd t).

  Ltac pairs := repeat match goal with p : prod _ _ |- _ => destruct p end.
  Ltac loop R := match goal with |- crel _ ?X ?Y =>
    match X with context [fold_left ?f ?l ?a] =>
    match Y with context [fold_left ?g ?l' ?c] =>
      change l' with l;
      let H := fresh "L" in assert (H : R (fold_left f l a) (fold_left g l c));
      [apply fold_rel; [intros ? ? ?; pairs; intros H|]; unfold R2, R3 in *; cbn [fst snd] in *; conjs
      |destruct (fold_left f l a), (fold_left g l c); pairs; unfold R2, R3 in *; cbn [fst snd] in *]
    end end end.
  Ltac par := repeat match goal with H : _ /\ _ |- _ => destruct H end.

  Lemma crel_recip b x y : crel b x y -> crel b (grecip_loop x) (grecip_loop y).
  Proof.
    intros H. pose proof (crel_cc _ _ _ H) as C. unfold grecip_loop. rewrite <- (cr_ord _ _ _ H).
    loop (R3 b); par; cr; try hs.
  Qed.
  Lemma crel_div b x y x' y' : crel b x x' -> crel b y y' -> crel b (gdiv x y) (gdiv x' y').
  Proof. intros H H'. unfold gdiv. cr; auto using crel_recip. exact (crel_cc _ _ _ H'). Qed.
  Lemma crel_div_sg b v v' y y' : h v = v' -> crel b y y' -> crel b (gdiv_sg v y) (gdiv_sg v' y').
  Proof. intros H H'. unfold gdiv_sg. cr; auto using crel_recip. exact (crel_cc _ _ _ H'). Qed.

  (** Calculus *)
  Lemma sdiff_all s (l l' : sp K) : seqv None l l' -> seqv None (sdiff s l) (sdiff s l').
  Proof. intros [E]. constructor. intros F _. rewrite !Lf_sdiff. apply E. simpl. tauto. Qed.
  Lemma sint_all s (l l' : sp K) : seqv None l l' -> seqv None (sint s l) (sint s l').
  Proof. intros [E]. constructor. intros F _. rewrite !Lf_sint. apply E. simpl. tauto. Qed.
  Lemma ssubst_all s (q q' l l' : sp K) : seqv None q q' -> seqv None l l' -> seqv None (ssubst s q l) (ssubst s q' l').
  Proof.
    intros Eq [E]. constructor. intros F _. rewrite !Lf_ssubst.
    transitivity (Lf l (fun d m => Lf (spow q' (m s)) (fun d' m' => F ((d - m s) + d')%nat (monadd (mset m s 0) m')))).
    - apply Lf_ext. intros t _. apply (seqv_elim (spow_proper None _ _ Eq _ _ eq_refl)). simpl. tauto.
    - apply E. simpl. tauto.
  Qed.
  Definition rres (R : gdual A -> gdual K -> Prop) (r : res (gdual A)) (s : res (gdual K)) : Prop :=
    match r, s with Ok x, Ok y => R x y | Throw e, Throw e' => e = e' | _, _ => False end.
  Lemma rres_bind R R' r s f g : rres R r s -> (forall x y, R x y -> rres R' (f x) (g y)) ->
    rres R' (rbind r f) (rbind s g).
  Proof. destruct r, s; simpl; auto; try tauto. Qed.

  Lemma crel_partial b x y s : crel b x y -> rres (crel b) (gpartial x s) (gpartial y s).
  Proof.
    intros [W1 W2 O1 D1 S1]. destruct (gpartial x s) eqn:E1, (gpartial y s) eqn:E2; unfold gpartial in E1, E2;
      destruct (check_var_name s) eqn:C; simpl in E1, E2; try discriminate; simpl; try congruence.
    assert (P1 : gpartial x s = Ok a) by (unfold gpartial; rewrite C; exact E1).
    assert (P2 : gpartial y s = Ok a0) by (unfold gpartial; rewrite C; exact E2).
    destruct (gpartial_gwf _ _ _ W1 P1), (gpartial_gwf _ _ _ W2 P2).
    inversion E1; inversion E2; subst. destruct W1 as [X1 _], W2 as [X2 _].
    constructor; auto.
    - unfold gden in *. cbn [gp]. rewrite (den_pdiff h), (den_pdiff idK) by auto. apply sdiff_all. exact D1.
  Qed.
  (** Selection by degree *)
  Lemma Lf_filter {B} {oB : Ops B} (g : B -> K) (P : nat -> bool) (p : poly B) F :
    Lf (den g (pfilter (fun t => P (kdeg (fst t))) p)) F = Lf (den g p) (fun d m => if P d then F d m else 0).
  Proof.
    unfold den, pfilter; cbn [psyms pterms]. rewrite !Lf_tden.
    induction (pterms p) as [|t ts IH]; simpl; auto. destruct (P (kdeg (fst t))); simpl; rewrite IH; auto.
    ring.
  Qed.
  Lemma seqv_filter (P : nat -> bool) (p : poly A) (q : poly K) : seqv None (den h p) (den idK q) ->
    seqv None (den h (pfilter (fun t => P (kdeg (fst t))) p)) (den idK (pfilter (fun t => P (kdeg (fst t))) q)).
  Proof.
    intros E. constructor. intros F _. rewrite !Lf_filter. apply (seqv_elim E). intros d m Hk. exfalso. apply Hk. exact I.
  Qed.
  Lemma crel_integrate b x y s : crel b x y -> rres (crel b) (gintegrate x s) (gintegrate y s).
  Proof.
    intros [W1 W2 O1 D1 S1]. destruct (gintegrate x s) eqn:E1, (gintegrate y s) eqn:E2; unfold gintegrate in E1, E2;
      destruct (check_var_name s) eqn:C; simpl in E1, E2; try discriminate; simpl; try congruence.
    assert (P1 : gintegrate x s = Ok a) by (unfold gintegrate; rewrite C; exact E1).
    assert (P2 : gintegrate y s = Ok a0) by (unfold gintegrate; rewrite C; exact E2).
    destruct (gintegrate_gwf _ _ _ W1 P1), (gintegrate_gwf _ _ _ W2 P2).
    inversion E1; inversion E2; subst. destruct W1 as [X1 _], W2 as [X2 _].
    constructor; auto.
    - unfold gden in *. cbn [gp]. rewrite O1. unfold ptruncateZ.
      apply (seqv_filter (fun d => Z.leb (Z.of_nat d) (as_int (gord y)))).
      rewrite (den_pintegrate h), (den_pintegrate idK) by auto. apply sint_all. exact D1.
    - intros Eb. unfold gsyms in *. cbn. rewrite S1 by auto. reflexivity.
  Qed.
  Lemma crel_subs_val b x y s v v' : h v = v' -> crel b x y -> crel b (gsubs_val x s v) (gsubs_val y s v').
  Proof.
    intros <- [W1 W2 O1 D1 S1]. constructor; try apply gsubs_val_gwf; auto.
    unfold gden in *. unfold gsubs_val; cbn [gp]. destruct W1 as [X1 _], W2 as [X2 _].
    rewrite (den_psubs_val h), (den_psubs_val idK) by auto. apply ssubst_all; auto. reflexivity.
  Qed.
  Lemma crel_subs b x y s u v : crel b x y -> crel b u v -> crel false (gsubs x s u) (gsubs y s v).
  Proof.
    intros [W1 W2 O1 D1 S1] [W3 W4 O2 D2 S2]. constructor; try apply gsubs_gwf; auto; [|discriminate].
    unfold gden in *. unfold gsubs; cbn [gp]. rewrite O1. destruct W1 as [X1 _], W2 as [X2 _], W3 as [X3 _], W4 as [X4 _].
    unfold ptruncate. rewrite (den_ptrim h), (den_ptrim idK) by auto with swf.
    apply (seqv_filter (fun d => Nat.leb d (gord y))).
    rewrite (den_psubs_poly h), (den_psubs_poly idK) by auto. apply ssubst_all; auto.
  Qed.
  Lemma crel_extract b x y n : crel b x y -> rres (crel b) (extract_terms x n) (extract_terms y n).
  Proof.
    intros [W1 W2 O1 D1 S1]. destruct (extract_terms x n) eqn:E1, (extract_terms y n) eqn:E2;
      pose proof E1 as P1; pose proof E2 as P2; unfold extract_terms in E1, E2; rewrite <- O1 in E2;
      destruct (Nat.ltb (gord x) n); try discriminate; simpl; try congruence.
    destruct (extract_terms_gwf _ _ _ W1 P1), (extract_terms_gwf _ _ _ W2 P2).
    injection E1 as <-. injection E2 as <-. constructor; auto.
    unfold gden in *; cbn [gp]. apply (seqv_filter (fun d => Nat.eqb d n)). exact D1.
  Qed.
  Lemma crel_extend b x y l : crel b x y -> rres (crel b) (extend_symbol_set l x) (extend_symbol_set l y).
  Proof.
    intros [W1 W2 O1 D1 S1]. destruct (extend_symbol_set l x) eqn:E1, (extend_symbol_set l y) eqn:E2;
      pose proof E1 as P1; pose proof E2 as P2; unfold extend_symbol_set in E1, E2;
      destruct (check_all_d l); simpl in E1, E2; try discriminate; simpl; try congruence.
    destruct (extend_gwf _ _ _ W1 P1), (extend_gwf _ _ _ W2 P2).
    inversion E1; inversion E2; subst. constructor; auto.
    - unfold gden in *; cbn [gp]. destruct W1 as [X1 _], W2 as [X2 _]. unfold padd_symbols.
      rewrite (den_pext h), (den_pext idK); auto; try (apply ssorted_NoDup, sunion_sorted; try apply sset_sorted); auto.
    - intros Eb. unfold gsyms, padd_symbols in *. cbn. rewrite S1 by auto. reflexivity.
  Qed.
  Lemma crel_var b v v' s n : h v = v' -> rres (crel b) (gvar v s n) (gvar v' s n).
  Proof.
    intros <-. pose proof (gvar_gwf v s n) as G1. pose proof (gvar_gwf (h v) s n) as G2. unfold gvar in *.
    destruct (check_order n); simpl in *; auto. destruct (check_var_name s); simpl in *; auto.
    assert (W0 : gwf (mkG (@pzero A) n)) by (constructor; simpl; auto with swf; constructor).
    assert (W0' : gwf (mkG (@pzero K) n)) by (constructor; simpl; auto with swf; constructor).
    destruct (Nat.eqb n 0).
    - assert (R : rres (crel b) (extend_symbol_set [dsym s] (mkG pzero n)) (extend_symbol_set [dsym s] (mkG pzero n))).
      { apply crel_extend. constructor; auto. reflexivity. }
      destruct (extend_symbol_set [dsym s] (mkG pzero n)) as [x|], (extend_symbol_set [dsym s] (mkG pzero n)) as [y|];
        simpl in *; try tauto. destruct R as [[X1 Y1] [X2 Y2] O D S]. destruct (G1 _ eq_refl), (G2 _ eq_refl).
      constructor; auto.
      + unfold gden in *; cbn [gp]. rewrite (den_padd h), (den_padd idK), (den_pconst h), (den_pconst idK) by auto with swf.
        rewrite D. reflexivity.
      + intros E. unfold gsyms in *. cbn. rewrite S by auto. reflexivity.
    - simpl in *. destruct (G1 _ eq_refl), (G2 _ eq_refl). constructor; auto.
      unfold gden in *; cbn [gp].
      rewrite (den_padd h), (den_padd idK), (den_pconst h), (den_pconst idK), (den_pvar h), (den_pvar idK) by auto with swf.
      reflexivity.
  Qed.

  (** ** Elementary functions *)
  Context {eA : Elem A} {eK : Elem K} {he : HomElem eA eK h}.
  Hint Rewrite (hom_exp h) (hom_log h) (hom_sqrt h) (hom_cbrt h) (hom_sin h) (hom_cos h) (hom_tan h)
    (hom_sinh h) (hom_cosh h) (hom_tanh h) (hom_asin h) (hom_acos h) (hom_atan h) (hom_asinh h) (hom_acosh h)
    (hom_atanh h) (hom_erf h) (hom_epow h) (hom_pi h) (hom_bern h) : hom.

  Lemma h_kbinomial x x' i : h x = x' -> h (kbinomial x i) = kbinomial x' i.
  Proof.
    intros E. unfold kbinomial. apply (fold_rel (fun u v => h u = v)); auto.
    intros u v j <-. hs.
  Qed.
  Lemma h_bn n k : h (nth k (bn n) 0) = nth k (bn n) 0.
  Proof.
    unfold bn. generalize (seq 0 ((n + 1) / 2 + 1)). intros l. revert k.
    induction l as [|i l IH]; intros [|k]; simpl; auto; hs.
  Qed.
  Lemma h_atan_odd x x' k : h x = x' -> h (atan_odd x k) = atan_odd x' k.
  Proof. intros <-. apply hom_atan_odd; auto. Qed.
  Lemma h_atan_even x x' k : h x = x' -> h (atan_even x k) = atan_even x' k.
  Proof. intros <-. apply hom_atan_even; auto. Qed.

  Definition G3 b (s : gdual A * gdual A * gdual A) (t : gdual K * gdual K * gdual K) : Prop :=
    crel b (fst (fst s)) (fst (fst t)) /\ crel b (snd (fst s)) (snd (fst t)) /\ crel b (snd s) (snd t).
  Definition RT b (s : gdual A * Z * gdual A * A) (t : gdual K * Z * gdual K * K) : Prop :=
    crel b (fst (fst (fst s))) (fst (fst (fst t))) /\ snd (fst (fst s)) = snd (fst (fst t)) /\
    crel b (snd (fst s)) (snd (fst t)) /\ h (snd s) = snd t.
  Definition RH b (s : gdual A * gdual A * A) (t : gdual K * gdual K * K) : Prop :=
    crel b (fst (fst s)) (fst (fst t)) /\ crel b (snd (fst s)) (snd (fst t)) /\ h (snd s) = snd t.
  Definition R4 b (s : gdual A * gdual A * A * A) (t : gdual K * gdual K * K * K) : Prop :=
    crel b (fst (fst (fst s))) (fst (fst (fst t))) /\ crel b (snd (fst (fst s))) (snd (fst (fst t))) /\
    h (snd (fst s)) = snd (fst t) /\ h (snd s) = snd t.
  Definition RA b (s : gdual A * A * A * gdual A) (t : gdual K * K * K * gdual K) : Prop :=
    crel b (fst (fst (fst s))) (fst (fst (fst t))) /\ h (snd (fst (fst s))) = snd (fst (fst t)) /\
    h (snd (fst s)) = snd (fst t) /\ crel b (snd s) (snd t).
  Ltac loop R ::= match goal with |- crel _ ?X ?Y =>
    match X with context [fold_left ?f ?l ?a] =>
    match Y with context [fold_left ?g ?l' ?c] =>
      change l' with l;
      let H := fresh "L" in assert (H : R (fold_left f l a) (fold_left g l c));
      [apply fold_rel; [intros ? ? ?; pairs; intros H|]; unfold R2, R3, G3, RT, RH, R4, RA in *; cbn [fst snd] in *; conjs
      |destruct (fold_left f l a), (fold_left g l c); pairs; unfold R2, R3, G3, RT, RH, R4, RA in *; cbn [fst snd] in *]
    end end end.
  Ltac start H := intros H; pose proof (crel_cc _ _ _ H) as C.
  Ltac fin := cr; try hs.

  Lemma crel_exp b x y : crel b x y -> crel b (gexp x) (gexp y).
  Proof.
    start H. unfold gexp. rewrite <- (cr_ord _ _ _ H). loop (G3 b); par; fin. apply crel_div; fin.
  Qed.
  Lemma crel_log b x y : crel b x y -> crel b (glog x) (glog y).
  Proof. start H. unfold glog. rewrite <- (cr_ord _ _ _ H). loop (G3 b); par; fin. Qed.
  Lemma crel_pow_loop b x y n : crel b x y -> crel b (gpow_loop x n) (gpow_loop y n).
  Proof. intros H. unfold gpow_loop. apply fold_rel; auto. intros. cr. Qed.
  Lemma crel_pow_int b x y n : crel b x y -> crel b (gpow_int x n) (gpow_int y n).
  Proof.
    intros H. unfold gpow_int. destruct (Z.ltb n 0).
    - apply fold_rel; [intros; apply crel_div; auto|apply crel_div_sg; auto; hs].
    - destruct (Z.ltb 0 n); [apply crel_pow_loop; auto|fin].
  Qed.
  (** pow with a numeric exponent: the same branch is taken on both sides. *)
  Lemma crel_pow_real b x y a a' : h a = a' -> e_toint a = e_toint a' ->
    ((kofZ (e_toint a) =? a) && (0 <? a) = (kofZ (e_toint a) =? a') && (0 <? a'))%K ->
    crel b x y -> crel b (gpow_real x a) (gpow_real y a').
  Proof.
    intros E Et Eb. start H. unfold gpow_real. rewrite <- Et, <- Eb.
    destruct ((kofZ (e_toint a) =? a) && (0 <? a))%bool; [apply crel_pow_loop; auto|].
    rewrite <- (cr_ord _ _ _ H). loop (R2 b); par; fin; try (apply h_kbinomial; auto).
  Qed.
  Lemma crel_pow b x y x' y' : crel b x x' -> crel b y y' -> crel b (gpow x y) (gpow x' y').
  Proof. intros H H'. unfold gpow. apply crel_exp, crel_mul; auto. apply crel_log; auto. Qed.
  Lemma crel_pow_sg b v v' x y : h v = v' -> (gdegree x = 0%nat <-> gdegree y = 0%nat) -> crel b x y ->
    crel b (gpow_sg v x) (gpow_sg v' y).
  Proof.
    intros E Ed. start H. unfold gpow_sg. replace (Nat.eqb (gdegree y) 0) with (Nat.eqb (gdegree x) 0) by (destruct (Nat.eqb_spec (gdegree x) 0), (Nat.eqb_spec (gdegree y) 0); tauto).
    destruct (Nat.eqb (gdegree x) 0); fin.
    apply crel_exp. fin.
  Qed.
  Lemma crel_root b al al' r r' x y : h al = al' -> (forall a, h (r a) = r' (h a)) -> crel b x y ->
    crel b (groot al r x) (groot al' r' y).
  Proof.
    intros Ea Er. start H. unfold groot. rewrite <- (cr_ord _ _ _ H).
    loop (R2 b); par; fin; try (apply h_kbinomial; auto).
  Qed.
  Lemma crel_sqrt b x y : crel b x y -> crel b (gsqrt x) (gsqrt y).
  Proof. apply crel_root; [hs|apply (hom_sqrt h)]. Qed.
  Lemma crel_cbrt b x y : crel b x y -> crel b (gcbrt x) (gcbrt y).
  Proof. apply crel_root; [hs|apply (hom_cbrt h)]. Qed.
  Lemma crel_trig_loop b p q t u l : crel b p q -> crel b t u -> crel b (trig_loop p t l) (trig_loop q u l).
  Proof. intros H H'. unfold trig_loop. loop (RT b); par; subst; fin. Qed.
  Lemma crel_cos_taylor b x y : crel b x y -> crel b (cos_taylor x) (cos_taylor y).
  Proof. start H. unfold cos_taylor. rewrite <- (cr_ord _ _ _ H). apply crel_trig_loop; fin. Qed.
  Lemma crel_sin_taylor b x y : crel b x y -> crel b (sin_taylor x) (sin_taylor y).
  Proof. start H. unfold sin_taylor. rewrite <- (cr_ord _ _ _ H). apply crel_trig_loop; fin. Qed.
  Lemma crel_hyp_loop b p q t u l : crel b p q -> crel b t u -> crel b (hyp_loop p t l) (hyp_loop q u l).
  Proof. intros H H'. unfold hyp_loop. loop (RH b); par; subst; fin. Qed.
  Lemma crel_cosh_taylor b x y : crel b x y -> crel b (cosh_taylor x) (cosh_taylor y).
  Proof. start H. unfold cosh_taylor. rewrite <- (cr_ord _ _ _ H). apply crel_hyp_loop; fin. Qed.
  Lemma crel_sinh_taylor b x y : crel b x y -> crel b (sinh_taylor x) (sinh_taylor y).
  Proof. start H. unfold sinh_taylor. rewrite <- (cr_ord _ _ _ H). apply crel_hyp_loop; fin. Qed.
  Ltac four := fin; first [apply crel_cos_taylor|apply crel_sin_taylor|apply crel_cosh_taylor|apply crel_sinh_taylor]; auto.
  Lemma crel_sin b x y : crel b x y -> crel b (gsin x) (gsin y).
  Proof. start H. unfold gsin. four. Qed.
  Lemma crel_cos b x y : crel b x y -> crel b (gcos x) (gcos y).
  Proof. start H. unfold gcos. four. Qed.
  Lemma crel_sin_and_cos b x y : crel b x y ->
    crel b (fst (gsin_and_cos x)) (fst (gsin_and_cos y)) /\ crel b (snd (gsin_and_cos x)) (snd (gsin_and_cos y)).
  Proof. intros H. split; [apply crel_sin|apply crel_cos]; exact H. Qed.
  Lemma crel_sinh b x y : crel b x y -> crel b (gsinh x) (gsinh y).
  Proof. start H. unfold gsinh. four. Qed.
  Lemma crel_cosh b x y : crel b x y -> crel b (gcosh x) (gcosh y).
  Proof. start H. unfold gcosh. four. Qed.
  Lemma crel_sinh_and_cosh b x y : crel b x y ->
    crel b (fst (gsinh_and_cosh x)) (fst (gsinh_and_cosh y)) /\ crel b (snd (gsinh_and_cosh x)) (snd (gsinh_and_cosh y)).
  Proof. intros H. split; [apply crel_sinh|apply crel_cosh]; exact H. Qed.
  Lemma crel_tan b x y : crel b x y -> crel b (gtan x) (gtan y).
  Proof.
    start H. unfold gtan. rewrite <- (cr_ord _ _ _ H). loop (R4 b); par; fin.
    - rewrite (hom_div h), (hom_mul h), (hom_mul h), h_bn. hs.
    - apply crel_div; fin.
  Qed.
  Lemma crel_tanh b x y : crel b x y -> crel b (gtanh x) (gtanh y).
  Proof.
    start H. unfold gtanh. rewrite <- (cr_ord _ _ _ H). loop (R4 b); par; fin.
    - rewrite (hom_div h), (hom_mul h), (hom_mul h), h_bn. hs.
    - apply crel_div; fin.
  Qed.
  Lemma crel_atanh b x y : crel b x y -> crel b (gatanh x) (gatanh y).
  Proof. start H. unfold gatanh. rewrite <- (cr_ord _ _ _ H). loop (R3 b); par; fin. Qed.
  Lemma crel_atan b x y : crel b x y -> crel b (gatan x) (gatan y).
  Proof.
    start H. unfold gatan. rewrite <- (cr_ord _ _ _ H). loop (RA b); par; try (destruct (Nat.odd i)); cbn [fst snd]; fin;
      try (apply h_atan_odd; auto); try (apply h_atan_even; auto).
  Qed.
  Lemma crel_asinh b x y : crel b x y -> crel b (gasinh x) (gasinh y).
  Proof. intros H. unfold gasinh. apply crel_log, crel_add; auto. apply crel_sqrt. fin. Qed.
  Lemma crel_acosh b x y : crel b x y -> crel b (gacosh x) (gacosh y).
  Proof. intros H. unfold gacosh. apply crel_log, crel_add; auto. apply crel_sqrt. fin. Qed.
  Lemma crel_asin b x y : crel b x y -> crel b (gasin x) (gasin y).
  Proof. intros H. unfold gasin. apply crel_atan, crel_div; auto. apply crel_sqrt. fin. Qed.
  Lemma crel_acos b x y : crel b x y -> crel b (gacos x) (gacos y).
  Proof. intros H. unfold gacos. fin. apply crel_asin; auto. Qed.

  (** All one-argument functions but abs *)
  Lemma crel_fun1 b f x y : f <> Fabs -> crel b x y -> crel b (run1 f x) (run1 f y).
  Proof.
    intros Hf H. pose proof (crel_cc _ _ _ H) as C. destruct f; cbn [run1]; try congruence;
      auto using crel_exp, crel_log, crel_sqrt, crel_cbrt, crel_sin, crel_cos, crel_tan, crel_sinh, crel_cosh, crel_tanh,
        crel_atan, crel_atanh, crel_asin, crel_acos, crel_asinh, crel_acosh.
    - unfold gtan_quad, gsin_and_cos. apply crel_div; [exact (crel_sin _ _ _ H)|exact (crel_cos _ _ _ H)].
    - unfold gtanh_quad, gsinh_and_cosh. apply crel_div; [exact (crel_sinh _ _ _ H)|exact (crel_cosh _ _ _ H)].
    - unfold glog10. fin. apply crel_log; auto.
    - unfold glog2. fin. apply crel_log; auto.
    - unfold glog1p. apply crel_log. fin.
    - unfold gexpm1. fin. apply crel_exp; auto.
  Qed.

  (** functions_from_d.hpp *)
  Lemma crel_compose_loop b ss : forall prev f f' dg dg' r r', crel b f f' -> crel b dg dg' -> crel b r r' ->
    rres (crel b) (compose_loop prev ss f dg r) (compose_loop prev ss f' dg' r').
  Proof.
    induction ss as [|s ss IH]; intros prev f f' dg dg' r r' Hf Hd Hr; cbn [compose_loop]; auto.
    assert (Hf' : crel b (gsubs_val f (dsym prev) 0) (gsubs_val f' (dsym prev) 0)) by (apply crel_subs_val; auto; hs).
    assert (Hd' : crel b (gsubs_val dg (dsym prev) 0) (gsubs_val dg' (dsym prev) 0)) by (apply crel_subs_val; auto; hs).
    apply rres_bind with (R := crel b); [apply crel_partial; exact Hf'|]. intros u v Huv.
    apply rres_bind with (R := crel b); [apply crel_integrate; cr|]. intros t t' Ht. apply IH; auto. cr.
  Qed.
  Lemma crel_compose b f f' dg dg' g0 g0' : get_symbol_set f = get_symbol_set f' -> crel b f f' -> crel b dg dg' -> h g0 = g0' ->
    rres (crel b) (compose_from_derivative f dg g0) (compose_from_derivative f' dg' g0').
  Proof.
    intros Es Hf Hd E. unfold compose_from_derivative. rewrite Es.
    destruct (get_symbol_set f') as [|s ss]; [apply crel_const; auto|].
    apply rres_bind with (R := crel b); [apply crel_partial; exact Hf|]. intros u v Huv.
    apply rres_bind with (R := crel b); [apply crel_integrate; cr|]. intros t t' Ht.
    apply rres_bind with (R := crel b); [apply crel_compose_loop; eauto|]. intros r r' Hr. simpl. fin.
  Qed.
  Lemma crel_funD b f x y : get_symbol_set x = get_symbol_set y -> crel b x y -> rres (crel b) (runD f x) (runD f y).
  Proof.
    intros Es. start H. destruct f; cbn [runD]; unfold gatanh_d, gatan_d, gasin_d, gasinh_d, gacos_d, gacosh_d, gerfc;
      try (apply crel_compose; auto; [|hs]; apply crel_div_sg; [hs|]; fin; apply crel_sqrt; fin).
    - unfold gerf. apply crel_compose; auto; [|hs]. fin. apply crel_exp. fin.
    - apply rres_bind with (R := crel b).
      + unfold gerf. apply crel_compose; auto; [|hs]. fin. apply crel_exp. fin.
      + intros u v Huv. simpl. fin.
  Qed.

  (** Coefficients *)
  Lemma h_coef x W k : h (coef x W k) =
    fold_right (fun t a => (if same_mono (gsyms x) (fst t) W k then h (snd t) else 0) + a) 0 (pterms (gp x)).
  Proof.
    unfold coef, gsyms. induction (pterms (gp x)) as [|t ts IH]; simpl; [apply (hom_0 h)|].
    rewrite (hom_add h), IH. destruct (same_mono _ _ _ _); auto. rewrite (hom_0 h). reflexivity.
  Qed.
  Lemma h_coef_Lf x W k U : gwf x -> NoDup W -> length k = length W -> incl (gsyms x) U ->
    h (coef x W k) = Lf (gden h x) (Fk U W k).
  Proof.
    intros [[Hs Hl Hd] _] HW Hk HU. rewrite h_coef. unfold gden, den. rewrite Lf_tden.
    apply ssorted_NoDup in Hs. unfold klen in Hl. unfold gsyms in *.
    induction (pterms (gp x)) as [|t ts IH]; simpl; auto.
    inversion Hl; subst. inversion Hd; subst. rewrite IH by auto. f_equal.
    rewrite (same_mono_monb _ _ _ _ U) by auto. unfold Fk.
    destruct (monb U W k (kdeg (fst t)) (expo (psyms (gp x)) (fst t))); ring.
  Qed.
  Lemma crel_coef b x y W k : crel b x y -> NoDup W -> length k = length W -> h (coef x W k) = coef y W k.
  Proof.
    intros [W1 W2 O D S] HW Hk. rewrite (h_coef_Lf x W k (gsyms x ++ gsyms y)); auto.
    - rewrite (coef_Lf y W k (gsyms x ++ gsyms y)); auto.
      + apply (seqv_elim D). simpl. tauto.
      + intros z Hz; apply in_or_app; auto.
    - intros z Hz; apply in_or_app; auto.
  Qed.

  (** Reading coefficients, derivatives and values. *)
  Definition vres (r : res A) (s : res K) : Prop :=
    match r, s with Ok x, Ok y => h x = y | Throw u, Throw v => u = v | _, _ => False end.
  Lemma h_pfind x k : gwf x -> length k = length (gsyms x) ->
    h (match pfind k (gp x) with Some v => v | None => 0 end) = h (coef x (gsyms x) k).
  Proof.
    intros [[Hs Hl Hd] _] Hk. rewrite h_coef. unfold pfind, gsyms in *. apply ssorted_NoDup in Hs.
    unfold klen in Hl. unfold kdist in Hd.
    assert (E : forall k', length k' = length (psyms (gp x)) ->
      same_mono (psyms (gp x)) k' (psyms (gp x)) k = key_eqb k' k).
    { intros k' L. apply eq_true_iff_eq. rewrite same_mono_spec. rewrite key_eqb_spec. split.
      - intros F. apply (expo_inj (psyms (gp x))); auto.
      - intros ->. auto. }
    induction (pterms (gp x)) as [|[k' c] ts IH]; cbn [tfind fold_right fst snd]; [apply (hom_0 h)|].
    cbn [map fst] in Hd. inversion Hl; subst. inversion Hd; subst. cbn [fst] in *. rewrite E by auto.
    specialize (IH ltac:(auto) ltac:(auto)).
    destruct (key_eqb k' k) eqn:F.
    - apply key_eqb_spec in F. subst k'. rewrite <- IH.
      replace (tfind k ts) with (@None A); [rewrite (hom_0 h); ring|].
      symmetry. match goal with H : ~ In k _ |- _ => revert H end. clear.
      induction ts as [|[k' c'] ts IH]; intros H; cbn [tfind map fst] in *; auto.
      destruct (key_eqb k' k) eqn:F; [apply key_eqb_spec in F; subst; exfalso; apply H; left; auto|].
      apply IH. intros I. apply H. right; auto.
    - rewrite IH. ring.
  Qed.
End CompRel.

Section Reading.
  Context {A K : Type} {oA : Ops A} {oK : Ops K} {fl : FieldLaws oK}.
  Variable h : A -> K.
  Context {hh : Hom oA oK h}.
  Local Open Scope K_scope.
  Notation idK := (fun x : K => x).
  Lemma crel_find_cf x y k : crel h true x y -> vres h (find_cf x k) (find_cf y k).
  Proof.
    intros [W1 W2 O D S]. specialize (S eq_refl). unfold find_cf. rewrite O.
    assert (E : get_symbol_set_size x = get_symbol_set_size y).
    { unfold get_symbol_set_size. unfold gsyms in S. rewrite S. reflexivity. }
    rewrite E. destruct (Z.ltb _ _); [reflexivity|].
    destruct (Nat.eqb_spec (length k) (get_symbol_set_size y)) as [L|L]; cbn [negb]; [|reflexivity].
    assert (L' : length k = length (gsyms y)) by exact L.
    assert (X := h_pfind h x k W1). rewrite S in X. specialize (X L').
    assert (Y := h_pfind idK y k W2 L').
    rewrite (crel_coef h true x y (gsyms y) k) in X; [| |apply ssorted_NoDup; apply W2|exact L'].
    2:{ constructor; auto. }
    rewrite <- Y in X. clear Y. unfold vres. destruct (pfind k (gp x)), (pfind k (gp y)); exact X.
  Qed.
  Lemma h_kfact n : h (kfact n) = kfact n.
  Proof.
    induction n; [apply (hom_1 h)|]. cbn [kfact]. rewrite (hom_mul h). unfold kofnat.
    rewrite (hom_ofZ h), IHn. reflexivity.
  Qed.
  Lemma crel_get_derivative x y k : crel h true x y -> vres h (get_derivative x k) (get_derivative y k).
  Proof.
    intros C. apply (crel_find_cf x y k) in C. unfold get_derivative, rbind. destruct (existsb factorial_overflows k); [reflexivity|].
    assert (E : forall l a a', h a = a' -> h (fold_left (fun a e => a * kfact e) l a) = fold_left (fun a e => a * kfact e) l a').
    { induction l as [|e l IH]; intros a a' Ea; cbn [fold_left]; auto. apply IH. rewrite (hom_mul h), h_kfact, Ea. reflexivity. }
    destruct (find_cf x k), (find_cf y k); unfold vres in *; auto.
    rewrite (hom_mul h), C, (E k 1 1); auto. apply (hom_1 h).
  Qed.
  Lemma h_monoval V rho k : h (monoval V rho k) = monoval V (fun s => h (rho s)) k.
  Proof.
    revert k. induction V as [|v V IH]; intros [|e k]; cbn [monoval]; try apply (hom_1 h).
    rewrite (hom_mul h), (hom_pow h), IH. reflexivity.
  Qed.
  Lemma h_peval (p : poly A) rho : h (peval p rho) = heval h p (fun s => h (rho s)).
  Proof.
    unfold peval, heval. induction (pterms p) as [|t ts IH]; cbn [fold_right]; [apply (hom_0 h)|].
    rewrite (hom_add h), (hom_mul h), h_monoval, IH. reflexivity.
  Qed.
  Lemma dfind_map (s : string) (d : list (string * A)) :
    dfind s (map (fun q => (fst q, h (snd q))) d) = match dfind s d with Some v => Some (h v) | None => None end.
  Proof. induction d as [|[u v] d IH]; simpl; auto. destruct (String.eqb u s); auto. Qed.
  Lemma crel_evaluate x y d : crel h true x y ->
    vres h (gevaluate x d) (gevaluate y (map (fun q => (fst q, h (snd q))) d)).
  Proof.
    intros [W1 W2 O D S]. specialize (S eq_refl). unfold gsyms in S. unfold gevaluate. rewrite S.
    replace (forallb (fun s => match dfind s (map _ d) with Some _ => true | None => false end) (psyms (gp y)))
      with (forallb (fun s => match dfind s d with Some _ => true | None => false end) (psyms (gp y))).
    2:{ generalize (psyms (gp y)). clear. induction l as [|s l IH]; cbn [forallb]; auto. rewrite dfind_map, IH. destruct (dfind s d); auto. }
    destruct (forallb _ _); [|reflexivity]. cbn [vres]. rewrite h_peval.
    change (peval (gp y)) with (heval idK (gp y)).
    rewrite (heval_Lf h (gp x) (psyms (gp y))); [|apply W1|apply ssorted_NoDup; apply W2|rewrite S; apply incl_refl].
    rewrite (heval_Lf idK (gp y) (psyms (gp y))); [|apply W2|apply ssorted_NoDup; apply W2|apply incl_refl].
    rewrite (seqv_elim D) by (simpl; tauto). apply Lf_ext_all. intros n m. unfold evF.
    generalize (psyms (gp y)). clear - hh. intros l. induction l as [|s l IH]; cbn [mval]; auto. rewrite IH, dfind_map. f_equal. f_equal.
    destruct (dfind s d); auto. apply (hom_0 h).
  Qed.
End Reading.
