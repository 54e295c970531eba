(** * Programs on gduals with complex coefficients (proof file). *)

From Coq Require Import String Ascii Reals Lra Lia Psatz List ZArith Bool.
From Coquelicot Require Import Coquelicot.
From Verif Require Import Ops Syms SymsFacts Poly PolyFacts Sem Den Gdual GdualFacts Functions FunStruct Spec CoefFacts CoreProofs MiscProofs FunAlg ElemR UniFun Cplx CUni CFun CFun2 CTaylor CTayUnique CTayFun SpecCpx CTayProofs CTayIdent CQuad.
Import ListNotations.
Open Scope R_scope.

(** Programs do not throw. *)
Definition cgoods (g : gdual C) : Prop := forall s, In s (gsyms g) -> good_name s.
Lemma cgoods_sto V n g : (forall s, In s V -> good_name s) -> sto V n g -> cgoods g.
Proof. intros H [_ _ _ S] s Hs. apply H. rewrite <- S. exact Hs. Qed.
Lemma cgoods_weak V n g : (forall s, In s V -> good_name s) -> weak V n g -> cgoods g.
Proof. intros H [S|S]; [eapply cgoods_sto; [|exact S]; contradiction|eapply cgoods_sto; eauto]. Qed.
Lemma cgoods_union a b : cgoods a -> cgoods b -> forall s, In s (sunion (gsyms a) (gsyms b)) -> good_name s.
Proof. intros Ha Hb s Hs. apply sunion_In in Hs. destruct Hs; auto. Qed.
Lemma ccalc_ok point order e : cnames_ok order e -> exists g, ccalc point order e = Ok g /\ reach g /\ cgoods g.
Proof.
  induction e; intros Hn; cbn [cnames_ok] in Hn; cbn [ccalc];
    repeat match goal with Hh : _ /\ _ |- _ => destruct Hh end;
    repeat match goal with
    | IH : cnames_ok _ ?a -> _, Hh : cnames_ok _ ?a |- _ =>
        let q := fresh "q" in let E := fresh "E" in let A := fresh "RE" in let B := fresh "GO" in
        destruct (IH Hh) as (q & E & A & B); rewrite E; cbn [rbind]; clear IH Hh E;
        let S := fresh "ST" in pose proof (sto_valid _ (reach_valid neg_nz_C _ A)) as S
    end.
  - eexists. split; [reflexivity|]. split; [apply reach_const|]. intros s Hs. rewrite gsyms_gconst in Hs. contradiction.
  - match goal with X : exists _, _ |- _ => destruct X as (c & r & -> & Hc) end. pose proof (gvar_spec (point (String c r)) (String c r) (order (String c r))) as S.
    destruct (gvar _ _ _) as [g|x] eqn:E.
    + exists g. split; auto. split; [eapply reach_var; eauto|].
      destruct S as (_ & _ & _ & S & V). intros s Hs.
      pose proof (reach_names neg_nz_C g (reach_var _ _ _ g E)) as [_ M]. rewrite S in M. unfold gsyms in Hs.
      rewrite <- M in Hs. destruct Hs as [<-|[]]. exists c, r. auto.
    + exfalso. destruct x; auto; [destruct S as [S|[r' S]]; [lia|inversion S; auto]|discriminate].
  - eexists. split; [reflexivity|]. split; [apply reach_add; auto|]. eapply cgoods_sto; [|apply sto_add2; eauto]. apply cgoods_union; auto.
  - eexists. split; [reflexivity|]. split; [apply reach_sub; auto|]. eapply cgoods_sto; [|apply sto_sub2; eauto]. apply cgoods_union; auto.
  - eexists. split; [reflexivity|]. split; [apply reach_mul; auto|]. eapply cgoods_sto; [|apply sto_mul2; eauto]. apply cgoods_union; auto.
  - eexists. split; [reflexivity|]. split; [apply reach_div; auto|]. eapply cgoods_sto; [|apply sto_div2; eauto]. apply cgoods_union; auto.
  - eexists. split; [reflexivity|]. split; [apply reach_neg; auto|]. exact GO.
  - eexists. split; [reflexivity|]. split; [apply reach_add_sg; auto|]. eapply cgoods_sto; [exact GO|]. apply sto_add_sg; eauto.
  - eexists. split; [reflexivity|]. split; [apply reach_add_gs; auto|]. eapply cgoods_sto; [exact GO|]. apply sto_add_gs; eauto.
  - eexists. split; [reflexivity|]. split; [apply reach_sub_sg; auto|]. eapply cgoods_sto; [exact GO|]. apply sto_sub_sg; eauto.
  - eexists. split; [reflexivity|]. split; [apply reach_sub_gs; auto|]. eapply cgoods_sto; [exact GO|]. apply sto_sub_gs; eauto.
  - eexists. split; [reflexivity|]. split; [apply reach_mul_sg; auto|]. eapply cgoods_sto; [exact GO|]. apply sto_mul_sg; eauto.
  - eexists. split; [reflexivity|]. split; [apply reach_mul_gs; auto|]. eapply cgoods_sto; [exact GO|]. apply sto_mul_gs; eauto.
  - eexists. split; [reflexivity|]. split; [apply reach_div_sg; auto|]. eapply cgoods_sto; [exact GO|]. apply sto_div_sg; eauto.
  - eexists. split; [reflexivity|]. split; [apply reach_div_gs; auto|]. eapply cgoods_sto; [exact GO|]. apply sto_div_gs; eauto.
  - eexists. split; [reflexivity|]. split; [apply reach_fun1; auto|]. assert (Va := reach_valid neg_nz_C _ RE).
    destruct (series_atan (cfun1 f)) eqn:Ef.
    + apply (cgoods_weak (gsyms q) (gord q)); auto. destruct f; try discriminate; cbn [run1 cfun1].
      apply weak_atanh; auto.
    + apply (cgoods_sto (gsyms q) (gord q)); auto. apply run1_sto; auto; [exact neg_nz_C|congruence].
  - assert (Va := reach_valid neg_nz_C _ RE). destruct (runD_ok (quadD q) q0 Va GO) as [g Eg].
    assert (Rg : reach g) by (eapply reach_funD; eauto). exists g. split; auto. split; auto.
    destruct (gsyms q0) as [|s0 l] eqn:Es.
    + assert (Hc : forall dg v0, compose_from_derivative q0 dg v0 = Ok (gconst v0)) by (intros; apply compose_nil; auto).
      intros s Hs. exfalso. destruct q; cbn [runD quadD] in Eg; unfold gatanh_d, gatan_d in Eg; rewrite Hc in Eg; inversion Eg; subst g;
        rewrite gsyms_gconst in Hs; contradiction.
    + assert (Ne : psyms (gp q0) <> []) by (unfold gsyms in Es; rewrite Es; discriminate).
      destruct (runD_sto (quadD q) q0 g Va (reach_dnames neg_nz_C q0 RE) Ne Eg) as [S _].
      pose proof (reach_names neg_nz_C g Rg) as [_ M]. pose proof (reach_names neg_nz_C q0 RE) as [_ M'].
      intros s Hs. apply GO. unfold gsyms in *. rewrite <- M in Hs. rewrite S, M' in Hs. exact Hs.
  - eexists. split; [reflexivity|]. split; [apply reach_pow; auto|]. eapply cgoods_sto; [|apply sto_pow; eauto]. apply cgoods_union; auto.
  - eexists. split; [reflexivity|]. split; [apply reach_pow_sg; auto|]. unfold gpow_sg. destruct (Nat.eqb_spec (gdegree q) 0).
    + intros s Hs. rewrite gsyms_gconst in Hs. contradiction.
    + apply (cgoods_sto (gsyms q) (gord q)); [exact GO|]. auto with sto.
  - eexists. split; [reflexivity|]. split; [apply reach_pow_real; auto|]. eapply cgoods_sto; [exact GO|]. apply sto_pow_real; eauto.
  - eexists. split; [reflexivity|]. split; [apply reach_pow_int; auto|]. eapply cgoods_sto; [exact GO|]. apply sto_pow_int; eauto.
Qed.


(** Their results are expansions. *)
Section Expr.
  Variables (point : string -> C) (order : string -> nat) (M n : nat).
  Hypothesis HM : forall s, (n <= order s <= M)%nat.

  Definition at_disp (x : string -> C) : string -> C := fun s => (point s + x (dsym s))%C.
  Lemma at_center : at_disp ccenter = point.
  Proof. apply FunctionalExtensionality.functional_extensionality. intros s. unfold at_disp, ccenter. ring. Qed.

  Lemma ccalc_inv e : cnames_ok order e -> cfits e M -> csmooth e point ->
    exists g, ccalc point order e = Ok g /\ cexpands n g (fun x => cplx e (at_disp x)) /\ (get_order g <= M)%nat.
  Proof.
    assert (C0 : forall e, cplx e (at_disp ccenter) = cplx e point) by (intros; rewrite at_center; auto).
    assert (F1 : forall f k m, (k <= m)%nat -> cfits1 f m -> cfits1 f k) by (intros f k m L; destruct f; simpl; auto; lia).
    induction e; intros NO FT SM; cbn [cnames_ok] in NO; cbn [cfits] in FT; cbn [csmooth] in SM; cbn [ccalc cplx];
      repeat match goal with Hh : _ /\ _ |- _ => destruct Hh end;
      repeat match goal with IH : cnames_ok order ?a -> _, H1 : cnames_ok order ?a, H2 : cfits ?a M, H3 : csmooth ?a point |- _ =>
        let q := fresh "q" in let EX := fresh "EX" in let EQ := fresh "EQ" in let OR := fresh "OR" in
        destruct (IH H1 H2 H3) as (q & EQ & EX & OR); clear IH; rewrite EQ; cbn [rbind];
        let VA := fresh "VA" in assert (VA := proj1 EX) end.
    - exists (gconst v). split; [reflexivity|]. split; [apply cexpands_const|]. unfold get_order. cbn. lia.
    - match goal with X : exists _, _ |- _ => destruct X as (c & r & -> & Hc) end.
      pose proof (gvar_spec (point (String c r)) (String c r) (order (String c r))) as S.
      destruct (gvar _ _ _) as [g|x] eqn:E.
      + exists g. split; auto. split; [apply (cexpands_var n (order (String c r))); [apply HM|exact E]|].
        destruct S as (_ & _ & O & _). specialize (HM (String c r)). lia.
      + exfalso. destruct x; auto; [destruct S as [S|[r' S]]; [lia|inversion S; auto]|discriminate].
    - eexists. split; [reflexivity|]. destruct (cexpands_arith n q0 q _ _ EX0 EX) as (X & _). split; [exact X|].
      destruct (ord_binary q0 q) as (O & _); [assumption|assumption|]. rewrite O. apply Nat.max_lub; auto.
    - eexists. split; [reflexivity|]. destruct (cexpands_arith n q0 q _ _ EX0 EX) as (_ & X & _). split; [exact X|].
      destruct (ord_binary q0 q) as (_ & O & _); [assumption|assumption|]. rewrite O. apply Nat.max_lub; auto.
    - eexists. split; [reflexivity|]. destruct (cexpands_arith n q0 q _ _ EX0 EX) as (_ & _ & X & _). split; [exact X|].
      destruct (ord_binary q0 q) as (_ & _ & O & _); [assumption|assumption|]. rewrite O. apply Nat.max_lub; auto.
    - eexists. split; [reflexivity|]. destruct (cexpands_arith n q0 q _ _ EX0 EX) as (_ & _ & _ & _ & X).
      split; [apply X; rewrite C0; auto|].
      destruct (ord_binary q0 q) as (_ & _ & _ & O & _); [assumption|assumption|]. rewrite O. apply Nat.max_lub; auto.
    - eexists. split; [reflexivity|]. destruct (cexpands_arith n q q _ _ EX EX) as (_ & _ & _ & X & _). split; [exact X|].
      destruct (ord_unary q k0) as (_ & _ & _ & _ & _ & _ & _ & _ & O & _); [assumption|]. rewrite O. auto.
    - eexists. split; [reflexivity|]. destruct (cexpands_scalar n q _ v EX) as (X & _). split; [exact X|].
      destruct (ord_unary q v) as (O & _); [assumption|]. rewrite O. auto.
    - eexists. split; [reflexivity|]. destruct (cexpands_scalar n q _ v EX) as (_ & X & _). split; [exact X|].
      destruct (ord_unary q v) as (_ & O & _); [assumption|]. rewrite O. auto.
    - eexists. split; [reflexivity|]. destruct (cexpands_scalar n q _ v EX) as (_ & _ & X & _). split; [exact X|].
      destruct (ord_unary q v) as (_ & _ & O & _); [assumption|]. rewrite O. auto.
    - eexists. split; [reflexivity|]. destruct (cexpands_scalar n q _ v EX) as (_ & _ & _ & X & _). split; [exact X|].
      destruct (ord_unary q v) as (_ & _ & _ & O & _); [assumption|]. rewrite O. auto.
    - eexists. split; [reflexivity|]. destruct (cexpands_scalar n q _ v EX) as (_ & _ & _ & _ & X & _). split; [exact X|].
      destruct (ord_unary q v) as (_ & _ & _ & _ & O & _); [assumption|]. rewrite O. auto.
    - eexists. split; [reflexivity|]. destruct (cexpands_scalar n q _ v EX) as (_ & _ & _ & _ & _ & X & _). split; [exact X|].
      destruct (ord_unary q v) as (_ & _ & _ & _ & _ & O & _); [assumption|]. rewrite O. auto.
    - eexists. split; [reflexivity|]. destruct (cexpands_scalar n q _ v EX) as (_ & _ & _ & _ & _ & _ & _ & X).
      split; [apply X; rewrite C0; auto|].
      destruct (ord_unary q v) as (_ & _ & _ & _ & _ & _ & O & _); [assumption|]. rewrite O. auto.
    - eexists. split; [reflexivity|]. destruct (cexpands_scalar n q _ v EX) as (_ & _ & _ & _ & _ & _ & X & _). split; [exact X|].
      destruct (ord_unary q v) as (_ & _ & _ & _ & _ & _ & _ & O & _); [assumption|]. rewrite O. auto.
    - eexists. split; [reflexivity|]. split; [|rewrite run1_ord; auto].
      apply (cexpands_fun1 f n q _ EX); [rewrite C0; auto|]. eapply F1; eauto.
    - destruct (ccalc_ok point order e) as (g0 & E0 & _ & G0); [assumption|]. assert (g0 = q0) by congruence. subst g0.
      destruct (runD_ok (quadD q) q0 VA G0) as [g Eg]. exists g. split; [exact Eg|].
      pose proof (runD_ord (quadD q) q0 g VA Eg) as Og. unfold get_order in *. split; [|lia].
      destruct (cexpands_quad n q0 _ g EX) as [Q1 Q2].
      + unfold get_order. lia.
      + intros s Hs. apply good_dname, G0, Hs.
      + rewrite C0 in Q1, Q2. destruct q; cbn [runD quadD cdomq cvalq] in *.
        * apply Q1; tauto.
        * apply Q2; tauto.
    - eexists. split; [reflexivity|]. split.
      + apply cexpands_pow; auto. rewrite C0; auto.
      + destruct (ord_binary q0 q) as (_ & _ & _ & _ & O); [assumption|assumption|]. rewrite O. apply Nat.max_lub; auto.
    - eexists. split; [reflexivity|]. split.
      + apply cexpands_pow_sg; auto. apply RtoC_neq0. auto.
      + destruct (Nat.eq_dec (gdegree q) 0) as [Z|Z].
        * unfold gpow_sg. rewrite Z. cbn. lia.
        * destruct (ord_pow q) as (_ & _ & O); [assumption|]. rewrite (O (RtoC v) Z). auto.
    - eexists. split; [reflexivity|]. split.
      + apply cexpands_pow_real; auto. rewrite C0; auto.
      + destruct (ord_pow q) as (O & _); [assumption|]. rewrite O. auto.
    - eexists. split; [reflexivity|]. split.
      + apply cexpands_pow_int; auto. rewrite C0; auto.
      + destruct (ord_pow q) as (_ & O & _); [assumption|]. rewrite O. auto.
  Qed.
End Expr.

Lemma cprogram_taylor point order M n e : (forall s, (n <= order s <= M)%nat) -> cnames_ok order e -> cfits e M -> csmooth e point ->
  exists g, ccalc point order e = Ok g /\ valid g /\ (get_order g <= M)%nat /\
    ctaylor_of n g (fun x => cplx e (fun s => point s + x (dsym s)))%C.
Proof.
  intros HM Hn F Sm. destruct (ccalc_inv point order M n HM e Hn F Sm) as (g & E & (V & _ & T) & O). exists g. auto.
Qed.
