(** * Bounds at degree 63 (proof file) *)
From Coq Require Import String List Arith Bool Lia ZArith Permutation Reals Lra.
From Verif Require Import Ops Syms Poly Gdual Functions Spec PolyFacts GdualFacts CoefFacts Compose Bounding SpecBounding BinomProofs BoundPoly TensorProofs BernProofs CycleProofs BoundsMain BoundsFinal CoreProofs ValueProofs MiscProofs BoundSamples.
Import ListNotations.
Local Open Scope string_scope. Local Open Scope list_scope. Local Open Scope R_scope.

(** one variable on [0, 1], expanded at 0: the entries of the patch, at any degree *)
Section One.
  Variable g : gdual R.
  Variable n : nat.
  Hypothesis Vg : valid g.
  Hypothesis Sg : psyms (gp g) = ["dx"].
  Hypothesis Og : (Z.of_nat (get_order g) < 4294967296)%Z.
  Hypothesis Dg : forall t, In t (pterms (gp g)) -> (nth 0 (fst t) 0 <= n)%nat.
  Hypothesis Tg : exists t, In t (pterms (gp g)) /\ nth 0 (fst t) 0%nat = n.
  Definition patch_entry (k : nat) : R :=
    sum_list (fun t : key * R => snd t * (IZR (binomial64 (Z.of_nat k) (Z.of_nat (nth 0 (fst t) 0%nat))) * (1 / IZR (binomial64 (Z.of_nat n) (Z.of_nat (nth 0 (fst t) 0%nat)))))) (pterms (gp g)).
  Lemma one_var_bounds iter : (forall l, Permutation (iter l) l) -> exists l, get_bounds iter g [("x", 0)] [("x", (0, 1))] = Ok (min_of l, max_of l) /\ l <> [] /\
    forall v, In v l <-> exists k, (k <= n)%nat /\ v = patch_entry k.
  Proof.
    intros Hp. destruct (get_poly_spec g Vg Og (keqb_refl 0)) as (coeffs & exps & Ep & _ & Hne). destruct (Hne ltac:(rewrite Sg; discriminate)) as (ND & L & HI).
    assert (Hterm : forall e, In e exps -> exists c, In (e, c) (pterms (gp g))).
    { intros e He. apply (In_nth _ _ []) in He. destruct He as [m [Hm En]]. exists (nth m coeffs 0). apply HI.
      rewrite <- En. assert (X := combine_nth exps coeffs m [] 0 (eq_sym L)). apply (eq_ind _ (fun z => In z (combine exps coeffs))) with (2 := X). apply nth_In. rewrite combine_length, L, Nat.min_id. exact Hm. }
    assert (Hl : forall e, In e exps -> length e = 1%nat).
    { intros e He. destruct (Hterm e He) as [c Hc]. assert (X := valid_length g Vg (e, c) Hc). rewrite Sg in X. exact X. }
    assert (He : exists e, In e exps /\ nth 0 e 0%nat = n).
    { destruct Tg as [[e c] [It E]]. exists e. split; auto. apply HI in It. apply in_combine_l in It. auto. }
    assert (Hx : exps <> []) by (destruct He as (e & He & _); intros C; rewrite C in He; destruct He).
    destruct (maxdeg_spec 1 exps (le_n _) Hx Hl) as (md & Emd & Lmd & Hb & Hex).
    destruct md as [|d [|d' md]]; try discriminate Lmd. assert (d = n).
    { destruct (Hex 0%nat (le_n _)) as (e & Ie & E). cbn [nth] in E. destruct (Hterm e Ie) as [c Ic]. assert (Q1 := Dg _ Ic). cbn [fst] in Q1.
      destruct He as (e' & Ie' & E'). specialize (Hb e' Ie'). apply below_nth in Hb. destruct Hb as [_ Hb]. specialize (Hb 0%nat (le_n _)). cbn [nth] in Hb.
      destruct e' as [|a e']; cbn [nth] in *; lia. }
    subst d.
    destruct (a_matrix_spec 1 coeffs exps [n] (le_n _) Hx L Hl Emd eq_refl) as (A & EA & SA & CA). specialize (CA n [] eq_refl).
    destruct (d_acc_gen (K:=R) [n] 0 n (le_n _) eq_refl) as (Da & EDa & MDa & CDa).
    destruct (d_matrix_spec (K:=R) [n] 0 n 1 eq_refl) as (MQ & CQ).
    destruct (pascal_gen (K:=R) [n] 0 n eq_refl) as (MP & CP). rewrite Nat.add_1_r in *. cbn [shape size] in SA. unfold size in SA. cbn [fold_right] in SA.
    set (Q := get_d_matrix [n] 0 1) in *. set (P := get_lower_pascal_matrix [n] 0) in *.
    destruct (matmul_spec _ _ _ _ _ MDa MQ ltac:(lia) ltac:(lia)) as [M1 C1].
    destruct (matmul_spec _ _ _ _ _ M1 SA ltac:(lia) ltac:(lia)) as [M2 C2].
    destruct (matmul_spec _ _ _ _ _ MP M2 ltac:(lia) ltac:(lia)) as [M3 C3].
    set (M := matmul P (matmul (matmul Da Q) A)) in *.
    assert (EM : get_titi_bernstein_patch_ndim_generalbox coeffs exps [("x", (0, 1))] = Ok M).
    { unfold get_titi_bernstein_patch_ndim_generalbox, get_titi_base_lambda_generalbox.
      rewrite (ndim_spec 1) by auto. cbn [rbind]. rewrite EA. cbn [rbind]. rewrite Emd. cbn [rbind seq fold_left]. rewrite EDa. cbn [rbind].
      unfold get_q_matrix, build_dim_to_var_map. cbn [length Nat.leb nth_error]. rewrite (keqb_refl (0 : R)). cbn [rbind]. reflexivity. }
    assert (EB : get_bounds iter g [("x", 0)] [("x", (0, 1))] = Ok (min_of (concat M), max_of (concat M))).
    { unfold get_bounds. rewrite Ep. cbn [rbind fst snd]. rewrite (ndim_spec 1) by auto. cbn [rbind Nat.leb].
      unfold shifted_domain, get_symbol_set. rewrite Sg. cbn. replace (iter _) with [("x", (0 - 0, 1 - 0))] by (symmetry; apply Permutation_length_1_inv, Permutation_sym, Hp).
      rewrite !Rminus_0_r, EM. reflexivity. }
    exists (concat M). split; auto.
    assert (CM : forall k, (k <= n)%nat -> cell M k 0 = patch_entry k).
    { intros k Hk. unfold M. rewrite C3 by lia.
      assert (PE : Permutation (combine exps coeffs) (pterms (gp g))).
      { apply NoDup_Permutation; [apply NoDup_combine; auto| |intros [e c]; apply HI]. apply (NoDup_map_inv fst). apply (valid_distinct g Vg). }
      rewrite (sum_to_ext _ _ (fun i => kmul (kmul (kofZ (binomial64 (Z.of_nat k) (Z.of_nat i))) (1 / IZR (binomial64 (Z.of_nat n) (Z.of_nat i))))
        (sum_list (fun ec => if list_eq_dec Nat.eq_dec (fst ec) [i] then snd ec else k0) (pterms (gp g))))).
      2:{ intros i Hi. rewrite CP, C2 by lia. rewrite (sum_to_pick (S n) i); [|lia|].
          - rewrite C1 by lia. rewrite (sum_to_pick (S n) i); [|lia|].
            + rewrite CDa, CQ, CA by (cbn; lia). rewrite Nat.eqb_refl. cbn [digits]. rewrite get_coefficient_sum by auto. rewrite (sum_list_perm _ _ _ PE).
              set (X := sum_list _ _). assert (P1 : forall m, kpow (1 : R) m = 1) by (induction m as [|m IHm]; cbn; [auto|rewrite IHm; apply Rmult_1_l]). rewrite P1. cbn. ring.
            + intros j Hj N. rewrite CDa by lia. destruct (Nat.eqb_spec i j); [lia|]. apply Rmult_0_l.
          - intros j Hj N. rewrite C1 by lia. rewrite (sum_to_pick (S n) i); [|lia|].
            + rewrite CQ by lia. destruct (Nat.eqb_spec i j); [lia|]. cbn. ring.
            + intros m Hm N'. rewrite CDa by lia. destruct (Nat.eqb_spec i m); [lia|]. apply Rmult_0_l. }
      unfold patch_entry. assert (DL : forall t, In t (pterms (gp g)) -> (nth 0 (fst t) 0 <= n)%nat /\ length (fst t) = 1%nat).
      { intros t It. split; auto. assert (X := valid_length g Vg t It). rewrite Sg in X. exact X. }
      clear - DL. induction (pterms (gp g)) as [|t l IH].
      - rewrite sum_to_zero; [reflexivity|]. intros i _. apply Rmult_0_r.
      - unfold sum_list in *. cbn [fold_right]. rewrite <- IH by (intros; apply DL; right; auto). clear IH.
        destruct (DL t (or_introl eq_refl)) as [D1 D2]. destruct t as [[|e [|e' k']] c]; try discriminate D2. cbn [fst snd nth] in *.
        rewrite (sum_to_ext _ _ (fun i => kadd (kmul (kmul (kofZ (binomial64 (Z.of_nat k) (Z.of_nat i))) (1 / IZR (binomial64 (Z.of_nat n) (Z.of_nat i)))) (if list_eq_dec Nat.eq_dec [e] [i] then c else 0))
          (kmul (kmul (kofZ (binomial64 (Z.of_nat k) (Z.of_nat i))) (1 / IZR (binomial64 (Z.of_nat n) (Z.of_nat i)))) (fold_right (fun x a => (if list_eq_dec Nat.eq_dec (fst x) [i] then snd x else k0) + a) 0 l)))).
        2:{ intros i _. cbn. ring. }
        rewrite sum_to_plus. f_equal. rewrite (sum_to_pick (S n) e); [|lia|].
        + destruct (list_eq_dec Nat.eq_dec [e] [e]); [|congruence]. cbn. ring.
        + intros i Hi N. destruct (list_eq_dec Nat.eq_dec [e] [i]); [congruence|]. apply Rmult_0_r. }
    assert (IM : forall v, In v (concat M) <-> exists k, (k <= n)%nat /\ v = patch_entry k).
    { intros v. rewrite (in_concat_cell [n] M v M3). split.
      - intros (d & rest & i & j & E & Hi & Hj & Ev). injection E as <- <-. unfold size in Hj. cbn in Hj. replace j with 0%nat in Ev by lia. exists i. split; auto. rewrite <- Ev. auto.
      - intros (k & Hk & ->). exists n, [], k, 0%nat. repeat split; auto. }
    split; auto. intros C. assert (X := proj2 (IM (patch_entry 0)) (ex_intro _ 0%nat (conj (Nat.le_0_l n) eq_refl))). rewrite C in X. destruct X.
  Qed.
End One.

(** 2 x^28 - x^29 - x^63 *)
Definition p63 : gdual R := mkG (mkPoly ["dx"] [([28%nat], 2); ([29%nat], -1); ([63%nat], -1)]) 63.
Lemma p63_valid : valid p63.
Proof.
  constructor; cbn [p63 gp psyms pterms gord].
  - repeat constructor.
  - intros t [<-|[<-|[<-|[]]]]; reflexivity.
  - cbn [map fst]. repeat constructor; intros H; cbn in H; intuition discriminate.
  - intros t [<-|[<-|[<-|[]]]]; cbn; unfold Reqb; destruct (Req_EM_T _ _); auto; exfalso; lra.
  - intros t [<-|[<-|[<-|[]]]]; unfold list_sum; cbn [fst fold_right]; lia.
Qed.
Lemma p63_value rho : value p63 rho = 2 * rho "dx" ^ 28 - rho "dx" ^ 29 - rho "dx" ^ 63.
Proof. unfold value, sum_list, mono_at. cbn [p63 gp psyms pterms fold_right fst snd combine map]. cbn. ring. Qed.
Definition q63 (k : Z) : Z := (2 * binomial64 k 28 * binomial64 63 29 - binomial64 k 29 * binomial64 63 28 - binomial64 k 63 * binomial64 63 28 * binomial64 63 29)%Z.
Definition d63 : Z := (binomial64 63 28 * binomial64 63 29)%Z.
Lemma p63_entry k : patch_entry p63 63 k = IZR (q63 (Z.of_nat k)) / IZR d63.
Proof.
  unfold patch_entry, q63, d63, sum_list. cbn [p63 gp pterms fold_right fst snd nth]. change (Z.of_nat 28) with 28%Z. change (Z.of_nat 29) with 29%Z. change (Z.of_nat 63) with 63%Z.
  assert (D1 : IZR (binomial64 63 28) <> 0) by (apply not_0_IZR; vm_compute; discriminate). assert (D2 : IZR (binomial64 63 29) <> 0) by (apply not_0_IZR; vm_compute; discriminate).
  replace (binomial64 63 63) with 1%Z by reflexivity. rewrite !minus_IZR, !mult_IZR. change (@kadd R OpsR) with Rplus. change (@k0 R OpsR) with 0. field. auto.
Qed.
Lemma p63_small : forallb (fun k => (1000000000 * q63 (Z.of_nat k) <? d63)%Z) (seq 0 64) = true.
Proof. vm_compute. reflexivity. Qed.
Lemma p63_bounds iter : (forall l, Permutation (iter l) l) -> exists lo hi, get_bounds iter p63 [("x", 0)] [("x", (0, 1))] = Ok (lo, hi) /\ lo <= hi <= 1 / 1000000000.
Proof.
  intros Hp. destruct (one_var_bounds p63 63 p63_valid eq_refl) with (iter := iter) as (l & E & N & H); auto.
  - reflexivity.
  - intros t [<-|[<-|[<-|[]]]]; cbn [fst nth]; lia.
  - exists ([63%nat], -1). split; [right; right; left|]; reflexivity.
  - exists (min_of l), (max_of l). split; auto. destruct (min_of_spec l N) as [_ L1]. destruct (max_of_spec l N) as [I1 _]. split; auto.
    apply H in I1. destruct I1 as (k & Hk & ->). rewrite p63_entry. assert (S := p63_small). rewrite forallb_forall in S. specialize (S k ltac:(apply in_seq; lia)).
    apply Z.ltb_lt, IZR_lt in S. rewrite mult_IZR in S. assert (D : 0 < IZR d63) by (apply (IZR_lt 0); vm_compute; reflexivity).
    apply (Rmult_le_reg_r (IZR d63)); auto. unfold Rdiv. rewrite Rmult_assoc, Rinv_l by lra. lra.
Qed.
Lemma degree_63_wrong iter : (forall l, Permutation (iter l) l) -> exists (g : gdual R) V domain exp_points pt lo hi,
  valid g /\ psyms (gp g) = map dsym V /\ get_order g = 63%nat /\
  get_bounds iter g exp_points domain = Ok (lo, hi) /\
  (forall s, In s V -> exists a b, In (s, (a, b)) domain /\ In (s, 0) exp_points /\ a <= pt (dsym s) <= b) /\
  ~ value g pt <= hi.
Proof.
  intros Hp. destruct (p63_bounds iter Hp) as (lo & hi & E & _ & H). exists p63, ["x"], [("x", (0, 1))], [("x", 0)], (fun _ => 9 / 10), lo, hi.
  split; [exact p63_valid|]. split; [reflexivity|]. split; [reflexivity|]. split; auto. split.
  - intros s [<-|[]]. exists 0, 1. split; [left; auto|]. split; [left; auto|]. lra.
  - rewrite p63_value. lra.
Qed.
