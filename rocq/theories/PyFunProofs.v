(** * Python expressions (proof file for C51). *)
From Coq Require Import String Ascii Reals Lra Lia List ZArith Bool FunctionalExtensionality.
From Verif Require Import Ops Syms SymsFacts Poly PolyFacts Sem Den Gdual GdualFacts Functions FunStruct Spec CoefFacts CoreProofs ValueProofs MiscProofs FunAlg ElemR Uni UniFun UniFun2 Taylor TayUnique TayFun TayQuad SpecTaylor TayProofs TayIdent PyFun SpecPy.
Import ListNotations.
Open Scope R_scope.

Lemma Reqb_true (x y : R) : x = y -> Reqb x y = true.
Proof. intros ->. unfold Reqb. destruct (Req_EM_T y y); auto. Qed.
Lemma Reqb_false (x y : R) : x <> y -> Reqb x y = false.
Proof. intros H. unfold Reqb. destruct (Req_EM_T x y); auto. contradiction. Qed.
Lemma Rltb_false (x y : R) : ~ x < y -> Rltb x y = false.
Proof. intros H. unfold Rltb. destruct (Rlt_dec x y); auto. contradiction. Qed.

(** ** Tables *)
Definition pr (f : pyfun) : R -> R := match f with P1 f => real1 f | PD f => realD f end.
Definition pdom (f : pyfun) : R -> Prop := match f with P1 f => dom1 f | PD f => domD f end.
Definition pfits (f : pyfun) (n : nat) : Prop := match f with P1 f => fits1 f n | PD f => (Z.of_nat n < 2147483648)%Z end.

Lemma std_real (f : pyfun) x : std_fun f x = pr f x.
Proof. destruct f as [f|f]; destruct f; cbn; auto. f_equal. ring. Qed.

Definition matches (m : mathfun) (f : pyfun) : Prop :=
  (forall x, mf_val m x = pr f x) /\ (forall p, mf_dom m p -> pdom f p) /\ (forall n, mf_upto m n -> pfits f n).

Lemma lookup_cons {A} name s (a : A) t : lookup name ((s, a) :: t) = if String.eqb name s then Some a else lookup name t.
Proof. unfold lookup. cbn. destruct (String.eqb name s); auto. Qed.

Ltac one := 
  match goal with
  | E : String.eqb ?n ?s = true |- _ => apply String.eqb_eq in E; subst n
  end.
Ltac finish_match := intros [= <-]; eexists; split; [reflexivity|];
  unfold matches; cbn; unfold anywhere, any_order, int_order; repeat split; auto; intros; try (f_equal; ring); try lra; tauto.

Lemma module_math name m : lookup name math_table = Some m -> exists f, lookup name module_table = Some f /\ matches m f.
Proof.
  unfold math_table. rewrite !lookup_cons.
  repeat match goal with |- (if String.eqb name ?s then _ else _) = _ -> _ =>
    destruct (String.eqb name s) eqn:?; [one; solve [finish_match]|] end.
  discriminate.
Qed.
Lemma method_math name m : lookup (plain_name name) math_table = Some m ->
  exists f, lookup name method_table = Some f /\ matches m f.
Proof.
  unfold plain_name, numpy_names. rewrite !lookup_cons.
  repeat match goal with |- lookup (match (if String.eqb name ?s then _ else _) with _ => _ end) _ = _ -> _ =>
    destruct (String.eqb name s) eqn:?; [one; cbn; solve [finish_match]|] end.
  cbn. unfold math_table. rewrite !lookup_cons.
  repeat match goal with |- (if String.eqb name ?s then _ else _) = _ -> _ =>
    destruct (String.eqb name s) eqn:?; [one; solve [finish_match]|] end.
  discriminate.
Qed.

(** ** Powers of numbers *)
Lemma rpow_Z x z : dompow x (IZR z) -> rpow x (IZR z) = powerRZ x z.
Proof.
  intros D. unfold rpow. destruct (Rlt_dec 0 x) as [P|P].
  - symmetry. apply powerRZ_Rpower. auto.
  - rewrite Int_part_IZR. destruct (Req_EM_T _ _); auto. contradiction.
Qed.
Lemma IZR_pow x z : (0 <= z)%Z -> IZR (x ^ z) = powerRZ (IZR x) z.
Proof.
  intros H. destruct z as [|p|p]; try lia; auto. cbn [powerRZ].
  rewrite <- (positive_nat_Z p) at 1. symmetry. rewrite pow_IZR. auto.
Qed.
Lemma num_pow_ok (x y : R) : dompow x y -> num_pow x y = Ok (VFloat (rpow x y)).
Proof.
  intros D. unfold num_pow. cbn. 
  assert (A : (Reqb x 0 && Rltb y 0)%bool = false).
  { destruct D as [D|[[D _]|(k & ->)]].
    - rewrite Reqb_false by lra. auto.
    - rewrite Reqb_false by lra. auto.
    - rewrite Bool.andb_comm, Rltb_false; auto. pose proof (pos_INR (S k)). lra. }
  rewrite A. clear A.
  assert (A : (Rltb x 0 && negb (Reqb (IZR (rtoint y)) y))%bool = false).
  { destruct D as [D|[[D (z & ->)]|(k & ->)]].
    - rewrite Rltb_false by lra. auto.
    - rewrite rtoint_IZR, Reqb_true by auto. apply Bool.andb_comm.
    - rewrite INR_IZR_INZ, rtoint_IZR, Reqb_true by auto. apply Bool.andb_comm. }
  rewrite A. auto.
Qed.

(** ** Numbers *)
Lemma number_cases v r : number_of v = Some r -> (exists z, v = VInt z /\ r = IZR z) \/ v = VFloat r.
Proof. destruct v; cbn; intros [= <-]; eauto. Qed.
Lemma as_double_number v r : number_of v = Some r -> as_double v = r.
Proof. destruct v; cbn; intros [= <-]; auto. Qed.
Lemma num_div_ok (x y : R) : y <> 0 -> num_div x y = Ok (VFloat (x / y)).
Proof. intros H. unfold num_div. cbn. rewrite Reqb_false; auto. Qed.

Lemma num_bin op v w a b : number_of v = Some a -> number_of w = Some b ->
  match op with BDiv => b <> 0 | BPow => dompow a b | _ => True end ->
  exists u, py_bin op v w = Ok u /\
    number_of u = Some (match op with BAdd => a + b | BSub => a - b | BMul => a * b | BDiv => a / b | BPow => rpow a b end).
Proof.
  intros Hv Hw D.
  destruct (number_cases v a Hv) as [(z & -> & ->)| ->], (number_cases w b Hw) as [(z' & -> & ->)| ->]; destruct op; cbn;
    try (rewrite num_div_ok by auto); try (rewrite num_pow_ok by auto);
    try (eexists; split; [reflexivity|]; cbn; rewrite ?plus_IZR, ?minus_IZR, ?mult_IZR; reflexivity).
  unfold int_pow. destruct (Z.leb 0 z') eqn:E.
  - eexists. split; [reflexivity|]. cbn. rewrite IZR_pow by (apply Z.leb_le; auto). rewrite rpow_Z; auto.
  - cbn. rewrite num_pow_ok by auto. eexists. split; [reflexivity|]. reflexivity.
Qed.

(** ** Gduals *)
Section Run.
  Variables (M n : nat).
  Definition ok (g : gdual R) (f : (string -> R) -> R) : Prop := expands n g f /\ reach g /\ goods g /\ (get_order g <= M)%nat.

  Lemma input_ok g : input n M g -> ok g (value g).
  Proof.
    intros (Rg & Ng & O). pose proof (reach_valid neg_nz_R g Rg) as V. split; [|split; [auto|split]].
    - split; auto. split; [unfold get_order in *; lia|]. exists 0, 1. split; [lra|]. split; [lra|]. intros x r _ _.
      rewrite Rminus_eq_0, Rabs_R0. lra.
    - intros s Hs. pose proof (reach_names neg_nz_R g Rg) as [_ E]. unfold gsyms in Hs. rewrite <- E in Hs.
      apply in_map_iff in Hs. destruct Hs as (t & <- & Ht). destruct (Ng t Ht) as (c & r & -> & Hc). exists c, r. auto.
    - lia.
  Qed.

  Ltac unpack H := let EX := fresh "EX" in let RE := fresh "RE" in let GO := fresh "GO" in let OR := fresh "OR" in
    destruct H as (EX & RE & GO & OR);
    match type of RE with reach ?q => let V := fresh "V" in let S := fresh "ST" in
      pose proof (reach_valid neg_nz_R _ RE) as V; pose proof (sto_valid _ V) as S end.

  Lemma ok_fun g f f' : (exists d, 0 < d /\ forall x, small x d -> f x = f' x) -> ok g f -> ok g f'.
  Proof. intros E (X & Y). split; auto. eapply expands_fun; eauto. Qed.
  Lemma ok_pos g f : ok g f -> 0 < f center -> exists d, 0 < d /\ forall x, small x d -> 0 < f x.
  Proof. intros (X & _) P. apply (near_self n g f (fun y => 0 < y) X). apply pos_near. auto. Qed.

  Lemma ok_gg op a b f g : ok a f -> ok b g ->
    match op with BDiv => g center <> 0 | BPow => 0 < f center | _ => True end ->
    exists r, py_bin op (VGdual a) (VGdual b) = Ok (VGdual r) /\
      ok r (fun x => match op with BAdd => f x + g x | BSub => f x - g x | BMul => f x * g x | BDiv => f x / g x | BPow => rpow (f x) (g x) end).
  Proof.
    intros Ha Hb D. assert (Ha' := Ha). unpack Ha. unpack Hb. eexists. split; [reflexivity|].
    destruct (expands_arith n a b _ _ EX EX0) as (A1 & A2 & A3 & _ & A4).
    destruct (ord_binary a b) as (O1 & O2 & O3 & O4 & O5); auto.
    destruct op.
    - split; [exact A1|]. split; [apply reach_add; auto|]. split; [|rewrite O1; apply Nat.max_lub; auto].
      eapply goods_sto; [|apply sto_add2; eauto]. apply goods_union; auto.
    - split; [exact A2|]. split; [apply reach_sub; auto|]. split; [|rewrite O2; apply Nat.max_lub; auto].
      eapply goods_sto; [|apply sto_sub2; eauto]. apply goods_union; auto.
    - split; [exact A3|]. split; [apply reach_mul; auto|]. split; [|rewrite O3; apply Nat.max_lub; auto].
      eapply goods_sto; [|apply sto_mul2; eauto]. apply goods_union; auto.
    - split; [exact (A4 D)|]. split; [apply reach_div; auto|]. split; [|rewrite O4; apply Nat.max_lub; auto].
      eapply goods_sto; [|apply sto_div2; eauto]. apply goods_union; auto.
    - apply (ok_fun _ (fun x => Rpower (f x) (g x))).
      { destruct (ok_pos a f Ha' D) as (d & Hd & P). exists d. split; auto. intros x Hx. symmetry. apply rpow_pos. auto. }
      split; [apply expands_pow; auto|]. split; [apply reach_pow; auto|]. split; [|rewrite O5; apply Nat.max_lub; auto].
      eapply goods_sto; [|apply sto_pow; eauto]. apply goods_union; auto.
  Qed.

  Lemma ok_sg op v w b g : number_of v = Some w -> ok b g ->
    match op with BDiv => g center <> 0 | BPow => 0 < w | _ => True end ->
    exists r, py_bin op v (VGdual b) = Ok (VGdual r) /\
      ok r (fun x => match op with BAdd => w + g x | BSub => w - g x | BMul => w * g x | BDiv => w / g x | BPow => rpow w (g x) end).
  Proof.
    intros Nv Hb D. unpack Hb. pose proof (as_double_number _ _ Nv) as Dv.
    assert (B : py_bin op v (VGdual b) = Ok (VGdual match op with BAdd => gadd_sg w b | BSub => gsub_sg w b
      | BMul => gmul_sg w b | BDiv => gdiv_sg w b | BPow => gpow_sg w b end)).
    { rewrite <- Dv. destruct v; [reflexivity|reflexivity|discriminate]. }
    rewrite B. eexists. split; [reflexivity|].
    destruct (expands_scalar n b _ w EX) as (A1 & _ & A2 & _ & A3 & _ & _ & A4).
    destruct (ord_unary b w) as (O1 & _ & O2 & _ & O3 & _ & O4 & _); auto.
    destruct op.
    - split; [exact A1|]. split; [apply reach_add_sg; auto|]. split; [|rewrite O1; auto].
      eapply goods_sto; [exact GO|]. apply sto_add_sg; eauto.
    - split; [exact A2|]. split; [apply reach_sub_sg; auto|]. split; [|rewrite O2; auto].
      eapply goods_sto; [exact GO|]. apply sto_sub_sg; eauto.
    - split; [exact A3|]. split; [apply reach_mul_sg; auto|]. split; [|rewrite O3; auto].
      eapply goods_sto; [exact GO|]. apply sto_mul_sg; eauto.
    - split; [exact (A4 D)|]. split; [apply reach_div_sg; auto|]. split; [|rewrite O4; auto].
      eapply goods_sto; [exact GO|]. apply sto_div_sg; eauto.
    - apply (ok_fun _ (fun x => Rpower w (g x))).
      { exists 1. split; [lra|]. intros x _. symmetry. apply rpow_pos. auto. }
      split; [apply expands_pow_sg; auto|]. split; [apply reach_pow_sg; auto|]. split.
      + unfold gpow_sg. destruct (Nat.eqb_spec (gdegree b) 0).
        * intros s Hs. rewrite gsyms_gconst in Hs. contradiction.
        * apply (goods_sto (gsyms b) (gord b)); [exact GO|]. auto with sto.
      + destruct (Nat.eq_dec (gdegree b) 0) as [Z|Z].
        * unfold gpow_sg. rewrite Z. cbn. lia.
        * destruct (ord_pow b) as (_ & _ & O); [assumption|]. rewrite (O w Z). auto.
  Qed.

  Lemma ok_gs op a f v w : ok a f -> number_of v = Some w ->
    match op with BPow => dompow (f center) w | _ => True end ->
    exists r, py_bin op (VGdual a) v = Ok (VGdual r) /\
      ok r (fun x => match op with BAdd => f x + w | BSub => f x - w | BMul => f x * w | BDiv => f x / w | BPow => rpow (f x) w end).
  Proof.
    intros Ha Nv D. unpack Ha. pose proof (as_double_number _ _ Nv) as Dv.
    assert (B : py_bin op (VGdual a) v = Ok (VGdual match op with BAdd => gadd_gs a w | BSub => gsub_gs a w
      | BMul => gmul_gs a w | BDiv => gdiv_gs a w | BPow => gpow_real a w end)).
    { rewrite <- Dv. destruct v; [reflexivity|reflexivity|discriminate]. }
    rewrite B. eexists. split; [reflexivity|].
    destruct (expands_scalar n a _ w EX) as (_ & A1 & _ & A2 & _ & A3 & A4 & _).
    destruct (ord_unary a w) as (_ & O1 & _ & O2 & _ & O3 & _ & O4 & _); auto.
    destruct op.
    - split; [exact A1|]. split; [apply reach_add_gs; auto|]. split; [|rewrite O1; auto].
      eapply goods_sto; [exact GO|]. apply sto_add_gs; eauto.
    - split; [exact A2|]. split; [apply reach_sub_gs; auto|]. split; [|rewrite O2; auto].
      eapply goods_sto; [exact GO|]. apply sto_sub_gs; eauto.
    - split; [exact A3|]. split; [apply reach_mul_gs; auto|]. split; [|rewrite O3; auto].
      eapply goods_sto; [exact GO|]. apply sto_mul_gs; eauto.
    - split; [exact A4|]. split; [apply reach_div_gs; auto|]. split; [|rewrite O4; auto].
      eapply goods_sto; [exact GO|]. apply sto_div_gs; eauto.
    - split; [apply expands_pow_real; auto|]. split; [apply reach_pow_real; auto|]. split.
      + eapply goods_sto; [exact GO|]. apply sto_pow_real; eauto.
      + destruct (ord_pow a) as (O & _); [assumption|]. rewrite O. auto.
  Qed.

  Lemma ok_neg a f : ok a f -> ok (gneg a) (fun x => - f x).
  Proof.
    intros Ha. unpack Ha. destruct (expands_arith n a a _ _ EX EX) as (_ & _ & _ & X & _). split; [exact X|].
    split; [apply reach_neg; auto|]. split; [exact GO|].
    destruct (ord_unary a 0) as (_ & _ & _ & _ & _ & _ & _ & _ & O & _); [assumption|]. rewrite O. auto.
  Qed.

  Lemma fits_le f k m : (k <= m)%nat -> fits1 f m -> fits1 f k.
  Proof. intros L; destruct f; simpl; auto; lia. Qed.

  Lemma ok_fun1 f a u : ok a u -> dom1 f (u center) -> fits1 f M -> ok (run1 f a) (fun x => real1 f (u x)).
  Proof.
    intros Ha D F. unpack Ha. split; [|split; [apply reach_fun1; auto|split; [|rewrite run1_ord; auto]]].
    - apply (expands_run1 f n a _ EX); auto. eapply fits_le; eauto.
    - destruct (series_atan f) eqn:Ef.
      + apply (goods_weak (gsyms a) (gord a)); auto. destruct f; try discriminate; cbn [run1].
        * apply weak_atan; auto.
        * apply weak_atanh; auto.
        * apply weak_asin; auto.
        * apply weak_acos; auto.
      + apply (goods_sto (gsyms a) (gord a)); auto. apply run1_sto; auto; [exact neg_nz_R|congruence].
  Qed.
  Lemma ok_funD f a u : ok a u -> domD f (u center) -> (Z.of_nat M < 2147483648)%Z ->
    exists r, runD f a = Ok r /\ ok r (fun x => realD f (u x)).
  Proof.
    intros Ha D F. unpack Ha. destruct (runD_ok f a V GO) as [g Eg]. exists g. split; auto.
    assert (Rg : reach g) by (eapply reach_funD; eauto).
    split; [|split; [auto|split; [|pose proof (runD_ord f a g V Eg); unfold get_order in *; lia]]].
    - eapply (expands_runD f n a _ g EX); [auto|lia|exact (reach_dnames neg_nz_R a RE)|auto].
    - destruct (gsyms a) as [|s0 l] eqn:Es.
      + assert (Hc : forall dg v0, compose_from_derivative a dg v0 = Ok (gconst v0)) by (intros; apply compose_nil; auto).
        intros s Hs. exfalso. destruct f; cbn [runD] in Eg;
          try (unfold gatanh_d, gatan_d, gasin_d, gasinh_d, gacos_d, gacosh_d, gerf in Eg; cbv zeta in Eg; rewrite Hc in Eg; inversion Eg; subst g; rewrite gsyms_gconst in Hs; contradiction).
        unfold gerfc, gerf in Eg. cbv zeta in Eg. rewrite Hc in Eg. cbn [rbind] in Eg. inversion Eg; subst g.
        rewrite gsyms_gsub_sg, gsyms_gconst in Hs. contradiction.
      + assert (Ne : psyms (gp a) <> []) by (unfold gsyms in Es; rewrite Es; discriminate).
        destruct (runD_sto f a g V (reach_dnames neg_nz_R a RE) Ne Eg) as [S _].
        pose proof (reach_names neg_nz_R g Rg) as [_ M1]. pose proof (reach_names neg_nz_R a RE) as [_ M'].
        intros s Hs. apply GO. unfold gsyms in *. rewrite <- M1 in Hs. rewrite S, M' in Hs. exact Hs.
  Qed.

  Lemma ok_call (f : pyfun) (m : mathfun) a u : ok a u -> matches m f -> mf_dom m (u center) -> mf_upto m M ->
    exists r, gdual_fun f a = Ok r /\ ok r (fun x => mf_val m (u x)).
  Proof.
    intros Ha (HV & HD & HF) D U. apply HD in D. apply HF in U.
    assert (E : exists r, gdual_fun f a = Ok r /\ ok r (fun x => pr f (u x))).
    { destruct f as [f|f]; cbn in *; [exists (run1 f a); split; auto; apply ok_fun1; auto|apply ok_funD; auto]. }
    destruct E as (r & Er & Hr). exists r. split; auto. eapply ok_fun; [|exact Hr]. exists 1. split; [lra|]. intros x _. rewrite HV. auto.
  Qed.

  Variables (gd : string -> bool) (env : string -> pyval R) (G : string -> gdual R) (point : string -> R).
  Hypothesis HE : names_hold gd env G point.
  Hypothesis HI : forall s, gd s = true -> input n M (G s).
  Let p0 := inputs gd G point center.

  Definition num_ok (e : pyexpr R) : Prop :=
    (exists v, py_eval env e = Ok v /\ number_of v = Some (py_real e p0)) /\
    forall x, py_real e (inputs gd G point x) = py_real e p0.
  Definition gd_ok (e : pyexpr R) : Prop :=
    exists g, py_eval env e = Ok (VGdual g) /\ ok g (fun x => py_real e (inputs gd G point x)).

  Lemma ok_ext g f f' : (forall x, f x = f' x) -> ok g f -> ok g f'.
  Proof. intros E. apply ok_fun. exists 1. split; [lra|auto]. Qed.

  Lemma eval_ok e : py_smooth gd e p0 M -> if is_number gd e then num_ok e else gd_ok e.
  Proof.
    induction e as [z|x|s|op a IHa b IHb|a IHa|a IHa|f a IHa|f a IHa]; cbn [is_number py_smooth]; intros Sm.
    - split; [exists (VInt z); auto|auto].
    - split; [exists (VFloat x); auto|auto].
    - specialize (HE s). destruct (gd s) eqn:E; cbn.
      + exists (G s). cbn. rewrite HE. split; [reflexivity|]. apply (ok_ext _ (value (G s))).
        * intros x. unfold inputs. rewrite E. reflexivity.
        * apply input_ok. auto.
      + split; [exists (VFloat (point s)); cbn; rewrite HE; unfold p0, inputs; rewrite E; auto|].
        intros x. cbn. unfold p0, inputs. rewrite E. reflexivity.
    - destruct Sm as (Sa & Sb & D). specialize (IHa Sa). specialize (IHb Sb).
      destruct (is_number gd a), (is_number gd b); cbn [andb].
      + destruct IHa as ((v & Ev & Nv) & Ca), IHb as ((w & Ew & Nw) & Cb).
        pose proof (num_bin op v w _ _ Nv Nw D) as H. split; [|intros x; destruct op; cbn; rewrite Ca, Cb; reflexivity].
        destruct H as (u & Eu & Nu). exists u. cbn [py_eval]. rewrite Ev, Ew. cbn [rbind]. rewrite Eu, Nu. split; [reflexivity|].
        destruct op; reflexivity.
      + destruct IHa as ((v & Ev & Nv) & Ca), IHb as (h & Eh & Hh).
        destruct (ok_sg op v _ h _ Nv Hh) as (r & Er & Hr); [destruct op; auto|].
        exists r. cbn [py_eval]. rewrite Ev, Eh. split; [exact Er|].
        eapply ok_ext; [|exact Hr]. intros x. destruct op; cbn; rewrite ?Ca; reflexivity.
      + destruct IHa as (h & Eh & Hh), IHb as ((w & Ew & Nw) & Cb).
        destruct (ok_gs op h _ w _ Hh Nw) as (r & Er & Hr); [destruct op; auto|].
        exists r. cbn [py_eval]. rewrite Ew, Eh. split; [exact Er|].
        eapply ok_ext; [|exact Hr]. intros x. destruct op; cbn; rewrite ?Cb; reflexivity.
      + destruct IHa as (h & Eh & Hh), IHb as (k & Ek & Hk).
        destruct (ok_gg op h k _ _ Hh Hk) as (r & Er & Hr); [destruct op; auto|].
        exists r. cbn [py_eval]. rewrite Ek, Eh. split; [exact Er|].
        eapply ok_ext; [|exact Hr]. intros x. destruct op; cbn; reflexivity.
    - specialize (IHa Sm). destruct (is_number gd a).
      + destruct IHa as ((v & Ev & Nv) & Ca). split; [|intros x; cbn; rewrite Ca; auto].
        exists (py_neg v). cbn. rewrite Ev. split; [reflexivity|].
        destruct (number_cases _ _ Nv) as [(z & -> & ->)| ->]; cbn; auto. rewrite opp_IZR. auto.
      + destruct IHa as (h & Eh & Hh). exists (gneg h). cbn. rewrite Eh. split; [reflexivity|]. apply ok_neg. exact Hh.
    - specialize (IHa Sm). destruct (is_number gd a).
      + destruct IHa as ((v & Ev & Nv) & Ca). split; [|intros x; cbn; rewrite Ca; auto].
        exists v. cbn. rewrite Ev. split; [destruct v; [reflexivity|reflexivity|discriminate]|exact Nv].
      + destruct IHa as (h & Eh & Hh). exists h. cbn. rewrite Eh. split; [reflexivity|exact Hh].
    - destruct Sm as [Sa D]. specialize (IHa Sa). unfold math_ok in D.
      destruct (lookup f math_table) as [m|] eqn:Em; [|contradiction]. destruct D as [D U].
      destruct (module_math f m Em) as (h & Eh & Mh).
      assert (MV : forall x, math_fun f x = mf_val m x) by (intros; unfold math_fun; rewrite Em; auto).
      destruct (is_number gd a).
      + destruct IHa as ((v & Ev & Nv) & Ca). split; [|intros x; cbn; rewrite Ca; auto].
        exists (VFloat (std_fun h (as_double v))). cbn. rewrite Ev. cbn. unfold py_call. rewrite Eh.
        rewrite (as_double_number _ _ Nv), std_real, MV, (proj1 Mh).
        split; [destruct v; [reflexivity|reflexivity|discriminate]|reflexivity].
      + destruct IHa as (k & Ek & Hk). destruct (ok_call h m k _ Hk Mh D (U eq_refl)) as (r & Er & Hr).
        exists r. cbn. rewrite Ek. cbn. unfold py_call. rewrite Eh, Er. split; [reflexivity|].
        eapply ok_ext; [|exact Hr]. intros x. cbn. rewrite MV. reflexivity.
    - destruct Sm as (Sa & D & NA). specialize (IHa Sa). unfold math_ok in D. rewrite NA in *.
      destruct (lookup (plain_name f) math_table) as [m|] eqn:Em; [|contradiction]. destruct D as [D U].
      destruct (method_math f m Em) as (h & Eh & Mh).
      assert (MV : forall x, math_fun (plain_name f) x = mf_val m x) by (intros; unfold math_fun; rewrite Em; auto).
      destruct IHa as (k & Ek & Hk). destruct (ok_call h m k _ Hk Mh D (U eq_refl)) as (r & Er & Hr).
      exists r. cbn. rewrite Ek. cbn. rewrite Eh, Er. split; [reflexivity|].
      eapply ok_ext; [|exact Hr]. intros x. cbn. rewrite MV. reflexivity.
  Qed.

  Lemma python_number e : py_smooth gd e p0 M -> is_number gd e = true ->
    exists v, py_eval env e = Ok v /\ number_of v = Some (py_real e p0).
  Proof. intros Sm N. pose proof (eval_ok e Sm) as H. rewrite N in H. apply H. Qed.
  Lemma python_gdual e : py_smooth gd e p0 M -> is_number gd e = false ->
    exists g, py_eval env e = Ok (VGdual g) /\ input 0 M g /\ constant_cf g = py_real e p0 /\
      taylor_of n g (fun x => py_real e (inputs gd G point x)).
  Proof.
    intros Sm N. pose proof (eval_ok e Sm) as H. rewrite N in H. destruct H as (g & Eg & X & Rg & Go & O).
    exists g. split; auto. split; [|split; [symmetry; exact (expands_at _ _ _ X)|apply X]].
    split; auto. split; [|left; lia]. intros s Hs.
    pose proof (reach_names neg_nz_R g Rg) as [_ E].
    assert (Hd : In (dsym s) (gsyms g)) by (unfold gsyms; rewrite <- E; apply in_map; exact Hs).
    destruct (Go _ Hd) as (c & r & Hc & Hn). exists c, r. split; auto. injection Hc. auto.
  Qed.

  (** Continuity of the inputs. *)
  Lemma inputs_near (L : list string) d : 0 < d -> exists d', 0 < d' /\ forall x, small x d' -> forall s, In s L ->
    Rabs (inputs gd G point x s - p0 s) <= d.
  Proof.
    intros Hd. induction L as [|s L IH]; [exists 1; split; [lra|]; intros x _ s []|].
    destruct IH as (d1 & Hd1 & B). assert (X : exists d2, 0 < d2 /\ forall x, small x d2 -> Rabs (inputs gd G point x s - p0 s) <= d).
    { unfold p0, inputs. destruct (gd s) eqn:E.
      - destruct (input_ok _ (HI s E)) as (X & _).
        apply (near_self n (G s) (value (G s)) (fun y => Rabs (y - value (G s) center) <= d) X). exists d. split; auto.
      - exists 1. split; [lra|]. intros x _. rewrite Rminus_eq_0, Rabs_R0. lra. }
    destruct X as (d2 & Hd2 & B2). exists (Rmin d1 d2). split; [apply Rmin_pos; auto|]. intros x Hx t [<-|Ht].
    - apply B2. intros u. eapply Rle_trans; [apply Hx|apply Rmin_r].
    - apply B; auto. intros u. eapply Rle_trans; [apply Hx|apply Rmin_l].
  Qed.
End Run.

Fixpoint pnames (e : pyexpr R) : list string :=
  match e with
  | EInt _ | EFloat _ => []
  | EName s => [s]
  | EBin _ a b => pnames a ++ pnames b
  | ENeg a | EPos a | ECall _ a | EMethod _ a => pnames a
  end.
Lemma py_real_ext e y z : (forall s, In s (pnames e) -> y s = z s) -> py_real e y = py_real e z.
Proof.
  induction e; cbn; intros H; auto.
  all: try (rewrite IHe by auto; reflexivity).
  rewrite IHe1, IHe2 by (intros; apply H; apply in_or_app; auto). reflexivity.
Qed.

Lemma python_equal N gd env G point e f : names_hold gd env G point -> (forall s, gd s = true -> input N N (G s)) ->
  let p := inputs gd G point center in
  py_smooth gd e p N -> py_smooth gd f p N -> is_number gd e = false -> is_number gd f = false ->
  (exists d, 0 < d /\ forall y, (forall s, Rabs (y s - p s) <= d) -> py_real e y = py_real f y) ->
  exists g h, py_eval env e = Ok (VGdual g) /\ py_eval env f = Ok (VGdual h) /\ geqb g h = true.
Proof.
  intros HE HI p Se Sf Ne Nf (d & Hd & E).
  pose proof (eval_ok N N gd env G point HE HI e Se) as He. rewrite Ne in He. destruct He as (g & Eg & X & _ & _ & O).
  pose proof (eval_ok N N gd env G point HE HI f Sf) as Hf. rewrite Nf in Hf. destruct Hf as (h & Eh & Y & _ & _ & O').
  exists g, h. split; auto. split; auto.
  apply (eq_of_expands N g h (fun x => py_real e (inputs gd G point x))); auto.
  eapply expands_fun; [|exact Y].
  destruct (inputs_near N N gd G point HI (pnames e ++ pnames f) d Hd) as (d' & Hd' & B).
  exists d'. split; auto. intros x Hx.
  set (y := fun s => if in_dec string_dec s (pnames e ++ pnames f) then inputs gd G point x s else p s).
  assert (Y1 : forall k, (forall s, In s (pnames k) -> In s (pnames e ++ pnames f)) -> py_real k (inputs gd G point x) = py_real k y).
  { intros k Hk. apply py_real_ext. intros s Hs. unfold y. destruct (in_dec _ _ _) as [|W]; auto. exfalso. auto. }
  rewrite (Y1 e), (Y1 f) by (intros; apply in_or_app; auto). symmetry. apply E.
  intros s. unfold y. destruct (in_dec _ _ _); [apply B; auto|]. rewrite Rminus_eq_0, Rabs_R0. lra.
Qed.

(** ** Integers and floats *)
Lemma num_pow_Z (x : R) z : (0 <= z)%Z -> num_pow x (IZR z) = Ok (VFloat (rpow x (IZR z))) /\ rpow x (IZR z) = powerRZ x z.
Proof.
  intros H. split.
  - unfold num_pow. cbn. rewrite (Rltb_false (IZR z) 0) by (apply IZR_le in H; lra). rewrite Bool.andb_false_r.
    rewrite rtoint_IZR, (Reqb_true (IZR z)) by auto. rewrite Bool.andb_false_r. reflexivity.
  - unfold rpow. destruct (Rlt_dec 0 x) as [P|P]; [symmetry; apply powerRZ_Rpower; auto|].
    rewrite Int_part_IZR. destruct (Req_EM_T _ _); auto. contradiction.
Qed.
Lemma same_bin op v w v' w' : same_value v v' -> same_value w w' -> same_result (py_bin op v w) (py_bin op v' w').
Proof.
  intros Hv Hw.
  assert (D : forall x y : R, same_result (num_div x y) (num_div x y)) by (intros; unfold num_div; destruct (_ =? _)%K; cbn; auto).
  assert (P : forall x y : R, same_result (num_pow x y) (num_pow x y)).
  { intros. unfold num_pow. destruct (_ && _)%bool; cbn; auto. destruct (_ && _)%bool; cbn; auto. }
  assert (PI : forall a b, same_result (int_pow a b) (num_pow (IZR a) (IZR b)) /\ same_result (num_pow (IZR a) (IZR b)) (int_pow a b)).
  { intros a b. unfold int_pow. destruct (Z.leb 0 b) eqn:E; [|cbn; auto]. apply Z.leb_le in E.
    destruct (num_pow_Z (IZR a) b E) as [-> ->]. cbn. rewrite IZR_pow; auto. }
  destruct v as [z|x|d], v' as [z'|x'|d']; cbn in Hv; try contradiction; try injection Hv as Hv;
  destruct w as [t|y|e], w' as [t'|y'|e']; cbn in Hw; try contradiction; try injection Hw as Hw;
    try apply eq_IZR in Hv; try apply eq_IZR in Hw; subst; destruct op; cbn; auto;
    try apply D; try apply P; try apply PI; cbn; rewrite ?plus_IZR, ?minus_IZR, ?mult_IZR; auto.
  unfold int_pow. destruct (Z.leb 0 t'); [cbn; auto|apply P].
Qed.
Lemma same_refl v : same_value v v.
Proof. destruct v; cbn; auto. Qed.

Lemma int_float env env' e : (forall s, same_value (env s) (env' s)) -> same_result (py_eval env e) (py_eval env' (floats e)).
Proof.
  intros HE.
  assert (AD : forall v v', same_value v v' -> as_double v = as_double v').
  { intros v v'. destruct v, v'; cbn; intros H; try contradiction; auto; injection H; auto. }
  induction e as [z|x|s|op a IHa b IHb|a IHa|a IHa|f a IHa|f a IHa]; cbn; auto.
  - destruct (py_eval env a) as [v|], (py_eval env' (floats a)) as [v'|]; cbn in *; try contradiction; auto.
    destruct (py_eval env b) as [w|], (py_eval env' (floats b)) as [w'|]; cbn in *; try contradiction; auto.
    apply same_bin; auto.
  - destruct (py_eval env a) as [v|], (py_eval env' (floats a)) as [v'|]; cbn in *; try contradiction; auto.
    destruct v, v'; cbn in *; try contradiction; rewrite ?opp_IZR; try injection IHa as IHa; subst; rewrite ?IHa; auto.
  - destruct (py_eval env a) as [v|], (py_eval env' (floats a)) as [v'|]; cbn in *; try contradiction; auto.
    destruct v, v'; cbn in *; auto.
  - destruct (py_eval env a) as [v|], (py_eval env' (floats a)) as [v'|]; cbn in *; try contradiction; auto.
    unfold py_call. destruct (lookup f module_table) as [h|]; cbn; auto. pose proof (AD _ _ IHa) as A.
    destruct v as [z|x|d], v' as [z'|x'|d']; cbn in IHa, A; try contradiction; cbn; rewrite ?A; auto.
    subst d'. destruct (gdual_fun h d); cbn; auto.
  - destruct (py_eval env a) as [v|], (py_eval env' (floats a)) as [v'|]; cbn in *; try contradiction; auto.
    destruct v as [z|x|d], v' as [z'|x'|d']; cbn in IHa; try contradiction; cbn; auto.
    subst d'. destruct (lookup f method_table) as [h|]; cbn; auto. destruct (gdual_fun h d); cbn; auto.
Qed.

(** ** Methods and functions *)
Lemma methods (K : Type) (oK : Ops K) (eK : Elem K) f (d : gdual K) :
  lookup f module_table <> None -> py_method f (VGdual d) = py_call f (VGdual d).
Proof.
  unfold module_table. rewrite !lookup_cons.
  repeat match goal with |- (if String.eqb f ?s then _ else _) <> _ -> _ =>
    destruct (String.eqb f s) eqn:?; [one; intros _; reflexivity|] end.
  intros H. exfalso. apply H. reflexivity.
Qed.
Lemma numpy_methods (K : Type) (oK : Ops K) (eK : Elem K) f g (d : gdual K) :
  In (f, g) numpy_names -> py_method f (VGdual d) = py_call g (VGdual d).
Proof. cbn. intros H. repeat (destruct H as [[= <- <-]|H]; [reflexivity|]). contradiction. Qed.

(** ** Identities *)
Lemma py_eval_ext (env env' : string -> pyval R) e : (forall s, In s (pnames e) -> env s = env' s) -> py_eval env e = py_eval env' e.
Proof.
  induction e; cbn; intros H; auto; try (rewrite IHe by auto; reflexivity).
  - rewrite H; auto.
  - rewrite IHe1, IHe2 by (intros; apply H; apply in_or_app; auto). reflexivity.
Qed.
Definition only (s : string) (e : pyexpr R) : Prop := forall t, In t (pnames e) -> t = s.

Lemma python_ident env s (d : gdual R) e f : env s = VGdual d -> input (get_order d) (get_order d) d -> only s e -> only s f ->
  let gd := fun _ => true in let p := fun _ => constant_cf d in
  py_smooth gd e p (get_order d) -> py_smooth gd f p (get_order d) -> is_number gd e = false -> is_number gd f = false ->
  (exists r, 0 < r /\ forall y, Rabs (y s - constant_cf d) <= r -> py_real e y = py_real f y) ->
  exists g h, py_eval env e = Ok (VGdual g) /\ py_eval env f = Ok (VGdual h) /\ geqb g h = true.
Proof.
  intros Hs I Oe Of gd p Se Sf Ne Nf (r & Hr & E).
  assert (Hp : inputs gd (fun _ => d) (fun _ => 0) center = p).
  { apply functional_extensionality. intros t. unfold inputs, p. cbn. apply self_center. apply (reach_valid neg_nz_R). apply I. }
  destruct (python_equal (get_order d) gd (fun _ => VGdual d) (fun _ => d) (fun _ => 0) e f) as (g & h & Eg & Eh & Q); auto.
  - intros t. reflexivity.
  - cbv zeta. rewrite Hp. exact Se.
  - cbv zeta. rewrite Hp. exact Sf.
  - cbv zeta. rewrite Hp. exists r. split; [exact Hr|]. intros y Hy. apply E. exact (Hy s).
  - exists g, h. rewrite <- Eg, <- Eh. split; [|split; [|exact Q]]; apply py_eval_ext; intros t Ht; [rewrite (Oe t Ht)|rewrite (Of t Ht)]; exact Hs.
Qed.

Lemma rpow_2 y : rpow y (IZR 2) = y * y.
Proof. rewrite (proj2 (num_pow_Z y 2 ltac:(lia))). change (y * (y * 1) = y * y). ring. Qed.
Lemma rpow_m1 y : y <> 0 -> rpow y (IZR (-1)) = 1 / y.
Proof.
  intros H. unfold rpow. destruct (Rlt_dec 0 y) as [P|P].
  - rewrite <- powerRZ_Rpower by auto. change (/ (y * 1) = 1 / y). field. auto.
  - rewrite Int_part_IZR. destruct (Req_EM_T _ _); [|contradiction]. change (/ (y * 1) = 1 / y). field. auto.
Qed.
Lemma sqrt_rpow y : 0 < y -> rpow y (1 / 2) = sqrt y.
Proof. intros H. rewrite rpow_pos by auto. replace (1 / 2) with (/ 2) by lra. apply Rpower_sqrt. auto. Qed.
Lemma ln_neq0 b : 1 < b -> ln b <> 0.
Proof. intros H. assert (0 < ln b) by (rewrite <- ln_1; apply ln_increasing; lra). lra. Qed.
Lemma log_rpow b y : 1 < b -> ln (rpow b y) / ln b = y.
Proof. intros H. rewrite rpow_pos by lra. unfold Rpower. rewrite ln_exp. field. apply ln_neq0. auto. Qed.

Section Idents.
  Variables (env : string -> pyval R) (s : string) (d : gdual R).
  Hypothesis Hs : env s = VGdual d.
  Hypothesis I : input (get_order d) (get_order d) d.
  Let X : pyexpr R := EName s.
  Ltac only_tac := let t := fresh in intros t; cbn; intuition.

  Lemma near_gt (a p : R) : a < p -> exists r, 0 < r /\ forall y, Rabs (y - p) <= r -> a < y.
  Proof. intros H. exists ((p - a) / 2). split; [lra|]. intros y Hy. revert Hy. unfold Rabs. destruct (Rcase_abs _); lra. Qed.
  Lemma near_ne (p : R) : p <> 0 -> exists r, 0 < r /\ forall y, Rabs (y - p) <= r -> y <> 0.
  Proof.
    intros H. assert (0 < Rabs p) by (apply Rabs_pos_lt; auto). exists (Rabs p / 2). split; [lra|]. intros y Hy ->.
    rewrite Rminus_0_l, Rabs_Ropp in Hy. lra.
  Qed.

  Lemma to_d e : (exists g h, py_eval env e = Ok (VGdual g) /\ py_eval env X = Ok (VGdual h) /\ geqb g h = true) ->
    exists g, py_eval env e = Ok (VGdual g) /\ geqb g d = true.
  Proof. intros (g & h & Eg & Eh & Q). cbn in Eh. rewrite Hs in Eh. injection Eh as <-. eauto. Qed.

  Lemma expm1_log1p : -1 < constant_cf d -> exists g, py_eval env (ECall "expm1" (ECall "log1p" X)) = Ok (VGdual g) /\ geqb g d = true.
  Proof.
    intros P. apply to_d. apply (python_ident env s d); auto; try only_tac; cbn; unfold anywhere, any_order; auto.
    destruct (near_gt _ _ P) as (r & Hr & B). exists r. split; auto. intros y Hy. specialize (B _ Hy). cbn. rewrite exp_ln; lra.
  Qed.
  Lemma log1p_expm1 : exists g, py_eval env (ECall "log1p" (ECall "expm1" X)) = Ok (VGdual g) /\ geqb g d = true.
  Proof.
    apply to_d. apply (python_ident env s d); auto; try only_tac; cbn; unfold anywhere, any_order; auto.
    - pose proof (exp_pos (constant_cf d)). unfold math_ok. cbn. repeat split; auto. lra.
    - exists 1. split; [lra|]. intros y _. cbn. replace (1 + (exp (y s) - 1)) with (exp (y s)) by ring. apply ln_exp.
  Qed.
  Lemma log10_pow : exists g, py_eval env (ECall "log10" (EBin BPow (EInt 10) X)) = Ok (VGdual g) /\ geqb g d = true.
  Proof.
    apply to_d. apply (python_ident env s d); auto; try only_tac; cbn; unfold anywhere, any_order; auto.
    - unfold math_ok. cbn. repeat split; auto; try lra. rewrite rpow_pos by lra. apply exp_pos.
    - exists 1. split; [lra|]. intros y _. cbn. apply (log_rpow 10). lra.
  Qed.
  Lemma log2_pow : exists g, py_eval env (ECall "log2" (EBin BPow (EInt 2) X)) = Ok (VGdual g) /\ geqb g d = true.
  Proof.
    apply to_d. apply (python_ident env s d); auto; try only_tac; cbn; unfold anywhere, any_order; auto.
    - unfold math_ok. cbn. repeat split; auto; try lra. rewrite rpow_pos by lra. apply exp_pos.
    - exists 1. split; [lra|]. intros y _. cbn. apply (log_rpow 2). lra.
  Qed.
  Lemma pow_two : exists g h, py_eval env (EBin BPow X (EInt 2)) = Ok (VGdual g) /\ py_eval env (EBin BMul X X) = Ok (VGdual h) /\ geqb g h = true.
  Proof.
    apply (python_ident env s d); auto; try only_tac; cbn; auto.
    - repeat split; auto. right. right. exists 1%nat. cbn. lra.
    - exists 1. split; [lra|]. intros y _. cbn. apply rpow_2.
  Qed.
  Lemma pow_minus_one : constant_cf d <> 0 ->
    exists g h, py_eval env (EBin BPow X (EInt (-1))) = Ok (VGdual g) /\ py_eval env (EBin BDiv (EInt 1) X) = Ok (VGdual h) /\ geqb g h = true.
  Proof.
    intros P. apply (python_ident env s d); auto; try only_tac; cbn; auto.
    - repeat split; auto. destruct (Rtotal_order (constant_cf d) 0) as [|[|]]; [right; left; split; eauto|contradiction|left; auto].
    - destruct (near_ne _ P) as (r & Hr & B). exists r. split; auto. intros y Hy. cbn. apply rpow_m1. auto.
  Qed.
  Lemma pow_half : 0 < constant_cf d ->
    exists g h, py_eval env (EBin BPow X (EBin BDiv (EInt 1) (EInt 2))) = Ok (VGdual g) /\ py_eval env (ECall "sqrt" X) = Ok (VGdual h) /\ geqb g h = true.
  Proof.
    intros P. apply (python_ident env s d); auto; try only_tac; cbn; auto.
    - repeat split; auto; try lra. left. auto.
    - unfold math_ok, any_order. cbn. unfold any_order. auto.
    - destruct (near_gt _ _ P) as (r & Hr & B). exists r. split; auto. intros y Hy. cbn. apply sqrt_rpow. auto.
  Qed.
End Idents.
