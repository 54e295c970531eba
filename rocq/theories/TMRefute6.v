(** * Products with another iteration order (proof file) *)
From Coq Require Import String List Arith Bool ZArith Reals Permutation Lra Lia.
From Verif Require Import Ops Syms SymsFacts Poly PolyFacts Gdual GdualFacts Functions FunStruct Bounding SpecBounding BoundSamples BoundRefute Spec CoefFacts CoreProofs CalcProofs ValueProofs MiscProofs ElemR Interval TaylorModel SpecTM TMMaps TMArith TMMul TMMisc TMSamples TMFlat TMRefute TMRefute2 TMRefute4 TMInterval.
Import ListNotations.
Local Open Scope string_scope.
Local Open Scope list_scope.
Local Open Scope R_scope.

(** x + 2y on [0,1] x [0,3], exact; 1 with the remainder [0,1] *)
Definition lin_model : taylor_model R := mkTM lin2 1 2 (0, 0) ex2 dom2.
Definition unit_model : taylor_model R := mkTM one_x 0 1 (0, 1) [("x", 0)] [("x", (0, 1))].
Definition rectangle : SpecTM.point -> Prop := fun x => 0 <= x "x" <= 1 /\ 0 <= x "y" <= 3.
Lemma lin_wf : well_formed lin_model.
Proof.
  constructor; cbn [lin_model m_tpol m_order m_ndim m_exp m_domain]; try reflexivity; try exact lin2_valid.
  - exact (nodup_xy _ _).
  - exact (nodup_xy _ _).
  - intros s. cbn. change "dx" with (dsym "x"). change "dy" with (dsym "y"). split; intros [E|[E|[]]]; try (subst; auto; fail); injection E as <-; auto.
  - intros s. cbn. change "dx" with (dsym "x"). change "dy" with (dsym "y"). split; intros [E|[E|[]]]; try (subst; auto; fail); injection E as <-; auto.
  - intros s c J. cbn. intros [E|[E|[]]] [F|[F|[]]]; injection E as <- <-; try discriminate F; injection F as <-; unfold within; cbn; lra.
Qed.
Lemma lin_at x : value (m_tpol lin_model) (displacement (m_exp lin_model) x) = x "x" + 2 * x "y".
Proof. cbn [lin_model m_tpol m_exp]. rewrite lin2_value. unfold displacement, center_of. cbn. ring. Qed.
Lemma lin_represents : represents rectangle lin_model (fun x => x "x" + 2 * x "y").
Proof.
  split; [exact lin_wf|]. intros x [Hx Hy]. split.
  - intros s J. cbn. intros [E|[E|[]]]; injection E as <- <-; unfold within; cbn; lra.
  - rewrite lin_at. unfold within. cbn. lra.
Qed.
Lemma unit_wf : well_formed unit_model.
Proof.
  constructor; cbn [unit_model m_tpol m_order m_ndim m_exp m_domain]; try reflexivity; try exact valid_one.
  - cbn. repeat constructor. intros [].
  - cbn. repeat constructor. intros [].
  - intros s. cbn. change "dx" with (dsym "x"). split; intros [E|[]]; try (subst; auto; fail); injection E as <-; auto.
  - intros s. cbn. change "dx" with (dsym "x"). split; intros [E|[]]; try (subst; auto; fail); injection E as <-; auto.
  - intros s c J. cbn. intros [E|[]] [F|[]]; injection E as <- <-; injection F as <-; unfold within; cbn; lra.
Qed.
Lemma unit_represents : represents rectangle unit_model (fun _ => 2).
Proof.
  split; [exact unit_wf|]. intros x [Hx Hy]. split.
  - intros s J. cbn. intros [E|[]]; injection E as <- <-; unfold within; cbn; lra.
  - cbn [unit_model m_tpol m_rem]. rewrite value_one. unfold within. cbn. lra.
Qed.
Lemma rev_permutes : permutes (fun l => rev l).
Proof. intros l. apply Permutation_sym, Permutation_rev. Qed.
(** The bounds taken with the intervals exchanged *)
Lemma lin_rev : exists lo hi, tm_bounds (fun l => rev l) lin_model = Ok (lo, hi) /\ lo <= 5 /\ hi <= 5.
Proof.
  destruct (linear_exact lin2 ["x"; "y"] ex2 dom2 I2 (fun _ => 0) (fun l => rev l)) as (lo & hi & rho & rho' & E & In1 & In2 & E1 & E2).
  - exact lin2_valid.
  - reflexivity.
  - cbn; lia.
  - intros t [<-|[<-|[]]]; cbn; lia.
  - apply nodup_xy.
  - apply nodup_xy.
  - apply lin2_lookup.
  - exact rev_permutes.
  - intros t i [<-|[<-|[]]]; destruct i as [|[|i]]; cbn; try lia; destruct i; lia.
  - intros s [<-|[<-|[]]]; cbn; lra.
  - exists lo, hi. split; [exact E|]. rewrite lin2_value in E1, E2.
    assert (X : forall r, inside (map dsym ["x"; "y"]) (map snd (rev (relative_box ["x"; "y"] I2 (fun _ => 0)))) r -> r "dx" + 2 * r "dy" <= 5).
    { intros r H. unfold inside, relative_box in H. cbn in H. inversion_clear H as [|? ? ? ? P Q]. inversion_clear Q as [|? ? ? ? P' _]. cbn in P, P'. unfold dsym in *. lra. }
    apply X in In1. apply X in In2. lra.
Qed.
Lemma unit_rev : exists b, tm_bounds (fun l => rev l) unit_model = Ok b.
Proof.
  destruct (enclose_any one_x ["x"] [("x", 0)] [("x", (0, 1))] (fun _ => (0, 1)) (fun _ => 0) (fun l => rev l)) as (lo & hi & E & _).
  - exact valid_one.
  - reflexivity.
  - cbn; lia.
  - intros t [<-|[]]; cbn; lia.
  - cbn. repeat constructor. intros [].
  - cbn. repeat constructor. intros [].
  - intros s [<-|[]]; cbn; auto.
  - exact rev_permutes.
  - exists (lo, hi). exact E.
Qed.
Lemma mul_reversed_wrong : exists iter, permutes iter /\ exists (D : SpecTM.point -> Prop) A B f g T, represents D A f /\ represents D B g /\ same_centers A B /\ close_domains A B /\
  nonzero (m_tpol A) /\ nonzero (m_tpol B) /\ (1 <= get_order (m_tpol A) + get_order (m_tpol B) <= 62)%nat /\
  truncation_seen (m_tpol A) (m_tpol B) /\ tm_mul iter A B = Ok T /\ ~ encloses D T (fun x => f x * g x).
Proof.
  assert (SC : same_centers lin_model unit_model).
  { intros s c c'. cbn. intros [E|[E|[]]] [F|[]]; injection E as <- <-; try discriminate F; injection F as <-; auto. }
  assert (CD : close_domains lin_model unit_model).
  { intros s c c'. cbn. intros [E|[E|[]]] [F|[]]; injection E as <- <-; try discriminate F; injection F as <-; split; apply close_refl. }
  assert (PC : forall V k, NoDup V -> length k = length V -> (1 < list_sum k)%nat -> product_coef lin2 one_x V k = 0).
  { intros V k HV Hk L. rewrite (product_coef_value _ _ lin2); auto; try exact lin2_valid; try apply valid_one.
    - exact (coef_above (o:=OpsR) lin2 V k (valid_gwf _ lin2_valid) HV Hk L).
    - intros rho. rewrite value_one. ring. }
  assert (TS : truncation_seen (m_tpol lin_model) (m_tpol unit_model)) by (left; exact PC).
  assert (TM : truncation_small lin_model unit_model).
  { intros V k HV Hk L. cbn [lin_model unit_model m_tpol] in *. rewrite PC, Rabs_R0; auto. lra. }
  destruct lin_rev as (lo & hi & E1 & Hl & Hh). destruct unit_rev as (b & E2).
  assert (O1 : (1 <= get_order (m_tpol lin_model) + get_order (m_tpol unit_model) <= 62)%nat) by (cbn; lia).
  destruct (tm_mul_gen (fun l => rev l) lin_model unit_model lin_wf unit_wf SC CD ltac:(discriminate) ltac:(discriminate) (proj1 O1) ltac:(reflexivity) rev_permutes (lo, hi) b E1 E2 (or_introl TM)) as (T & be & ET & WT & PT & RT & TB & BT & TZ).
  exists (fun l => rev l). split; [exact rev_permutes|].
  exists rectangle, lin_model, unit_model, (fun x => x "x" + 2 * x "y"), (fun _ => 2), T.
  split; [exact lin_represents|]. split; [exact unit_represents|]. split; auto. split; auto. split; [discriminate|]. split; [discriminate|]. split; auto. split; auto. split; auto.
  intros C. set (p := fun s : string => if String.eqb s "x" then 1 else 3). assert (Hp : rectangle p) by (unfold rectangle, p; cbn; lra).
  destruct (C p Hp) as [_ [_ Q]]. rewrite <- (TZ TS TM p (proj1 (proj2 lin_represents p Hp)) (proj1 (proj2 unit_represents p Hp))), lin_at in Q.
  cbn [unit_model m_tpol] in Q. rewrite value_one in Q. rewrite RT in Q. destruct TB as [[_ ->]|[X _]]; [|contradiction].
  cbn [lin_model unit_model m_rem] in Q. rewrite !imul_zero_l in Q. assert (U : snd (imul (lo, hi) (0, 1)) <= 5) by (apply imul_below; cbn; lra).
  set (m := snd (imul (lo, hi) (0, 1))) in *. unfold iadd in Q. cbn [fst snd] in Q. fold m in Q. change (p "x") with 1 in Q. change (p "y") with 3 in Q. cbn [kadd OpsR] in Q. clearbody m. lra.
Qed.

(** ** Orders whose sum is 63 *)
Definition high_model : taylor_model R := mkTM p63 63 1 (0, 0) [("x", 0)] [("x", (0, 1))].
Lemma high_wf : well_formed high_model.
Proof.
  constructor; cbn [high_model m_tpol m_order m_ndim m_exp m_domain]; try reflexivity; try exact p63_valid.
  - cbn. repeat constructor. intros [].
  - cbn. repeat constructor. intros [].
  - intros s. cbn. change "dx" with (dsym "x"). split; intros [E|[]]; try (subst; auto; fail); injection E as <-; auto.
  - intros s. cbn. change "dx" with (dsym "x"). split; intros [E|[]]; try (subst; auto; fail); injection E as <-; auto.
  - intros s c J. cbn. intros [E|[]] [F|[]]; injection E as <- <-; injection F as <-; unfold within; cbn; lra.
Qed.
Definition poly63 (v : R) : R := 2 * v ^ 28 - v ^ 29 - v ^ 63.
Lemma high_at x : value (m_tpol high_model) (displacement (m_exp high_model) x) = poly63 (x "x").
Proof.
  cbn [high_model m_tpol m_exp]. rewrite p63_value. replace (displacement [("x", 0)] x "dx") with (x "x"); [reflexivity|].
  unfold displacement, center_of. cbn. symmetry. apply Rminus_0_r.
Qed.
Lemma high_represents : represents (fun x => 0 <= x "x" <= 1) high_model (fun x => poly63 (x "x")).
Proof.
  split; [exact high_wf|]. intros x Hx. split.
  - intros s J. cbn. intros [E|[]]; injection E as <- <-; unfold within; cbn; lra.
  - rewrite high_at. unfold within. cbn [fst snd high_model m_rem]. lra.
Qed.
Lemma unit_represents' : represents (fun x => 0 <= x "x" <= 1) unit_model (fun _ => 2).
Proof.
  split; [exact unit_wf|]. intros x Hx. split.
  - intros s J. cbn. intros [E|[]]; injection E as <- <-; unfold within; cbn; lra.
  - cbn [unit_model m_tpol m_rem]. rewrite value_one. unfold within. cbn. lra.
Qed.
Lemma mul_63_wrong iter : permutes iter -> exists (D : SpecTM.point -> Prop) A B f g T, represents D A f /\ represents D B g /\ same_centers A B /\ close_domains A B /\
  nonzero (m_tpol A) /\ nonzero (m_tpol B) /\ (get_order (m_tpol A) + get_order (m_tpol B) = 63)%nat /\
  truncation_seen (m_tpol A) (m_tpol B) /\ variables A = ["x"] /\ variables B = ["x"] /\ tm_mul iter A B = Ok T /\ ~ encloses D T (fun x => f x * g x).
Proof.
  intros Hi.
  assert (SC : same_centers high_model unit_model).
  { intros s c c'. cbn. intros [E|[]] [F|[]]; injection E as <- <-; injection F as <-; auto. }
  assert (CD : close_domains high_model unit_model).
  { intros s c c'. cbn. intros [E|[]] [F|[]]; injection E as <- <-; injection F as <-; split; apply close_refl. }
  assert (PC : forall V k, NoDup V -> length k = length V -> (63 < list_sum k)%nat -> product_coef p63 one_x V k = 0).
  { intros V k HV Hk L. rewrite (product_coef_value _ _ p63); auto; try exact p63_valid; try apply valid_one.
    - exact (coef_above (o:=OpsR) p63 V k (valid_gwf _ p63_valid) HV Hk L).
    - intros rho. rewrite value_one. ring. }
  assert (TS : truncation_seen (m_tpol high_model) (m_tpol unit_model)) by (left; exact PC).
  assert (TM : truncation_small high_model unit_model).
  { intros V k HV Hk L. cbn [high_model unit_model m_tpol] in *. rewrite PC, Rabs_R0; auto. lra. }
  destruct (p63_bounds iter Hi) as (lo & hi & E1 & Hl & Hh).
  destruct (enclose_any one_x ["x"] [("x", 0)] [("x", (0, 1))] (fun _ => (0, 1)) (fun _ => 0) iter) as (lo' & hi' & E2 & _);
    [exact valid_one|reflexivity|cbn; lia|intros t [<-|[]]; cbn; lia|cbn; repeat constructor; intros []|cbn; repeat constructor; intros []|intros s [<-|[]]; cbn; auto|exact Hi|].
  destruct (tm_mul_gen iter high_model unit_model high_wf unit_wf SC CD ltac:(discriminate) ltac:(discriminate) ltac:(cbn; lia) ltac:(reflexivity) Hi (lo, hi) (lo', hi') E1 E2 (or_introl TM)) as (T & be & ET & WT & PT & RT & TB & BT & TZ).
  exists (fun x => 0 <= x "x" <= 1), high_model, unit_model, (fun x => poly63 (x "x")), (fun _ => 2), T.
  split; [exact high_represents|]. split; [exact unit_represents'|]. split; auto. split; auto. split; [discriminate|]. split; [discriminate|]. split; [reflexivity|]. split; auto.
  split; [reflexivity|]. split; [reflexivity|]. split; auto.
  intros C. set (p := fun _ : string => 9 / 10). assert (Hp : 0 <= p "x" <= 1) by (unfold p; lra).
  destruct (C p Hp) as [_ [_ Q]]. rewrite <- (TZ TS TM p (proj1 (proj2 high_represents p Hp)) (proj1 (proj2 unit_represents' p Hp))), high_at in Q.
  cbn [unit_model m_tpol] in Q. rewrite value_one in Q. rewrite RT in Q. destruct TB as [[_ ->]|[X _]]; [|contradiction].
  cbn [high_model unit_model m_rem] in Q. rewrite !imul_zero_l in Q. assert (U : snd (imul (lo, hi) (0, 1)) <= 1 / 1000000000) by (apply imul_below; cbn; lra).
  set (m := snd (imul (lo, hi) (0, 1))) in *. unfold iadd in Q. cbn [fst snd] in Q. fold m in Q. change (p "x") with (9 / 10) in Q. cbn [kadd OpsR] in Q. clearbody m.
  assert (V : 1 / 100 < poly63 (9 / 10)) by (unfold poly63; lra). lra.
Qed.
