(** * Functions of models with another iteration order (proof file) *)
From Coq Require Import String List Arith Bool ZArith Reals Permutation Lra Lia.
From Coquelicot Require Import Coquelicot.
From Verif Require Import Ops Syms SymsFacts Poly PolyFacts Gdual GdualFacts Functions FunStruct Bounding SpecBounding BoundSamples Spec SpecTaylor CoefFacts CoreProofs CalcProofs ValueProofs MiscProofs ElemR FunAlg TayProofs Uni UniFun Interval TaylorModel TMFunctions SpecTM TMMaps TMArith TMMul Lagrange TMTaylor TMBounds TMPow TMMisc TMSamples TMFlat TMRefute TMExact TMRefute2 TMInst TMGlue TMRefute5 TMRefute6 TMProbe.
From Verif Require Import Sem Den.
Import ListNotations.
Local Open Scope string_scope.
Local Open Scope list_scope.
Local Open Scope R_scope.

(** c + 16 x + y on [0, 1/256] x [0, 1/4096], exactly, at order n *)
Definition skew_poly (c : R) (n : nat) : gdual R := mkG (mkPoly ["dx"; "dy"] [([0; 0]%nat, c); ([1; 0]%nat, 16); ([0; 1]%nat, 1)]) n.
Definition skew_exp : list (string * R) := [("x", 0); ("y", 0)].
Definition skew_dom : list (string * (R * R)) := [("x", (0, 1 / 256)); ("y", (0, 1 / 4096))].
Definition skew_box (s : string) : R * R := if String.eqb s "x" then (0, 1 / 256) else (0, 1 / 4096).
Definition skew_model (c : R) (n : nat) : taylor_model R := mkTM (skew_poly c n) n 2 (0, 0) skew_exp skew_dom.
Definition skew : SpecTM.point -> Prop := fun x => 0 <= x "x" <= 1 / 256 /\ 0 <= x "y" <= 1 / 4096.
(** The bounds with the two intervals exchanged *)
Lemma skew_bounds (p : gdual R) k : valid p -> psyms (gp p) = ["dx"; "dy"] -> (Z.of_nat (gord p) < 4294967296)%Z ->
  (forall t i, In t (pterms (gp p)) -> (nth i (fst t) 0 <= 1)%nat) -> (forall t, In t (pterms (gp p)) -> (list_sum (fst t) <= 62)%nat) ->
  (forall rho, value p rho = k + 16 * rho "dx" + rho "dy") ->
  get_bounds (fun l => rev l) p skew_exp skew_dom = Ok (k, k + 1 / 128).
Proof.
  intros Vp Hs Ho H1 D HV.
  assert (N1 : NoDup (map fst skew_dom)) by (cbn; repeat constructor; cbn; intuition discriminate).
  assert (N2 : NoDup (map fst skew_exp)) by (cbn; repeat constructor; cbn; intuition discriminate).
  assert (L : forall s, In s ["x"; "y"] -> In (s, skew_box s) skew_dom /\ In (s, 0) skew_exp) by (intros s [<-|[<-|[]]]; cbn; auto).
  destruct (linear_exact p ["x"; "y"] skew_exp skew_dom skew_box (fun _ => 0) (fun l => rev l)) as (lo & hi & rho & rho' & E & I1 & I2 & E1 & E2); auto using rev_permutes.
  - intros s [<-|[<-|[]]]; cbn; lra.
  - destruct (enclose_any p ["x"; "y"] skew_exp skew_dom skew_box (fun _ => 0) (fun l => rev l)) as (lo' & hi' & E' & B); auto using rev_permutes.
    rewrite E in E'. injection E' as <- <-. rewrite E. f_equal.
    assert (Q : forall r, inside (map dsym ["x"; "y"]) (map snd (rev (relative_box ["x"; "y"] skew_box (fun _ => 0)))) r <-> 0 <= r "dx" <= 1 / 4096 /\ 0 <= r "dy" <= 1 / 256).
    { intros r. unfold inside, relative_box. cbn. split.
      - intros H. inversion_clear H as [|? ? ? ? P Q]. inversion_clear Q as [|? ? ? ? P' _]. cbn in P, P'. unfold dsym in *. lra.
      - intros [P P']. constructor; [cbn; unfold dsym; lra|]. constructor; [cbn; unfold dsym; lra|constructor]. }
    apply Q in I1. apply Q in I2. rewrite HV in E1, E2.
    assert (B0 : lo <= value p (fun _ => 0) <= hi) by (apply B, Q; lra).
    assert (B1 : lo <= value p (fun s => if String.eqb s "dx" then 1 / 4096 else 1 / 256) <= hi) by (apply B, Q; cbn; lra). rewrite HV in B0, B1. cbn in B1.
    apply (f_equal2 pair); lra.
Qed.
Section Skew.
  Variables (c : R) (n : nat).
  Hypothesis Hc : c <> 0.
  Hypothesis Hn : (1 <= n)%nat.
  Lemma skew_valid : valid (skew_poly c n).
  Proof using Hc Hn.
    constructor; cbn [skew_poly gp psyms pterms gord].
    - repeat constructor.
    - intros t [<-|[<-|[<-|[]]]]; reflexivity.
    - cbn. repeat constructor; intros H; cbn in H; intuition discriminate.
    - intros t [<-|[<-|[<-|[]]]]; cbn; unfold Reqb; destruct (Req_EM_T _ _); auto; exfalso; lra.
    - intros t [<-|[<-|[<-|[]]]]; cbn; lia.
  Qed.
  Lemma skew_wf : well_formed (skew_model c n).
  Proof using Hc Hn.
    constructor; cbn [skew_model m_tpol m_order m_ndim m_exp m_domain]; try reflexivity; try exact skew_valid.
    - repeat constructor; cbn; intuition discriminate.
    - repeat constructor; cbn; intuition discriminate.
    - intros s. cbn. change "dx" with (dsym "x"). change "dy" with (dsym "y"). split; intros [E|[E|[]]]; try (subst; auto; fail); injection E as <-; auto.
    - intros s. cbn. change "dx" with (dsym "x"). change "dy" with (dsym "y"). split; intros [E|[E|[]]]; try (subst; auto; fail); injection E as <-; auto.
    - intros s v J. cbn. intros [E|[E|[]]] [F|[F|[]]]; injection E as <- <-; try discriminate F; injection F as <-; unfold within; cbn; lra.
  Qed.
  Lemma skew_value rho : value (skew_poly c n) rho = c + 16 * rho "dx" + rho "dy".
  Proof using. cbn. ring. Qed.
  Lemma skew_at x : value (m_tpol (skew_model c n)) (displacement (m_exp (skew_model c n)) x) = c + 16 * x "x" + x "y".
  Proof using. cbn [skew_model m_tpol m_exp]. rewrite skew_value. unfold displacement, center_of. cbn. ring. Qed.
  Lemma skew_cf : constant_cf (skew_poly c n) = c.
  Proof using Hc Hn. rewrite <- (value_zero _ skew_valid). rewrite skew_value. change (c + 16 * 0 + 0 = c). ring. Qed.
  Lemma skew_linear : linear (skew_model c n).
  Proof using Hn. intros t [<-|[<-|[<-|[]]]]; cbn; lia. Qed.
  Lemma skew_fbar : f_bar (skew_model c n) = mkG (mkPoly ["dx"; "dy"] [([1; 0]%nat, 16); ([0; 1]%nat, 1)]) n.
  Proof using Hc Hn.
    unfold f_bar. cbn [skew_model m_tpol]. rewrite skew_cf. unfold gsub_gs, psub, padd, pneg, pconst, skew_poly. cbn.
    unfold Reqb. destruct (Req_EM_T c 0); [contradiction|]. cbn. unfold Reqb. destruct (Req_EM_T (c + - c) 0); [reflexivity|exfalso; lra].
  Qed.
  Lemma skew_probe : (Z.of_nat n < 4294967296)%Z ->
    probe (fun l => rev l) (skew_model c n) skew (fun x => c + 16 * x "x" + x "y") (fun s => if String.eqb s "x" then 1 / 256 else 0) n c (1 / 128) (1 / 16).
  Proof using Hc Hn.
    intros Ho. assert (W := skew_wf). assert (V := wf_poly _ W).
    constructor.
    - split; [exact W|]. intros x [Hx Hy]. split.
      + intros s J. cbn. intros [E|[E|[]]]; injection E as <- <-; unfold within; cbn; lra.
      + rewrite skew_at. unfold within. cbn. lra.
    - unfold skew. cbn. lra.
    - cbn. lra.
    - intros x [Hx Hy]. lra.
    - exact skew_cf.
    - unfold f_bar_remainder_bounds. rewrite skew_fbar. cbn [skew_model m_exp m_domain m_rem]. rewrite (skew_bounds _ 0); auto.
      + cbn [rbind]. f_equal. unfold iadd. cbn [fst snd]. apply (f_equal2 pair); cbn; lra.
      + constructor; cbn [gp psyms pterms gord].
        * repeat constructor.
        * intros t [<-|[<-|[]]]; reflexivity.
        * cbn. repeat constructor; intros H; cbn in H; intuition discriminate.
        * intros t [<-|[<-|[]]]; cbn; unfold Reqb; destruct (Req_EM_T _ _); auto; exfalso; lra.
        * intros t [<-|[<-|[]]]; cbn; lia.
      + intros t i [<-|[<-|[]]]; destruct i as [|[|[|i]]]; cbn; lia.
      + intros t [<-|[<-|[]]]; cbn; lia.
      + intros rho. cbn. ring.
    - exists (c, c + 1 / 128). unfold tm_bounds. cbn [skew_model m_tpol m_exp m_domain m_rem]. rewrite (skew_bounds (skew_poly c n) c); auto.
      + split; auto. unfold iadd. cbn [fst snd]. apply (f_equal2 pair); cbn; lra.
      + intros t i [<-|[<-|[<-|[]]]]; destruct i as [|[|[|i]]]; cbn; lia.
      + intros t [<-|[<-|[<-|[]]]]; cbn; lia.
      + exact skew_value.
    - intros r a S E. rewrite (linear_value (m_tpol (skew_model c n)) r a); auto; try apply S; try exact (linear_degree _ skew_linear).
      rewrite skew_at. cbn [skew_model m_tpol]. rewrite skew_cf. cbn [skew_poly gord]. f_equal. cbn. lra.
    - exact Hn.
  Qed.
End Skew.
Lemma reversed_wrong : exists iter, permutes iter /\ forall (iv : IvFun R) F n, iv_moderate iv -> In F [Fexp; Fsin; Fcos; Fsinh; Fcosh; Flog; Fsqrt] ->
  (1 <= n)%nat -> (Z.of_nat n < 4294967296)%Z -> (F = Fsqrt -> (n <= 17)%nat) -> (F <> Flog -> (n <= 169)%nat) ->
  exists (D : SpecTM.point -> Prop) A g T, represents D A g /\ simple A /\ m_rem A = (0, 0) /\ get_order (m_tpol A) = n /\ (forall x, D x -> dom1 F (g x)) /\
     tm_apply iter F A = Ok T /\ ~ encloses D T (fun x => real1 F (g x)).
Proof.
  exists (fun l => rev l). split; [exact rev_permutes|].
  intros iv F n MV HF H1 Hn B1 B2. set (c := match F with Flog | Fsqrt => 1 | _ => 3 / 4 end). assert (Hc : c <> 0) by (unfold c; destruct F; lra).
  assert (P := skew_probe c n Hc H1 Hn).
  destruct (probe_wrong _ F _ _ _ _ _ _ _ _ P (gaps_swap n H1) MV HF eq_refl B1 B2) as (Q & T & E & X).
  exists skew, (skew_model c n), (fun x => c + 16 * x "x" + x "y"), T. split; [exact (pr_rep _ _ _ _ _ _ _ _ _ P)|].
  split; [split; [apply skew_linear; auto|right; reflexivity]|]. auto.
Qed.
Lemma reversed_recip : exists iter, permutes iter /\ forall n, (1 <= n)%nat -> (Z.of_nat n < 4294967296)%Z ->
  exists (D : SpecTM.point -> Prop) A g T, represents D A g /\ simple A /\ m_rem A = (0, 0) /\ get_order (m_tpol A) = n /\ (forall x, D x -> 1 <= g x) /\
     tm_div_sg iter 1 A = Ok T /\ ~ encloses D T (fun x => / g x).
Proof.
  exists (fun l => rev l). split; [exact rev_permutes|].
  intros n H1 Hn. assert (P := skew_probe 1 n R1_neq_R0 H1 Hn).
  destruct (recip_lost _ _ _ _ _ _ _ _ P (gaps_swap n H1)) as (T & E & X).
  exists skew, (skew_model 1 n), (fun x => 1 + 16 * x "x" + x "y"), T. split; [exact (pr_rep _ _ _ _ _ _ _ _ _ P)|].
  split; [split; [apply skew_linear; auto|right; reflexivity]|]. split; auto. split; auto. split; [exact (pr_all _ _ _ _ _ _ _ _ _ P)|auto].
Qed.
