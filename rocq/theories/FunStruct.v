(** * Structure of the results of the elementary functions: invariants, order
    and symbol set, for any coefficient arithmetic (proof file) *)

From Coq Require Import String Ascii List Arith Bool Lia ZArith.
From Verif Require Import Ops Syms SymsFacts Poly PolyFacts Gdual GdualFacts Functions.
Import ListNotations.

Section FunStruct.
  Context {K : Type} {o : Ops K} {e : Elem K}.

  Definition gnz (g : gdual K) : Prop := nz (pterms (gp g)).

  (** [sto V n g]: valid gdual of order [n] over the symbols [V]. *)
  Record sto (V : list string) (n : nat) (g : gdual K) : Prop := mkSto {
    sto_wf : gwf g; sto_nz : gnz g; sto_ord : gord g = n; sto_sym : gsyms g = V }.

  Lemma sto_self g : gwf g -> gnz g -> sto (gsyms g) (gord g) g.
  Proof. constructor; auto. Qed.
  Lemma sto_sorted V n g : sto V n g -> ssorted V.
  Proof. intros [W _ _ <-]. apply gsyms_sorted; auto. Qed.

  Lemma gadd_nz a b : gnz a -> gnz (gadd a b).
  Proof. apply padd_nz. Qed.
  Lemma gsub_nz a b : gnz a -> gnz (gsub a b).
  Proof. apply psub_nz. Qed.
  Lemma gmul_nz a b : gnz (gmul a b).
  Proof. apply pmul_if_nz. Qed.
  Lemma gconst_nz v : gnz (gconst v).
  Proof. apply padd_nz. constructor. Qed.

  Lemma sto_const v : sto [] 0 (gconst v).
  Proof. constructor; auto with gwf. apply gconst_nz. Qed.
  Lemma sto_add2 V n V' n' a b : sto V n a -> sto V' n' b -> sto (sunion V V') (Nat.max n n') (gadd a b).
  Proof. intros [W N O S] [W' N' O' S']. constructor; auto with gwf; [apply gadd_nz; auto|simpl; congruence|rewrite gsyms_add; congruence]. Qed.
  Lemma sto_sub2 V n V' n' a b : sto V n a -> sto V' n' b -> sto (sunion V V') (Nat.max n n') (gsub a b).
  Proof. intros [W N O S] [W' N' O' S']. constructor; auto with gwf; [apply gsub_nz; auto|simpl; congruence|rewrite gsyms_sub; congruence]. Qed.
  Lemma sto_mul2 V n V' n' a b : sto V n a -> sto V' n' b -> sto (sunion V V') (Nat.max n n') (gmul a b).
  Proof. intros [W N O S] [W' N' O' S']. constructor; auto with gwf; [apply gmul_nz|simpl; congruence|rewrite gsyms_mul; congruence]. Qed.
  Lemma sto_mul_sg V n v a : sto V n a -> sto V n (gmul_sg v a).
  Proof. intros [W N O S]. constructor; auto with gwf; [apply gmul_nz|rewrite gmul_sg_ord; auto]. Qed.
  Lemma sto_mul_gs V n v a : sto V n a -> sto V n (gmul_gs a v).
  Proof. intros [W N O S]. constructor; auto with gwf; [apply gmul_nz|rewrite gmul_gs_ord; auto|rewrite gsyms_gmul_gs; auto]. Qed.
  Lemma sto_div_gs V n v a : sto V n a -> sto V n (gdiv_gs a v).
  Proof. apply sto_mul_gs. Qed.
  Lemma sto_add_sg V n v a : sto V n a -> sto V n (gadd_sg v a).
  Proof. intros [W N O S]. constructor; auto with gwf. apply padd_nz, pconst_nz. Qed.
  Lemma sto_add_gs V n v a : sto V n a -> sto V n (gadd_gs a v).
  Proof. apply sto_add_sg. Qed.
  Lemma sto_sub_sg V n v a : sto V n a -> sto V n (gsub_sg v a).
  Proof. intros [W N O S]. constructor; auto with gwf. apply psub_nz, pconst_nz. Qed.
  Lemma sto_sub_gs V n v a : sto V n a -> sto V n (gsub_gs a v).
  Proof. intros [W N O S]. constructor; auto with gwf; [apply psub_nz; auto|rewrite gsyms_gsub_gs; auto]. Qed.
  Lemma sto_div2 V n V' n' a b : sto V n a -> sto V' n' b -> sto (sunion V V') (Nat.max n n') (gdiv a b).
  Proof.
    intros [W N O S] [W' N' O' S']. constructor; auto with gwf.
    - apply gmul_nz.
    - rewrite gdiv_ord; congruence.
    - rewrite gsyms_gdiv; congruence.
  Qed.
  Lemma sto_div_sg V n v b : sto V n b -> sto V n (gdiv_sg v b).
  Proof.
    intros [W N O S]. constructor; auto with gwf.
    - apply gmul_nz.
    - rewrite gdiv_sg_ord; congruence.
    - rewrite gsyms_gdiv_sg; congruence.
  Qed.

  (** Same-shape operands, and operands that are constants. *)
  Definition weak V n (g : gdual K) : Prop := sto [] 0 g \/ sto V n g.
  Lemma weak_r V n g : sto V n g -> weak V n g.
  Proof. right; auto. Qed.
  Lemma weak_const V n v : weak V n (gconst v).
  Proof. left. apply sto_const. Qed.

  Ltac both L := let H := fresh in let H' := fresh in
    intros H H'; assert (HS := sto_sorted _ _ _ H');
    let T := fresh in pose proof (L _ _ _ _ _ _ H H') as T;
    rewrite ?sunion_idem, ?sunion_nil_r, ?Nat.max_id, ?Nat.max_0_r, ?Nat.max_0_l in T by auto; exact T.

  Lemma sto_add V n a b : sto V n a -> sto V n b -> sto V n (gadd a b).
  Proof. both sto_add2. Qed.
  Lemma sto_sub V n a b : sto V n a -> sto V n b -> sto V n (gsub a b).
  Proof. both sto_sub2. Qed.
  Lemma sto_mul V n a b : sto V n a -> sto V n b -> sto V n (gmul a b).
  Proof. both sto_mul2. Qed.
  Lemma sto_div V n a b : sto V n a -> sto V n b -> sto V n (gdiv a b).
  Proof. both sto_div2. Qed.
  Lemma sto_add_wl V n a b : weak V n a -> sto V n b -> sto V n (gadd a b).
  Proof. intros [H|H]; [revert H; both sto_add2|apply sto_add; auto]. Qed.
  Lemma sto_sub_wl V n a b : weak V n a -> sto V n b -> sto V n (gsub a b).
  Proof. intros [H|H]; [revert H; both sto_sub2|apply sto_sub; auto]. Qed.
  Lemma sto_mul_wl V n a b : weak V n a -> sto V n b -> sto V n (gmul a b).
  Proof. intros [H|H]; [revert H; both sto_mul2|apply sto_mul; auto]. Qed.
  Lemma sto_div_wr V n a b : sto V n a -> weak V n b -> sto V n (gdiv a b).
  Proof.
    intros Ha [H|H]; [|apply sto_div; auto]. assert (HS := sto_sorted _ _ _ Ha).
    pose proof (sto_div2 _ _ _ _ _ _ Ha H) as T.
    rewrite sunion_nil_r, Nat.max_0_r in T by auto. exact T.
  Qed.
  Lemma weak_mul_sg V n v a : weak V n a -> weak V n (gmul_sg v a).
  Proof. intros [H|H]; [left|right]; apply sto_mul_sg; auto. Qed.
  Lemma weak_mul_gs V n v a : weak V n a -> weak V n (gmul_gs a v).
  Proof. intros [H|H]; [left|right]; apply sto_mul_gs; auto. Qed.

  #[local] Hint Resolve sto_const sto_mul_sg sto_mul_gs sto_div_gs sto_add_sg sto_add_gs sto_sub_sg sto_sub_gs
    sto_div_sg sto_add_wl sto_sub_wl sto_mul_wl sto_div_wr sto_add sto_sub sto_mul sto_div weak_r weak_const
    weak_mul_sg weak_mul_gs : sto.

  Variable d : gdual K.
  Hypothesis Hwf : gwf d.
  Hypothesis Hnz : gnz d.
  Let V := gsyms d.
  Let n := gord d.
  Let Hd : sto V n d := sto_self d Hwf Hnz.

  Ltac loop I :=
    match goal with |- context [fold_left ?F ?l ?s] =>
      let H := fresh in
      assert (H : I (fold_left F l s));
      [ apply fold_left_inv | destruct (fold_left F l s) as [? ?]; repeat match goal with p : (_ * _)%type |- _ => destruct p end; cbn beta iota in H |- * ]
    end.

  Lemma gexp_sto : sto V n (gexp d).
  Proof.
    unfold gexp. loop (fun '(r, f, p) => sto V n r /\ weak V n f /\ sto V n p).
    - cbn. conjs; eauto 8 with sto.
    - intros [[r f] p] i _ (H1 & H2 & H3). conjs; eauto 8 with sto.
    - destruct H as (H1 & _). auto with sto.
  Qed.
  Lemma glog_sto : sto V n (glog d).
  Proof.
    unfold glog. loop (fun '(r, f, p) => sto V n r /\ weak V n f /\ sto V n p).
    - cbn. conjs; eauto 8 with sto.
    - intros [[r f] p] i _ (H1 & H2 & H3). conjs; eauto 8 with sto.
    - destruct H as (H1 & _). auto with sto.
  Qed.
  Lemma groot_sto a root : sto V n (groot a root d).
  Proof.
    unfold groot. loop (fun '(r, p) => sto V n r /\ sto V n p).
    - cbn. conjs; eauto 8 with sto.
    - intros [r p] i _ (H1 & H2). conjs; eauto 8 with sto.
    - destruct H as (H1 & _). auto with sto.
  Qed.
  Lemma gpow_loop_sto k : sto V n (gpow_loop d k).
  Proof. unfold gpow_loop. apply fold_left_inv; auto with sto. Qed.
  Lemma gpow_real_sto a : sto V n (gpow_real d a).
  Proof.
    unfold gpow_real. destruct (_ && _); [apply gpow_loop_sto|].
    loop (fun '(r, p) => sto V n r /\ sto V n p).
    - cbn. conjs; eauto 8 with sto.
    - intros [r p] i _ (H1 & H2). conjs; eauto 8 with sto.
    - destruct H as (H1 & _). auto with sto.
  Qed.
  Lemma gpow_int_sto z : sto V n (gpow_int d z).
  Proof.
    unfold gpow_int. destruct (Z.ltb z 0).
    - apply fold_left_inv; eauto with sto.
    - destruct (Z.ltb 0 z); [apply gpow_loop_sto|]. auto with sto.
  Qed.
  Lemma gpow_sg_sto b : gdegree d <> 0 -> sto V n (gpow_sg b d).
  Proof.
    intros H0. unfold gpow_sg. destruct (Nat.eqb_spec (gdegree d) 0); [contradiction|].
    assert (T : sto V n (gmul_sg (e_log b) d)) by auto with sto. destruct T as [W N O S].
    clear -W N O S. unfold gexp. rewrite O.
    assert (Hd : sto V n (gmul_sg (e_log b) d)) by (constructor; auto).
    loop (fun '(r, f, p) => sto V n r /\ weak V n f /\ sto V n p).
    - cbn. conjs; eauto 8 with sto.
    - intros [[r f] p] i _ (H1 & H2 & H3). conjs; eauto 8 with sto.
    - destruct H as (H1 & _). auto with sto.
  Qed.

  Lemma trig_loop_weak p2 t0 idx : sto V n p2 -> weak V n t0 -> weak V n (trig_loop p2 t0 idx).
  Proof.
    intros Hp Ht. unfold trig_loop. loop (fun x : gdual K * Z * gdual K * K => let '(t, _, tmp, _) := x in weak V n t /\ weak V n tmp).
    - cbn. auto.
    - intros [[[t c] tmp] f] i _ (H1 & H2). conjs; eauto 8 with sto.
    - apply H.
  Qed.
  Lemma trig_loop_sto p2 t0 idx : sto V n p2 -> sto V n t0 -> sto V n (trig_loop p2 t0 idx).
  Proof.
    intros Hp Ht. unfold trig_loop. loop (fun x : gdual K * Z * gdual K * K => let '(t, _, tmp, _) := x in sto V n t /\ sto V n tmp).
    - cbn. auto.
    - intros [[[t c] tmp] f] i _ (H1 & H2). conjs; eauto 8 with sto.
    - apply H.
  Qed.
  Lemma hyp_loop_weak p2 t0 idx : sto V n p2 -> weak V n t0 -> weak V n (hyp_loop p2 t0 idx).
  Proof.
    intros Hp Ht. unfold hyp_loop. loop (fun x : gdual K * gdual K * K => let '(t, tmp, _) := x in weak V n t /\ weak V n tmp).
    - cbn. auto.
    - intros [[t tmp] f] i _ (H1 & H2). conjs; eauto 8 with sto.
    - apply H.
  Qed.
  Lemma hyp_loop_sto p2 t0 idx : sto V n p2 -> sto V n t0 -> sto V n (hyp_loop p2 t0 idx).
  Proof.
    intros Hp Ht. unfold hyp_loop. loop (fun x : gdual K * gdual K * K => let '(t, tmp, _) := x in sto V n t /\ sto V n tmp).
    - cbn. auto.
    - intros [[t tmp] f] i _ (H1 & H2). conjs; eauto 8 with sto.
    - apply H.
  Qed.
  Lemma cos_taylor_weak : weak V n (cos_taylor d).
  Proof. apply trig_loop_weak; auto with sto. Qed.
  Lemma sin_taylor_sto : sto V n (sin_taylor d).
  Proof. apply trig_loop_sto; auto with sto. Qed.
  Lemma cosh_taylor_weak : weak V n (cosh_taylor d).
  Proof. apply hyp_loop_weak; auto with sto. Qed.
  Lemma sinh_taylor_sto : sto V n (sinh_taylor d).
  Proof. apply hyp_loop_sto; auto with sto. Qed.
  #[local] Hint Resolve cos_taylor_weak sin_taylor_sto cosh_taylor_weak sinh_taylor_sto : sto.
  Lemma gsin_sto : sto V n (gsin d).
  Proof. unfold gsin. auto with sto. Qed.
  Lemma gcos_sto : sto V n (gcos d).
  Proof. unfold gcos. auto with sto. Qed.
  Lemma gsinh_sto : sto V n (gsinh d).
  Proof. unfold gsinh. auto with sto. Qed.
  Lemma gcosh_sto : sto V n (gcosh d).
  Proof. unfold gcosh. auto with sto. Qed.

  Lemma gtan_sto : sto V n (gtan d).
  Proof.
    unfold gtan. loop (fun x : gdual K * gdual K * K * K => let '(t, p, _, _) := x in sto V n t /\ sto V n p).
    - cbn. auto with sto.
    - intros [[[t p] f] g] i _ (H1 & H2). conjs; eauto 8 with sto.
    - destruct H as [H _]. auto 6 with sto.
  Qed.
  Lemma gtanh_sto : sto V n (gtanh d).
  Proof.
    unfold gtanh. loop (fun x : gdual K * gdual K * K * K => let '(t, p, _, _) := x in sto V n t /\ sto V n p).
    - cbn. auto with sto.
    - intros [[[t p] f] g] i _ (H1 & H2). conjs; eauto 8 with sto.
    - destruct H as [H _]. auto 6 with sto.
  Qed.
  Lemma gtan_quad_sto : sto V n (gtan_quad d).
  Proof. unfold gtan_quad, gsin_and_cos. pose proof gsin_sto. pose proof gcos_sto. auto with sto. Qed.
  Lemma gtanh_quad_sto : sto V n (gtanh_quad d).
  Proof. unfold gtanh_quad, gsinh_and_cosh. pose proof gsinh_sto. pose proof gcosh_sto. auto with sto. Qed.

  (** atan and atanh return a bare constant at order 0. *)
  Lemma gatan_sto : n <> 0 -> sto V n (gatan d).
  Proof.
    intros Hn. assert (Hd' := Hd). clear Hd. unfold gatan. fold n. revert Hn Hd'. generalize n.
    intros [|n'] Hn Hd; [contradiction|].
    cbn [seq fold_left]. change (Nat.odd 1) with true. cbn iota.
    loop (fun x : gdual K * K * K * gdual K => let '(r, _, _, p) := x in sto V (S n') r /\ sto V (S n') p).
    - cbn. conjs; eauto 10 with sto.
    - intros [[[r c1] c2] p] i _ (H1 & H2). destruct (Nat.odd i); conjs; eauto 8 with sto.
    - apply H.
  Qed.
  Lemma gatan_weak : weak V n (gatan d).
  Proof.
    destruct (Nat.eq_dec n 0) as [E|N]; [|right; apply gatan_sto; auto].
    left. unfold gatan. fold n. rewrite E. cbn. auto with sto.
  Qed.
  Lemma gatanh_sto : n <> 0 -> sto V n (gatanh d).
  Proof.
    intros Hn. assert (Hd' := Hd). clear Hd. unfold gatanh. fold n. revert Hn Hd'. generalize n.
    intros [|n'] Hn Hd; [contradiction|].
    cbn [seq fold_left].
    loop (fun x : gdual K * K * gdual K => let '(r, _, p) := x in sto V (S n') r /\ sto V (S n') p).
    - cbn. conjs; eauto 10 with sto.
    - intros [[r c1] p] i _ (H1 & H2). conjs; eauto 8 with sto.
    - destruct H as [H _]. auto with sto.
  Qed.
  Lemma gatanh_weak : weak V n (gatanh d).
  Proof.
    destruct (Nat.eq_dec n 0) as [E|N]; [|right; apply gatanh_sto; auto].
    left. unfold gatanh. fold n. rewrite E. cbn. auto with sto.
  Qed.
End FunStruct.

#[global] Hint Resolve sto_const sto_mul_sg sto_mul_gs sto_div_gs sto_add_sg sto_add_gs sto_sub_sg sto_sub_gs
    sto_div_sg sto_add_wl sto_sub_wl sto_mul_wl sto_div_wr sto_add sto_sub sto_mul sto_div weak_r weak_const
    weak_mul_sg weak_mul_gs : sto.

(** Versions with the shape given, and composed functions. *)
Section FunStruct2.
  Context {K : Type} {o : Ops K} {e : Elem K}.
  Variables (V : list string) (n : nat).
  Implicit Type d : gdual K.

  Ltac shape L := let H := fresh in intros H; destruct H as [W N O S]; subst; apply L; auto.
  Lemma sto_exp d : sto V n d -> sto V n (gexp d).
  Proof. shape @gexp_sto. Qed.
  Lemma sto_log d : sto V n d -> sto V n (glog d).
  Proof. shape @glog_sto. Qed.
  Lemma sto_sqrt d : sto V n d -> sto V n (gsqrt d).
  Proof. shape @groot_sto. Qed.
  Lemma sto_cbrt d : sto V n d -> sto V n (gcbrt d).
  Proof. shape @groot_sto. Qed.
  Lemma sto_pow_real d a : sto V n d -> sto V n (gpow_real d a).
  Proof. shape @gpow_real_sto. Qed.
  Lemma sto_pow_int d z : sto V n d -> sto V n (gpow_int d z).
  Proof. shape @gpow_int_sto. Qed.
  Lemma sto_atan d : n <> 0 -> sto V n d -> sto V n (gatan d).
  Proof. intros Hn. shape @gatan_sto. Qed.
  Lemma sto_atanh d : n <> 0 -> sto V n d -> sto V n (gatanh d).
  Proof. intros Hn. shape @gatanh_sto. Qed.
  Lemma weak_atan d : sto V n d -> weak V n (gatan d).
  Proof. shape @gatan_weak. Qed.
  Lemma weak_atanh d : sto V n d -> weak V n (gatanh d).
  Proof. shape @gatanh_weak. Qed.
  #[local] Hint Resolve sto_exp sto_log sto_sqrt sto_cbrt : sto.

  Lemma sto_asinh d : sto V n d -> sto V n (gasinh d).
  Proof. intros. unfold gasinh. auto 8 with sto. Qed.
  Lemma sto_acosh d : sto V n d -> sto V n (gacosh d).
  Proof. intros. unfold gacosh. auto 8 with sto. Qed.
  Lemma sto_asin d : n <> 0 -> sto V n d -> sto V n (gasin d).
  Proof. intros. unfold gasin. apply sto_atan; auto. auto 8 with sto. Qed.
  Lemma weak_asin d : sto V n d -> weak V n (gasin d).
  Proof. intros. unfold gasin. apply weak_atan. auto 8 with sto. Qed.
  Lemma sto_acos d : n <> 0 -> sto V n d -> sto V n (gacos d).
  Proof. intros. unfold gacos. apply sto_sub_sg, sto_asin; auto. Qed.
  Lemma weak_acos d : sto V n d -> weak V n (gacos d).
  Proof. intros H. unfold gacos. destruct (weak_asin d H); [left|right]; apply sto_sub_sg; auto. Qed.
  Lemma sto_pow V' n' d1 d2 : sto V n d1 -> sto V' n' d2 ->
    sto (sunion V' V) (Nat.max n' n) (gpow d1 d2).
  Proof.
    intros H1 H2. unfold gpow.
    pose proof (sto_mul2 _ _ _ _ _ _ H2 (sto_log _ H1)) as [W N O S]. rewrite <- O, <- S.
    apply gexp_sto; auto.
  Qed.
End FunStruct2.
#[global] Hint Resolve sto_exp sto_log sto_sqrt sto_cbrt sto_pow_real sto_pow_int : sto.

(** ** Quadrature of the derivative *)
Definition dname (s : string) : Prop := exists r, s = dsym r.
Definition good_name (s : string) : Prop := exists c r, s = dsym (String c r) /\ c <> "d"%char.

Lemma good_dname s : good_name s -> dname s.
Proof. intros (c & r & -> & _). exists (String c r). reflexivity. Qed.
Lemma dname_inv s : dname s -> dsym (undsym s) = s.
Proof. intros (r & ->). reflexivity. Qed.
Lemma check_good s : good_name s -> check_var_name (undsym s) = Ok tt.
Proof.
  intros (c & r & -> & Hc). simpl. destruct (Ascii.eqb_spec c "d"); congruence.
Qed.

Section Compose.
  Context {K : Type} {o : Ops K} {e : Elem K}.
  Implicit Types f g dg : gdual K.

  Lemma gpartial_nz g s r : gpartial g s = Ok r -> gnz r.
  Proof.
    unfold gpartial. destruct (check_var_name s) as [[]|]; cbn [rbind]; [|discriminate].
    intros E; inversion E. apply pdiff_nz.
  Qed.
  Lemma gintegrate_nz g s r : gintegrate g s = Ok r -> gnz r.
  Proof.
    unfold gintegrate. destruct (check_var_name s) as [[]|]; cbn [rbind]; [|discriminate].
    intros E; inversion E. apply pfilter_nz, pintegrate_nz.
  Qed.
  Lemma gpartial_sto V n g s r : sto V n g -> gpartial g s = Ok r -> sto V n r.
  Proof.
    intros [W N O S] E. destruct (gpartial_gwf _ _ _ W E) as [W' O'].
    constructor; auto; [apply (gpartial_nz _ _ _ E)|congruence|].
    unfold gpartial in E. destruct (check_var_name s) as [[]|]; cbn [rbind] in E; [|discriminate].
    inversion E. exact S.
  Qed.
  Lemma gintegrate_sto V n g s r : In (dsym s) V -> sto V n g -> gintegrate g s = Ok r -> sto V n r.
  Proof.
    intros Hi H E. assert (HS := sto_sorted _ _ _ H). destruct H as [W N O S].
    destruct (gintegrate_gwf _ _ _ W E) as [W' O'].
    constructor; auto; [apply (gintegrate_nz _ _ _ E)|congruence|].
    unfold gintegrate in E. destruct (check_var_name s) as [[]|]; cbn [rbind] in E; [|discriminate].
    inversion E. unfold gsyms in *. cbn [gp ptruncateZ pfilter psyms pintegrate]. rewrite S.
    apply ssorted_ext; auto using sinsert_sorted. intros x. rewrite sinsert_In. split; auto.
    intros [->|]; auto.
  Qed.
  Lemma gsubs_val_sto V n g s v : sto V n g -> sto V n (gsubs_val g s v).
  Proof. intros [W N O S]. constructor; auto using gsubs_val_gwf. apply psubs_val_nz. Qed.

  Lemma compose_loop_sto V n ss : (forall s, In s ss -> In (dsym s) V) -> forall prev f dg t r,
    sto V n f -> sto V n dg -> sto V n t -> compose_loop prev ss f dg t = Ok r -> sto V n r.
  Proof.
    induction ss as [|s ss IH]; intros Hin prev f dg t r Hf Hdg Ht E.
    - simpl in E. inversion E; subst; auto.
    - simpl in E. set (f' := gsubs_val f (dsym prev) 0%K) in *. set (dg' := gsubs_val dg (dsym prev) 0%K) in *.
      assert (Hf' : sto V n f') by (apply gsubs_val_sto; auto).
      assert (Hdg' : sto V n dg') by (apply gsubs_val_sto; auto).
      destruct (gpartial f' s) as [df|] eqn:E1; cbn [rbind] in E; [|discriminate].
      pose proof (gpartial_sto _ _ _ _ _ Hf' E1) as H1.
      destruct (gintegrate (gmul dg' df) s) as [t'|] eqn:E2; cbn [rbind] in E; [|discriminate].
      assert (H2 : sto V n t').
      { eapply gintegrate_sto; [|apply (sto_mul _ _ _ _ Hdg' H1)|exact E2]. apply Hin; left; auto. }
      eapply IH; try apply E; auto.
      + intros x Hx; apply Hin; right; auto.
      + apply sto_add; auto.
  Qed.
  Lemma compose_sto V n f dg v0 r : (forall s, In s V -> dname s) -> V <> [] ->
    sto V n f -> sto V n dg -> compose_from_derivative f dg v0 = Ok r -> sto V n r.
  Proof.
    intros HV HN Hf Hdg E. unfold compose_from_derivative, get_symbol_set in E.
    assert (Hsym : psyms (gp f) = V) by apply Hf. rewrite Hsym in E.
    assert (Hin : forall s, In s (map undsym V) -> In (dsym s) V).
    { intros s Hs. apply in_map_iff in Hs. destruct Hs as (x & <- & Hx). rewrite dname_inv; auto. }
    destruct (map undsym V) as [|s ss] eqn:Em; [destruct V; simpl in *; congruence|].
    destruct (gpartial f s) as [df|] eqn:E1; cbn [rbind] in E; [|discriminate].
    pose proof (gpartial_sto _ _ _ _ _ Hf E1) as H1.
    destruct (gintegrate (gmul dg df) s) as [t|] eqn:E2; cbn [rbind] in E; [|discriminate].
    assert (H2 : sto V n t).
    { eapply gintegrate_sto; [|apply (sto_mul _ _ _ _ Hdg H1)|exact E2]. apply Hin; left; auto. }
    destruct (compose_loop s ss f dg t) as [r'|] eqn:E3; cbn [rbind] in E; [|discriminate].
    inversion E; subst. apply sto_add_sg. eapply compose_loop_sto; try apply E3; auto.
    intros x Hx. apply Hin. right; auto.
  Qed.
  Lemma compose_nil f dg v0 : gsyms f = [] -> compose_from_derivative f dg v0 = Ok (gconst v0).
  Proof. intros H. unfold compose_from_derivative, get_symbol_set, gsyms in *. rewrite H. reflexivity. Qed.

  (** Without assumption on the names: the invariants still hold. *)
  Lemma compose_loop_inv ss : forall prev f dg t r,
    gwf f -> gwf dg -> gwf t -> gnz t -> compose_loop prev ss f dg t = Ok r -> gwf r /\ gnz r.
  Proof.
    induction ss as [|s ss IH]; intros prev f dg t r Hf Hdg Ht Hn E.
    - simpl in E. inversion E; subst; auto.
    - simpl in E. set (f' := gsubs_val f (dsym prev) 0%K) in *. set (dg' := gsubs_val dg (dsym prev) 0%K) in *.
      assert (Hf' : gwf f') by (apply gsubs_val_gwf; auto).
      assert (Hdg' : gwf dg') by (apply gsubs_val_gwf; auto).
      destruct (gpartial f' s) as [df|] eqn:E1; cbn [rbind] in E; [|discriminate].
      destruct (gpartial_gwf _ _ _ Hf' E1) as [H1 _].
      destruct (gintegrate (gmul dg' df) s) as [t'|] eqn:E2; cbn [rbind] in E; [|discriminate].
      destruct (gintegrate_gwf (gmul dg' df) _ _ (gmul_gwf _ _ Hdg' H1) E2) as [H2 _].
      eapply IH; try apply E; auto.
      + apply gadd_gwf; auto.
      + apply gadd_nz; auto.
  Qed.
  Lemma compose_inv f dg v0 r : gwf f -> gwf dg ->
    compose_from_derivative f dg v0 = Ok r -> gwf r /\ gnz r.
  Proof.
    intros Hf Hdg E. unfold compose_from_derivative in E.
    destruct (get_symbol_set f) as [|s ss].
    - inversion E. split; [apply gconst_gwf|apply gconst_nz].
    - destruct (gpartial f s) as [df|] eqn:E1; cbn [rbind] in E; [|discriminate].
      destruct (gpartial_gwf _ _ _ Hf E1) as [H1 _].
      destruct (gintegrate (gmul dg df) s) as [t'|] eqn:E2; cbn [rbind] in E; [|discriminate].
      destruct (gintegrate_gwf (gmul dg df) _ _ (gmul_gwf _ _ Hdg H1) E2) as [H2 _].
      destruct (compose_loop s ss f dg t') as [r'|] eqn:E3; cbn [rbind] in E; [|discriminate].
      inversion E; subst.
      destruct (compose_loop_inv _ _ _ _ _ _ Hf Hdg H2 (gintegrate_nz _ _ _ E2) E3).
      split; [apply gadd_sg_gwf; auto|apply padd_nz, pconst_nz].
  Qed.

  (** The call does not throw when every symbol is "d" followed by a legal name. *)
  Lemma compose_loop_ok ss : (forall s, In s ss -> check_var_name s = Ok tt) -> forall prev f dg t,
    exists r, compose_loop prev ss f dg t = Ok r.
  Proof.
    induction ss as [|s ss IH]; intros Hin prev f dg t; simpl; [eauto|].
    unfold gpartial, gintegrate. rewrite Hin by (left; auto). cbn [rbind]. apply IH.
    intros; apply Hin; right; auto.
  Qed.
  Lemma compose_ok f dg v0 : (forall s, In s (gsyms f) -> good_name s) ->
    exists r, compose_from_derivative f dg v0 = Ok r.
  Proof.
    intros H. unfold compose_from_derivative, get_symbol_set.
    assert (Hin : forall s, In s (map undsym (psyms (gp f))) -> check_var_name s = Ok tt).
    { intros s Hs. apply in_map_iff in Hs. destruct Hs as (x & <- & Hx). apply check_good, H. exact Hx. }
    destruct (map undsym (psyms (gp f))) as [|s ss]; [eauto|].
    unfold gpartial, gintegrate. rewrite Hin by (left; auto). cbn [rbind].
    destruct (compose_loop_ok ss (fun s Hs => Hin s (or_intror Hs)) s f dg
      (mkG (ptruncateZ (as_int (gord (gmul dg (mkG (pdiff (dsym s) (gp f)) (gord f)))))
              (pintegrate (dsym s) (gp (gmul dg (mkG (pdiff (dsym s) (gp f)) (gord f))))))
         (gord (gmul dg (mkG (pdiff (dsym s) (gp f)) (gord f)))))) as [r Hr].
    rewrite Hr. cbn [rbind]. eauto.
  Qed.
End Compose.
