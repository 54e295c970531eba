(** * Lemmas on maps, on the constructor and on intervals *)
From Coq Require Import String List Arith Bool ZArith Reals Permutation Lra Lia.
From Verif Require Import Ops Syms Poly Gdual Functions Spec TaylorModel Interval SpecTM.
Import ListNotations.

Section Maps.
  Context {V : Type}.
  Implicit Types (m a b : list (string * V)) (s : string) (v : V).

  Lemma dfind_In s v m : dfind s m = Some v -> In (s, v) m.
  Proof.
    induction m as [|[t w] m IH]; cbn [dfind]; [discriminate|]. destruct (String.eqb_spec t s); [|right; auto].
    intros E. injection E as ->. subst. left. auto.
  Qed.
  Lemma dfind_key s m : In s (map fst m) -> exists v, dfind s m = Some v.
  Proof.
    induction m as [|[t w] m IH]; cbn [map fst dfind]; [intros []|]. destruct (String.eqb_spec t s); [eauto|]. intros [|]; [congruence|auto].
  Qed.
  Lemma dfind_None s m : dfind s m = None <-> ~ In s (map fst m).
  Proof.
    split.
    - intros E H. destruct (dfind_key s m H). congruence.
    - intros H. destruct (dfind s m) eqn:E; auto. exfalso. apply H. apply dfind_In in E. apply (in_map fst) in E. auto.
  Qed.
  Lemma In_dfind s v m : distinct_keys m -> In (s, v) m -> dfind s m = Some v.
  Proof.
    unfold distinct_keys. induction m as [|[t w] m IH]; cbn [map fst dfind]; [intros _ []|]. intros N [E|H].
    - injection E as -> ->. rewrite String.eqb_refl. auto.
    - inversion N; subst. destruct (String.eqb_spec t s); [|auto]. subst. exfalso. apply H2. apply (in_map fst) in H. auto.
  Qed.
  Lemma has_spec s m : has s m = true <-> In s (map fst m).
  Proof.
    unfold has. destruct (dfind s m) eqn:E.
    - split; auto. intros _. apply dfind_In in E. apply (in_map fst) in E. auto.
    - apply dfind_None in E. split; [discriminate|tauto].
  Qed.
  Lemma has_false s m : has s m = false <-> ~ In s (map fst m).
  Proof. rewrite <- has_spec. destruct (has s m); split; congruence. Qed.
  Lemma has_iff s m : has s m = match dfind s m with Some _ => true | None => false end.
  Proof. reflexivity. Qed.
  Lemma distinct_In s v w m : distinct_keys m -> In (s, v) m -> In (s, w) m -> v = w.
  Proof. intros N H H'. apply (In_dfind _ _ _ N) in H, H'. congruence. Qed.
  Lemma key_In s m : In s (map fst m) <-> exists v, In (s, v) m.
  Proof.
    split.
    - intros H. apply in_map_iff in H. destruct H as ([t v] & <- & H). exists v. auto.
    - intros [v H]. apply (in_map fst) in H. auto.
  Qed.
  Lemma get_or_In d s v m : distinct_keys m -> In (s, v) m -> get_or d s m = v.
  Proof. intros N H. unfold get_or. rewrite (In_dfind s v m N H). auto. Qed.

  Lemma insert_new s v m : ~ In s (map fst m) -> insert s v m = m ++ [(s, v)].
  Proof. intros H. unfold insert. apply has_false in H. rewrite H. auto. Qed.
  Lemma insert_distinct s v m : distinct_keys m -> distinct_keys (insert s v m).
  Proof.
    intros N. unfold insert. destruct (has s m) eqn:E; auto. apply has_false in E. unfold distinct_keys. rewrite map_app. cbn [map fst].
    apply (Permutation_NoDup (l := s :: map fst m)); [|constructor; auto].
    apply (Permutation_cons_append (map fst m) s).
  Qed.
  Lemma insert_In s v m t w : In (t, w) (insert s v m) <-> In (t, w) m \/ (~ In s (map fst m) /\ t = s /\ w = v).
  Proof.
    unfold insert. destruct (has s m) eqn:E.
    - apply has_spec in E. tauto.
    - apply has_false in E. rewrite in_app_iff. cbn [In]. split.
      + intros [|[X|[]]]; auto. injection X as <- <-. auto.
      + intros [|(_ & -> & ->)]; auto.
  Qed.

  (** The two loops *)
  Section Loop.
    Variable look : string -> res (option V).
    Let step := fun acc key => result <- acc;; x <- look key;; Ok (match x with Some v => insert key v result | None => result end).
    Lemma loop_throw l x : fold_left step l (Throw x) = Throw x.
    Proof. induction l; cbn [fold_left]; auto. Qed.
    Lemma loop_spec l r : distinct_keys r ->
      match fold_left step l (Ok r) with
      | Ok m => distinct_keys m /\ (forall s, In s l -> exists y, look s = Ok y) /\
                forall s v, In (s, v) m <-> In (s, v) r \/ (~ In s (map fst r) /\ In s l /\ look s = Ok (Some v))
      | Throw x => exists s, In s l /\ look s = Throw x
      end.
    Proof.
      revert r. induction l as [|k l IH]; intros r N; cbn [fold_left].
      - split; auto. split; [intros s []|]. intros s v. cbn [In]. tauto.
      - unfold step at 2. cbn [rbind]. destruct (look k) as [y|x] eqn:E; cbn [rbind]; [|rewrite loop_throw; exists k; cbn; auto].
        set (r' := match y with Some v => insert k v r | None => r end).
        assert (N' : distinct_keys r') by (unfold r'; destruct y; auto using insert_distinct).
        specialize (IH r' N'). destruct (fold_left step l (Ok r')) as [m|x].
        + destruct IH as (D & A & H). split; auto. split; [intros s [<-|Hs]; eauto|]. intros s v. rewrite H. unfold r'.
          destruct y as [w|].
          * rewrite insert_In. split.
            -- intros [[Hr|(Hk & -> & ->)]|(Hn & Hl & El)]; auto.
               ++ right. cbn [In]. auto.
               ++ right. cbn [In]. split; auto. intros C. apply Hn. apply key_In in C. destruct C as [u C]. apply key_In. exists u. apply insert_In. auto.
            -- intros [Hr|(Hn & Hl & El)]; auto. destruct (string_dec k s) as [->|K].
               ++ left. right. split; auto. split; auto. rewrite E in El. injection El as ->. auto.
               ++ right. destruct Hl as [|Hl]; [congruence|]. split; auto. intros C. apply key_In in C. destruct C as [u C].
                  apply insert_In in C. destruct C as [C|(_ & C & _)]; [|congruence]. apply Hn. apply key_In. eauto.
          * split.
            -- intros [Hr|(Hn & Hl & El)]; auto. right. cbn [In]. auto.
            -- intros [Hr|(Hn & Hl & El)]; auto. right. split; auto. split; auto. destruct Hl as [->|]; auto. rewrite E in El. discriminate.
        + destruct IH as (s & Hs & Es). exists s. split; [right; auto|auto].
    Qed.
  End Loop.
  Lemma fl_ext {A B} (f g : A -> B -> A) l x : (forall y z, f y z = g y z) -> fold_left f l x = fold_left g l x.
  Proof. intros H. revert x. induction l; intros x; cbn [fold_left]; auto. rewrite H. auto. Qed.

  Lemma common_spec veq a b : distinct_keys a -> distinct_keys b ->
    match get_common_map veq a b with
    | Ok m => distinct_keys m /\ (forall s v w, In (s, v) a -> In (s, w) b -> veq v w = true) /\
              (forall s v, In (s, v) m <-> In (s, v) a \/ (In (s, v) b /\ ~ In s (map fst a)))
    | Throw x => x = RuntimeError /\ exists s v w, In (s, v) a /\ In (s, w) b /\ veq v w = false
    end.
  Proof.
    intros Na Nb. unfold get_common_map.
    set (look := fun key => match dfind key a, dfind key b with
       | Some x, Some y => if veq x y then Ok (Some x) else Throw RuntimeError
       | Some x, None => Ok (Some x) | None, Some y => Ok (Some y) | None, None => Ok None end).
    rewrite (fl_ext _ (fun acc key => result <- acc;; x <- look key;; Ok (match x with Some v => insert key v result | None => result end))).
    2:{ intros [y|x] z; cbn [rbind]; auto. unfold look. destruct (dfind z a), (dfind z b); auto. destruct (veq v v0); auto. }
    set (l := map fst a ++ _).
    assert (L : forall s, In s l <-> In s (map fst a) \/ In s (map fst b)).
    { intros s. unfold l. rewrite in_app_iff, filter_In. destruct (has s a) eqn:E; cbn [negb].
      - apply has_spec in E. split; [intros [|[]]; auto|auto].
      - split; intros [|]; try tauto. }
    assert (X := loop_spec look l [] (NoDup_nil _)). destruct (fold_left _ l (Ok [])) as [m|x].
    - destruct X as (D & A & H). split; auto. split.
      + intros s v w Hv Hw. destruct (A s) as [y E]; [apply L; left; apply key_In; eauto|]. revert E. unfold look.
        rewrite (In_dfind _ _ _ Na Hv), (In_dfind _ _ _ Nb Hw). destruct (veq v w); auto. discriminate.
      + intros s v. rewrite H. cbn [In map]. split.
        * intros [[]|(_ & Hl & E)]. revert E. unfold look. destruct (dfind s a) eqn:Ea; [|destruct (dfind s b) eqn:Eb].
          -- apply dfind_In in Ea. destruct (dfind s b); [destruct (veq v0 v1)|]; intros E; try discriminate; injection E as <-; auto.
          -- apply dfind_In in Eb. apply dfind_None in Ea. intros E. injection E as <-. auto.
          -- discriminate.
        * intros [Ha|[Hb Hn]]; right.
          -- split; [tauto|]. split; [apply L; left; apply key_In; eauto|]. destruct (A s) as [y E]; [apply L; left; apply key_In; eauto|].
             revert E. unfold look. rewrite (In_dfind _ _ _ Na Ha). destruct (dfind s b); auto. destruct (veq v v0); auto. discriminate.
          -- split; [tauto|]. split; [apply L; right; apply key_In; eauto|]. unfold look. apply dfind_None in Hn. rewrite Hn.
             rewrite (In_dfind _ _ _ Nb Hb). auto.
    - destruct X as (s & Hs & E). revert E. unfold look. destruct (dfind s a) eqn:Ea, (dfind s b) eqn:Eb; try discriminate.
      destruct (veq v v0) eqn:Ev; [discriminate|]. intros E. injection E as <-. split; auto. exists s, v, v0. auto using dfind_In.
  Qed.

  Lemma trim_spec (l : list string) a : distinct_keys a ->
    match trim_map l a with
    | Ok m => distinct_keys m /\ incl l (map fst a) /\ (forall s v, In (s, v) m <-> In s l /\ In (s, v) a)
    | Throw x => x = OtherException /\ exists s, In s l /\ ~ In s (map fst a)
    end.
  Proof.
    intros Na. unfold trim_map.
    set (look := fun key => match dfind key a with Some x => Ok (Some x) | None => Throw OtherException end).
    rewrite (fl_ext _ (fun acc key => result <- acc;; x <- look key;; Ok (match x with Some v => insert key v result | None => result end))).
    2:{ intros [y|x] z; cbn [rbind]; auto. unfold look. destruct (dfind z a); auto. }
    assert (X := loop_spec look l [] (NoDup_nil _)). destruct (fold_left _ l (Ok [])) as [m|x].
    - destruct X as (D & A & H). split; auto. split.
      + intros s Hs. destruct (A s Hs) as [y E]. revert E. unfold look. destruct (dfind s a) eqn:E; [|discriminate]. intros _. apply key_In. exists v. apply dfind_In; auto.
      + intros s v. rewrite H. cbn [In map]. unfold look. split.
        * intros [[]|(_ & Hl & E)]. split; auto. destruct (dfind s a) eqn:Ea; [|discriminate]. injection E as <-. apply dfind_In; auto.
        * intros [Hl Ha]. right. split; [tauto|]. split; auto. rewrite (In_dfind _ _ _ Na Ha). auto.
    - destruct X as (s & Hs & E). revert E. unfold look. destruct (dfind s a) eqn:Ea; [discriminate|]. intros E. injection E as <-. split; auto.
      exists s. split; auto. apply dfind_None; auto.
  Qed.
End Maps.

Section Make.
  Context {K : Type} {o : Ops K}.
  Lemma check_spec (t : taylor_model K) : distinct_keys (m_exp t) -> distinct_keys (m_domain t) -> m_ndim t = length (psyms (gp (m_tpol t))) ->
    match check_input_validity t with
    | Ok _ => consistent t
    | Throw x => x = InvalidArgument /\ ~ consistent t
    end.
  Proof.
    intros Ne Nd Hn. unfold check_input_validity. destruct (forallb _ (map fst (m_domain t)) && forallb _ (map fst (m_exp t))) eqn:E; cbn [negb].
    - apply andb_true_iff in E. rewrite !forallb_forall in E. destruct E as [E1 E2].
      assert (Kk : forall s, In s (map fst (m_exp t)) <-> In s (map fst (m_domain t))).
      { intros s. split; intros H; [apply E2 in H|apply E1 in H]; apply has_spec in H; auto. }
      destruct (forallb _ (m_domain t)) eqn:F; cbn [negb].
      + rewrite forallb_forall in F.
        assert (I : forall s c I, In (s, c) (m_exp t) -> In (s, I) (m_domain t) -> (c <? fst I)%K = false /\ (snd I <? c)%K = false).
        { intros s c I Hc HI. apply F in HI. cbn [fst snd] in HI. rewrite (get_or_In _ _ _ _ Ne Hc) in HI. unfold iin in HI.
          apply andb_true_iff in HI. rewrite !negb_true_iff in HI. auto. }
        destruct (Nat.eqb_spec (length (m_domain t)) (m_ndim t)); cbn [negb].
        * constructor; auto. congruence.
        * split; auto. intros [_ _ X]. congruence.
      + split; auto. intros [_ X _]. assert (C : forallb (fun kv => iin (get_or 0%K (fst kv) (m_exp t)) (snd kv)) (m_domain t) = true); [|congruence].
        apply forallb_forall. intros [s I] HI. cbn [fst snd]. assert (H : In s (map fst (m_exp t))) by (apply Kk, key_In; eauto).
        apply key_In in H. destruct H as [c Hc]. rewrite (get_or_In _ _ _ _ Ne Hc). unfold iin. destruct (X s c I Hc HI) as [-> ->]. auto.
    - split; auto. intros [X _ _]. assert (C : forallb (fun s => has s (m_exp t)) (map fst (m_domain t)) && forallb (fun s => has s (m_domain t)) (map fst (m_exp t)) = true); [|congruence].
      apply andb_true_iff. rewrite !forallb_forall. split; intros s H; apply has_spec, X; auto.
  Qed.
  Lemma make_spec p r ex dom : distinct_keys ex -> distinct_keys dom ->
    match tm_make p r ex dom with
    | Ok t => t = mkTM p (get_order p) (get_symbol_set_size p) r ex dom /\ consistent t
    | Throw x => x = InvalidArgument /\ ~ consistent (mkTM p (get_order p) (get_symbol_set_size p) r ex dom)
    end.
  Proof.
    intros Ne Nd. unfold tm_make. set (t := mkTM _ _ _ _ _ _). assert (X := check_spec t Ne Nd eq_refl).
    destruct (check_input_validity t); cbn [rbind]; auto.
  Qed.
End Make.

Local Open Scope R_scope.
Lemma Rltb_false x y : Rltb x y = false <-> y <= x.
Proof. unfold Rltb. destruct (Rlt_dec x y); split; intros; try congruence; lra. Qed.
Lemma Rltb_true x y : Rltb x y = true <-> x < y.
Proof. unfold Rltb. destruct (Rlt_dec x y); split; intros; try congruence; lra. Qed.

Lemma center_of_dfind ex s : center_of ex s = get_or 0 s ex.
Proof.
  unfold center_of, get_or. induction ex as [|[t v] ex IH]; cbn [find dfind fst snd]; auto. destruct (String.eqb t s); auto.
Qed.
Lemma center_of_In ex s c : distinct_keys ex -> In (s, c) ex -> center_of ex s = c.
Proof. intros N H. rewrite center_of_dfind. apply (get_or_In (0 : R)); auto. Qed.

(** ** Intervals *)
Lemma within_add I J u v : within I u -> within J v -> within (iadd I J) (u + v).
Proof. unfold within, iadd. cbn. lra. Qed.
Lemma within_sub I J u v : within I u -> within J v -> within (isub I J) (u - v).
Proof. unfold within, isub. cbn. lra. Qed.
Lemma within_neg I u : within I u -> within (ineg I) (- u).
Proof. unfold within, ineg. cbn. lra. Qed.
Lemma within_ipt c : within (ipt c) c.
Proof. unfold within, ipt. cbn. lra. Qed.
Lemma kmin_le a b : (kmin a b : R) <= a /\ (kmin a b : R) <= b.
Proof. unfold kmin. cbn. unfold Rltb. destruct (Rlt_dec b a); lra. Qed.
Lemma kmax_le a b : a <= (kmax a b : R) /\ b <= (kmax a b : R).
Proof. unfold kmax. cbn. unfold Rltb. destruct (Rlt_dec a b); lra. Qed.
Lemma mul_corners a b c d u v : a <= u <= b -> c <= v <= d ->
  Rmin (Rmin (a * c) (a * d)) (Rmin (b * c) (b * d)) <= u * v <= Rmax (Rmax (a * c) (a * d)) (Rmax (b * c) (b * d)).
Proof.
  intros Hu Hv.
  assert (X : forall w p q, p <= w <= q -> forall z, Rmin (p * z) (q * z) <= w * z <= Rmax (p * z) (q * z)).
  { intros w p q H z. destruct (Rle_dec 0 z).
    - split; [eapply Rle_trans; [apply Rmin_l|]|eapply Rle_trans; [|apply Rmax_r]]; nra.
    - split; [eapply Rle_trans; [apply Rmin_r|]|eapply Rle_trans; [|apply Rmax_l]]; nra. }
  assert (A := X u a b Hu v). assert (B := X v c d Hv a). assert (C := X v c d Hv b).
  rewrite (Rmult_comm v a), (Rmult_comm c a), (Rmult_comm d a) in B. rewrite (Rmult_comm v b), (Rmult_comm c b), (Rmult_comm d b) in C.
  split.
  - apply Rle_trans with (Rmin (a * v) (b * v)); [|apply A]. apply Rmin_glb.
    + eapply Rle_trans; [apply Rmin_l|]. apply B.
    + eapply Rle_trans; [apply Rmin_r|]. apply C.
  - apply Rle_trans with (Rmax (a * v) (b * v)); [apply A|]. apply Rmax_lub.
    + eapply Rle_trans; [|apply Rmax_l]. apply B.
    + eapply Rle_trans; [|apply Rmax_r]. apply C.
Qed.
Lemma kmin_Rmin a b : (kmin a b : R) = Rmin a b.
Proof. unfold kmin, Rmin. cbn. unfold Rltb. destruct (Rlt_dec b a), (Rle_dec a b); lra. Qed.
Lemma kmax_Rmax a b : (kmax a b : R) = Rmax a b.
Proof. unfold kmax, Rmax. cbn. unfold Rltb. destruct (Rlt_dec a b), (Rle_dec a b); lra. Qed.
Lemma within_mul I J u v : within I u -> within J v -> within (imul I J) (u * v).
Proof.
  unfold within, imul. cbn [fst snd]. rewrite !kmin_Rmin, !kmax_Rmax. intros H H'.
  exact (mul_corners (fst I) (snd I) (fst J) (snd J) u v H H').
Qed.
Lemma zero_in_spec I : zero_in I = true <-> within I 0.
Proof.
  unfold zero_in, within. cbn. rewrite andb_true_iff, !negb_true_iff, !Rltb_false. tauto.
Qed.
Lemma zero_in_false I : fst I <= snd I -> zero_in I = false -> 0 < fst I \/ snd I < 0.
Proof.
  intros _ H. destruct (Rlt_dec 0 (fst I)); auto. destruct (Rlt_dec (snd I) 0); auto. exfalso.
  assert (zero_in I = true); [|congruence]. apply zero_in_spec. unfold within. lra.
Qed.
Lemma within_div I J Q u v : idiv I J = Ok Q -> within I u -> within J v -> within Q (u / v).
Proof.
  unfold idiv. destruct (zero_in J) eqn:Z; [discriminate|]. intros E H H'. injection E as <-.
  apply within_mul; auto. unfold within in H' |- *. cbn [fst snd].
  destruct (zero_in_false J) as [P|P]; auto; [lra| |].
  - cbn. unfold Rdiv. rewrite !Rmult_1_l. split; apply Rinv_le_contravar; lra.
  - cbn. unfold Rdiv. rewrite !Rmult_1_l. split.
    + apply Ropp_le_cancel. rewrite <- !Rinv_opp. apply Rinv_le_contravar; lra.
    + apply Ropp_le_cancel. rewrite <- !Rinv_opp. apply Rinv_le_contravar; lra.
Qed.
Lemma idiv_Ok I J : 0 < fst J \/ snd J < 0 -> exists Q, idiv I J = Ok Q.
Proof.
  intros H. unfold idiv. replace (zero_in J) with false; [eauto|]. symmetry. apply not_true_iff_false. rewrite zero_in_spec. unfold within. lra.
Qed.
Lemma kpow_pow (x : R) n : kpow x n = x ^ n.
Proof. induction n; cbn [kpow pow]; auto. Qed.
Lemma pow_odd_le x y n : Nat.even n = false -> x <= y -> x ^ n <= y ^ n.
Proof.
  intros Hn H. assert (O : Nat.odd n = true) by (unfold Nat.odd; rewrite Hn; auto). apply Nat.odd_spec in O. destruct O as [m ->].
  replace (2 * m + 1)%nat with (S (2 * m)) by lia. cbn [pow].
  destruct (Rle_dec 0 x) as [P|P].
  - apply Rmult_le_compat; auto. apply pow_le; auto. apply pow_incr; lra.
  - destruct (Rle_dec 0 y) as [Q|Q].
    + apply Rle_trans with 0.
      * assert (0 <= x ^ (2 * m)) by (rewrite pow_mult; apply pow_le; nra). nra.
      * apply Rmult_le_pos; auto. apply pow_le; auto.
    + assert (E : forall z, z * z ^ (2 * m) = - ((- z) * (- z) ^ (2 * m))).
      { intros z. rewrite !pow_mult. replace ((- z) ^ 2) with (z ^ 2) by ring. ring. }
      rewrite (E x), (E y). apply Ropp_le_contravar. apply Rmult_le_compat; try lra. apply pow_le; lra. apply pow_incr; lra.
Qed.
Lemma pow_even_neg x n : Nat.even n = true -> (- x) ^ n = x ^ n.
Proof.
  intros H. apply Nat.even_spec in H. destruct H as [m ->]. rewrite !pow_mult. replace ((- x) ^ 2) with (x ^ 2) by ring. auto.
Qed.
Lemma within_pow I v n : within I v -> within (ipow I n) (v ^ n).
Proof.
  unfold within, ipow. intros H. destruct (Nat.even n) eqn:E.
  - destruct (negb (fst I <? 0)%K) eqn:E1; [|destruct (negb (0 <? snd I)%K) eqn:E2]; cbn [fst snd].
    + apply negb_true_iff in E1. apply Rltb_false in E1. rewrite !kpow_pow. change (k0 : R) with 0 in E1. split; apply pow_incr; lra.
    + apply negb_true_iff in E2. apply Rltb_false in E2. rewrite !kpow_pow. change (k0 : R) with 0 in E2.
      rewrite <- (pow_even_neg v), <- (pow_even_neg (fst I)), <- (pow_even_neg (snd I)) by auto. split; apply pow_incr; lra.
    + apply negb_false_iff in E1, E2. apply Rltb_true in E1, E2. change (k0 : R) with 0 in *. rewrite (kpow_pow (fst I)), (kpow_pow (snd I)), kmax_Rmax.
      assert (A : 0 <= v ^ n). { apply Nat.even_spec in E. destruct E as [m ->]. rewrite pow_mult. apply pow_le. nra. }
      split; auto. destruct (Rle_dec 0 v).
      * eapply Rle_trans; [|apply Rmax_r]. apply pow_incr; lra.
      * eapply Rle_trans; [|apply Rmax_l]. rewrite <- (pow_even_neg v), <- (pow_even_neg (fst I)) by auto. apply pow_incr; lra.
  - cbn [fst snd]. rewrite !kpow_pow. split; apply pow_odd_le; auto; lra.
Qed.
Lemma within_abs I v : within I v -> within (iabs I) (Rabs v).
Proof.
  unfold within, iabs. intros H. destruct (negb (fst I <? 0)%K) eqn:E1; [|destruct (negb (0 <? snd I)%K) eqn:E2]; cbn [fst snd ineg].
  - apply negb_true_iff in E1. apply Rltb_false in E1. change (k0 : R) with 0 in E1. rewrite Rabs_pos_eq by lra. lra.
  - apply negb_true_iff in E2. apply Rltb_false in E2. change (k0 : R) with 0 in E2. cbn. rewrite Rabs_left1 by lra. lra.
  - apply negb_false_iff in E1, E2. apply Rltb_true in E1, E2. change (k0 : R) with 0 in *. rewrite kmax_Rmax. split; [apply Rabs_pos|].
    unfold Rabs. destruct (Rcase_abs v); [eapply Rle_trans; [|apply Rmax_l]|eapply Rle_trans; [|apply Rmax_r]]; cbn; lra.
Qed.
