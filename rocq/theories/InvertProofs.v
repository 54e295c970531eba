(** * Proofs about [invert_map] (proof file). *)
From Coq Require Import String List Arith Bool Lia ZArith Setoid Morphisms Ring Field FunctionalExtensionality DecimalString.
From Verif Require Import Ops Syms SymsFacts Poly PolyFacts Sem Den Gdual GdualFacts Functions FunStruct Spec CoefFacts CoreProofs
  CalcProofs ValueProofs MiscProofs Compose InvertMap SpecMaps MapProofs InvertSem.
Import ListNotations.

Lemma mapM_inv {A B} (f : A -> res B) l r : mapM f l = Ok r ->
  length r = length l /\ forall i d d', (i < length l)%nat -> f (nth i l d) = Ok (nth i r d').
Proof.
  revert r. induction l as [|x l IH]; intros r; cbn [mapM].
  - intros E. inversion E. split; auto. intros i d d' H. simpl in H. lia.
  - destruct (f x) as [y|] eqn:Ex; cbn [rbind]; [|discriminate]. destruct (mapM f l) as [q|]; cbn [rbind]; [|discriminate].
    intros E. inversion E; subst r. destruct (IH q eq_refl) as [L H]. split; [simpl; auto|].
    intros [|i] d d' Hi; simpl in *; auto. apply H. lia.
Qed.
Lemma mapM_ok {A B} (f : A -> res B) l : (forall x, In x l -> exists y, f x = Ok y) -> exists r, mapM f l = Ok r.
Proof.
  induction l as [|x l IH]; intros H; cbn [mapM]; [eauto|]. destruct (H x (or_introl eq_refl)) as [y ->].
  destruct IH as [r ->]; [intros; apply H; right; auto|]. cbn [rbind]. eauto.
Qed.
Lemma mapM_throw {A B} (f : A -> res B) l e : (forall x, In x l -> f x = Throw e) -> l <> [] -> mapM f l = Throw e.
Proof. destruct l as [|x l]; intros H N; [contradiction|]. cbn [mapM]. rewrite (H x (or_introl eq_refl)). reflexivity. Qed.
Lemma mapM_map {A B} (f : A -> res B) (g : A -> B) l : (forall x, In x l -> f x = Ok (g x)) -> mapM f l = Ok (map g l).
Proof.
  induction l as [|x l IH]; intros H; cbn [mapM map]; auto. rewrite (H x (or_introl eq_refl)). cbn [rbind].
  rewrite IH by (intros; apply H; right; auto). reflexivity.
Qed.

Definition pd_name (i : nat) : string := String.append "dpdummy" (to_string i).
(** For ten variables or less, the lexicographic order of the names is the
    numerical one. *)
Lemma pd_sorted n : (n <= 10)%nat -> fold_left (fun a j => sunion a [pd_name j]) (seq 0 n) [] = map pd_name (seq 0 n).
Proof. intros H. do 11 (destruct n as [|n]; [vm_compute; reflexivity|]). lia. Qed.
Lemma pd_NoDup n : (n <= 10)%nat -> NoDup (map pd_name (seq 0 n)).
Proof.
  intros H. rewrite <- pd_sorted by auto. apply ssorted_NoDup. apply fold_left_inv; [constructor|].
  intros a j Ha _. apply sunion_sorted. repeat constructor.
Qed.
Lemma pd_dp i j : (i < 10)%nat -> (j < 10)%nat -> pd_name i <> dp_name j.
Proof.
  intros Hi Hj. 
  assert (T : forallb (fun i => forallb (fun j => negb (String.eqb (pd_name i) (dp_name j))) (seq 0 10)) (seq 0 10) = true) by (vm_compute; reflexivity).
  rewrite forallb_forall in T. specialize (T i ltac:(apply in_seq; lia)). rewrite forallb_forall in T.
  specialize (T j ltac:(apply in_seq; lia)). apply negb_true_iff in T. apply String.eqb_neq in T. exact T.
Qed.

Section Invert.
  Context {K : Type} {o : Ops K} {fl : FieldLaws o}.
  Local Open Scope K_scope.
  Add Field KfieldIp : (fl_field (K:=K)).
  Notation idK := (fun x : K => x).
  Notation gd := (gden idK).
  Notation sp := (sp K).
  #[local] Hint Resolve (@valid_gwf K o) (@valid_gnz K o) : gwf.

  (** ** The pieces *)
  Lemma gvar_den (v : K) s n g : gvar v s n = Ok g -> n <> 0%nat ->
    valid g /\ gord g = n /\ gsyms g = [dsym s] /\ seqv None (gd g) (sadd (svar (dsym s)) (scon v)).
  Proof.
    intros E Hn. assert (G := gvar_spec v s n). rewrite E in G. destruct G as (_ & _ & Ho & _ & Hv).
    split; auto. split; [exact Ho|]. clear Hv Ho. revert E. unfold gvar.
    destruct (check_order n); simpl; [|discriminate]. destruct (check_var_name s); simpl; [|discriminate].
    destruct (Nat.eqb_spec n 0); [contradiction|]. simpl. intros E. inversion E. subst g. split; [reflexivity|].
    unfold gden. cbn [gp]. rewrite (den_padd idK), (den_pvar idK), (den_pconst idK) by auto with swf. reflexivity.
  Qed.
  Lemma extend_den l g r : valid g -> extend_symbol_set l g = Ok r ->
    valid r /\ gord r = gord g /\ gsyms r = sunion (gsyms g) (sset l) /\ seqv None (gd r) (gd g).
  Proof.
    intros Hg E. assert (S := extend_spec l g Hg). rewrite E in S. destruct S as (_ & Ho & Hv & _).
    split; auto. split; [exact Ho|]. clear Hv Ho. unfold extend_symbol_set in E. destruct (check_all_d l); simpl in E; [|discriminate].
    inversion E; subst r. split; [reflexivity|]. unfold gden. cbn [gp padd_symbols]. apply (den_pext idK).
    - apply valid_gwf in Hg. apply Hg.
    - apply ssorted_NoDup, sunion_sorted, sset_sorted.
    - apply sunion_incl1.
  Qed.
  Lemma check_all_dsym l : check_all_d (map dsym l) = Ok tt.
  Proof. induction l as [|s l IH]; simpl; auto. Qed.
  Lemma extend_ok l (g : gdual K) : exists r, extend_symbol_set (map dsym l) g = Ok r.
  Proof. unfold extend_symbol_set. rewrite check_all_dsym. cbn [rbind]. eauto. Qed.
  Lemma Lf_pfilter (P : nat -> bool) (g : gdual K) n F :
    Lf (gd (mkG (pfilter (fun t => P (kdeg (fst t))) (gp g)) n)) F = Lf (gd g) (fun d m => if P d then F d m else 0).
  Proof.
    unfold gden, den. cbn [gp pfilter pterms psyms]. induction (pterms (gp g)) as [|t l IH]; cbn [filter tden map]; auto.
    destruct (P (kdeg (fst t))) eqn:E; cbn [tden map]; rewrite !Lf_cons; cbn [fst snd]; rewrite E; unfold tden in IH; rewrite IH; ring.
  Qed.
  Lemma valid_pfilter f (g : gdual K) n : valid g -> (forall t, In t (pterms (gp g)) -> f t = true -> (kdeg (fst t) <= n)%nat) ->
    valid (mkG (pfilter f (gp g)) n).
  Proof.
    intros Hg H. apply valid_iff. split.
    - constructor; cbn [gp gord]; [apply pfilter_swf; apply valid_gwf in Hg; apply Hg|].
      unfold dle. cbn [pfilter pterms]. apply Forall_forall. intros t Ht. apply filter_In in Ht. apply H; tauto.
    - apply pfilter_nz. apply valid_gnz in Hg. exact Hg.
  Qed.
  Lemma extract_den g n r : valid g -> extract_terms g n = Ok r ->
    valid r /\ gord r = n /\ gsyms r = gsyms g /\
    (forall F, Lf (gd r) F = Lf (gd g) (fun d m => if Nat.eqb d n then F d m else 0)).
  Proof.
    intros Hg E. unfold extract_terms in E. destruct (Nat.ltb (gord g) n); [discriminate|]. inversion E; subst r.
    split; [|split; [reflexivity|split; [reflexivity|intros F; apply (Lf_pfilter (fun d => Nat.eqb d n))]]].
    apply valid_pfilter; auto. intros t _ H. apply Nat.eqb_eq in H. lia.
  Qed.
  Lemma sunion_nil_l a : ssorted a -> sunion [] a = a.
  Proof. intros H. apply ssorted_ext; [apply sunion_sorted; auto|auto|]. intros x. rewrite sunion_In. simpl. tauto. Qed.
  Lemma sset_self a : ssorted a -> sset a = a.
  Proof. intros H. apply ssorted_ext; auto using sset_sorted. intros x. apply sset_In. Qed.

  (** ** Decomposition of a polynomial *)
  Lemma kdeg1_mon1 V : forall k : key, length k = length V -> NoDup V -> kdeg k = 1%nat -> exists s, In s V /\ expo V k = mon1 s.
  Proof.
    induction V as [|v V IH]; intros [|e k] HL HN Hd; try discriminate. inversion HN; subst.
    change (kdeg (e :: k)) with (e + kdeg k)%nat in Hd. destruct e as [|e].
    - destruct (IH k) as (s & Hs & E); auto. exists s. split; [right; auto|]. extensionality t. cbn [expo].
      destruct (String.eqb_spec v t) as [->|N].
      + unfold mon1. destruct (String.eqb_spec s t); auto. subst. contradiction.
      + rewrite <- E. reflexivity.
    - exists v. split; [left; auto|]. assert (D : kdeg k = 0%nat) by lia. extensionality t. cbn [expo]. unfold mon1.
      destruct (String.eqb_spec v t); [lia|]. rewrite (kdeg_0_inv k D). apply expo_zero.
  Qed.
  Lemma same_mono_single V (k : key) s : NoDup V -> length k = length V -> same_mono V k [s] [1%nat] = true ->
    kdeg k = 1%nat /\ expo V k = mon1 s.
  Proof.
    intros HN HL H. rewrite same_mono_spec in H. split.
    - rewrite (kdeg_same V k [s] [1%nat]); auto. constructor; [tauto|constructor].
    - rewrite <- expo_single. extensionality t. destruct (in_dec string_dec t V); [apply H; auto|].
      destruct (string_dec t s) as [->|N]; [apply H; right; left; auto|].
      rewrite !expo_not_In; auto. simpl. intros [|[]]; auto.
  Qed.
  Lemma sum_single V (k : key) (c : K) F : NoDup V -> length k = length V ->
    sum_list (fun s => (if same_mono V k [s] [1%nat] then c else 0) * F 1%nat (mon1 s)) V
    = if Nat.eqb (kdeg k) 1 then c * F (kdeg k) (expo V k) else 0.
  Proof.
    intros HN HL. destruct (Nat.eqb_spec (kdeg k) 1) as [D|D].
    - destruct (kdeg1_mon1 V k HL HN D) as (s & Hs & E). rewrite E, D.
      assert (B : forall t, same_mono V k [t] [1%nat] = String.eqb s t).
      { intros t. apply eq_true_iff_eq. rewrite String.eqb_eq. split.
        - intros X. apply same_mono_single in X; auto. destruct X as [_ X]. rewrite E in X.
          assert (Y : mon1 s t = mon1 t t) by (rewrite X; reflexivity). unfold mon1 in Y. rewrite String.eqb_refl in Y.
          destruct (String.eqb_spec s t); auto. discriminate.
        - intros <-. apply same_mono_spec. intros t _. rewrite E, expo_single. reflexivity. }
      transitivity (sum_list (fun t => (if String.eqb s t then c else 0) * F 1%nat (mon1 t)) V).
      { apply sum_list_ext. intros t _. rewrite B. reflexivity. }
      clear - Hs HN fl. induction V as [|v V IH]; [destruct Hs|]. inversion HN; subst. cbn [sum_list fold_right].
      change (fold_right (fun x a => (if String.eqb s x then c else 0) * F 1%nat (mon1 x) + a) 0 V)
        with (sum_list (fun t => (if String.eqb s t then c else 0) * F 1%nat (mon1 t)) V).
      destruct (String.eqb_spec s v) as [->|N].
      + rewrite sum_list_zero; [ring|]. intros t Ht. destruct (String.eqb_spec v t); [subst; contradiction|ring].
      + destruct Hs as [->|Hs]; [contradiction|]. rewrite IH by auto. ring.
    - apply sum_list_zero. intros s _. destruct (same_mono V k [s] [1%nat]) eqn:E; [|ring].
      apply same_mono_single in E; auto. destruct E. contradiction.
  Qed.
  Lemma decompose g F : valid g ->
    Lf (gd g) F = constant_cf g * F 0%nat mon0
      + sum_list (fun s => coef g [s] [1%nat] * F 1%nat (mon1 s)) (gsyms g)
      + Lf (gd g) (fun d m => if Nat.leb 2 d then F d m else 0).
  Proof.
    intros Hg. rewrite (constant_cf_scc idK g) by auto with gwf. unfold scc, gsyms, coef, gden, den. rewrite !Lf_tden.
    assert (HN := ssorted_NoDup _ (valid_sorted g Hg)). assert (HL := valid_length g Hg).
    induction (pterms (gp g)) as [|t l IH]; cbn [fold_right].
    - rewrite sum_list_zero; [ring|]. intros; ring.
    - rewrite IH by (intros; apply HL; right; auto).
      transitivity (((snd t * Fconst (kdeg (fst t)) (expo (psyms (gp g)) (fst t))) * F 0%nat mon0
         + sum_list (fun s => (if same_mono (psyms (gp g)) (fst t) [s] [1%nat] then snd t else 0) * F 1%nat (mon1 s)) (psyms (gp g))
         + snd t * (if Nat.leb 2 (kdeg (fst t)) then F (kdeg (fst t)) (expo (psyms (gp g)) (fst t)) else 0))
         + (fold_right (fun t a => snd t * Fconst (kdeg (fst t)) (expo (psyms (gp g)) (fst t)) + a) 0 l * F 0%nat mon0
         + sum_list (fun s => fold_right (fun t a => (if same_mono (psyms (gp g)) (fst t) [s] [1%nat] then snd t else 0) + a) 0 l * F 1%nat (mon1 s)) (psyms (gp g))
         + fold_right (fun t a => snd t * (if Nat.leb 2 (kdeg (fst t)) then F (kdeg (fst t)) (expo (psyms (gp g)) (fst t)) else 0) + a) 0 l)).
      + f_equal. rewrite sum_single by (auto; apply HL; left; auto).
        assert (D0 : kdeg (fst t) = 0%nat -> expo (psyms (gp g)) (fst t) = mon0).
        { intros D. rewrite (kdeg_0_inv _ D). extensionality s. apply expo_zero. }
        destruct (kdeg (fst t)) as [|[|d]]; cbn [Fconst Nat.eqb Nat.leb].
        * rewrite D0 by auto. ring.
        * ring.
        * ring.
      + rewrite (sum_list_ext (fun s => ((if same_mono (psyms (gp g)) (fst t) [s] [1%nat] then snd t else 0) + _) * F 1%nat (mon1 s))
          (fun s => (if same_mono (psyms (gp g)) (fst t) [s] [1%nat] then snd t else 0) * F 1%nat (mon1 s)
             + fold_right (fun t a => (if same_mono (psyms (gp g)) (fst t) [s] [1%nat] then snd t else 0) + a) 0 l * F 1%nat (mon1 s))) by (intros; ring).
        rewrite sum_plus. ring.
  Qed.
  Lemma nonlinear_fold g : valid g -> forall l a0, valid a0 -> NoDup l -> (forall j, In j l -> (j <= gord g)%nat) -> exists r,
    fold_left (fun acc j => a <- acc;; t <- extract_terms g j;; Ok (gadd a t)) l (Ok a0) = Ok r /\
    valid r /\ gord r = fold_left Nat.max l (gord a0) /\ (forall s, In s (gsyms r) -> In s (gsyms a0) \/ In s (gsyms g)) /\
    forall F, Lf (gd r) F = Lf (gd a0) F + Lf (gd g) (fun d m => if existsb (Nat.eqb d) l then F d m else 0).
  Proof.
    intros Hg. induction l as [|j l IH]; intros a0 Ha HN Hl.
    - exists a0. cbn [fold_left existsb]. split; auto. split; auto. split; auto. split; auto. intros F.
      rewrite (Lf_zero (gd g)) by auto. ring.
    - inversion HN as [|? ? Hnj HN']; subst.
      assert (Ej : exists t, extract_terms g j = Ok t).
      { unfold extract_terms. destruct (Nat.ltb_spec (gord g) j); [|eauto]. specialize (Hl j (or_introl eq_refl)). lia. }
      destruct Ej as [t Et]. destruct (extract_den g j t Hg Et) as (Vt & Ot & St & Dt).
      destruct (IH (gadd a0 t)) as (r & Er & Vr & Or & Sr & Dr); auto; [apply valid_add; auto|intros; apply Hl; right; auto|].
      exists r. cbn [fold_left rbind]. rewrite Et. cbn [rbind]. split; [exact Er|]. split; auto. split.
      { rewrite Or. cbn [gadd gord]. rewrite Ot. reflexivity. }
      split.
      { intros s Hs. destruct (Sr s Hs) as [X|X]; auto. rewrite gsyms_add in X. apply sunion_In in X. rewrite St in X. tauto. }
      intros F. rewrite Dr. rewrite (seqv_elim (gden_add idK None a0 t ltac:(auto with gwf) ltac:(auto with gwf))) by (simpl; tauto).
      rewrite Lf_sadd, Dt. transitivity (Lf (gd a0) F + (Lf (gd g) (fun d m => if Nat.eqb d j then F d m else 0)
         + Lf (gd g) (fun d m => if existsb (Nat.eqb d) l then F d m else 0))); [ring|].
      f_equal. rewrite <- Lf_plus. apply Lf_ext_all. intros d m. cbn [existsb].
      destruct (Nat.eqb_spec d j) as [->|N]; cbn [orb]; [|ring].
      replace (existsb (Nat.eqb j) l) with false; [ring|]. symmetry. apply not_true_is_false. intros X.
      apply existsb_exists in X. destruct X as (x & Hx & E). apply Nat.eqb_eq in E. subst. contradiction.
  Qed.
  Lemma fold_max_seq m : forall a b, (b <= a)%nat -> fold_left Nat.max (seq a (S m)) b = (a + m)%nat.
  Proof.
    induction m as [|m IH]; intros a b H.
    - simpl. lia.
    - change (seq a (S (S m))) with (a :: seq (S a) (S m)). cbn [fold_left]. rewrite IH; lia.
  Qed.

  Lemma sum_cons {A} (f : A -> K) x l : sum_list f (x :: l) = f x + sum_list f l.
  Proof. reflexivity. Qed.

  (** ** Rows of the inverse of the linear part *)
  Lemma row_fold prefix order (c : nat -> K) : order <> 0%nat -> forall l a0 r, valid a0 ->
    fold_left (fun acc j => a <- acc;; d <- gvar 0 (String.append prefix (to_string j)) order;; Ok (gadd a (gmul_gs d (c j)))) l (Ok a0) = Ok r ->
    valid r /\ (gord r = fold_left (fun x _ => Nat.max x order) l (gord a0)) /\
    gsyms r = fold_left (fun a j => sunion a [dsym (String.append prefix (to_string j))]) l (gsyms a0) /\
    forall F, Lf (gd r) F = Lf (gd a0) F + sum_list (fun j => c j * F 1%nat (mon1 (dsym (String.append prefix (to_string j))))) l.
  Proof.
    intros Ho. induction l as [|j l IH]; intros a0 r Ha E.
    - cbn [fold_left] in E. inversion E; subst. split; auto. split; auto. split; auto. intros F. cbn [sum_list fold_right]. ring.
    - cbn [fold_left rbind] in E. destruct (gvar 0 (String.append prefix (to_string j)) order) as [d|] eqn:Ed; cbn [rbind] in E.
      + destruct (gvar_den 0 _ _ d Ed Ho) as (Vd & Od & Sd & Dd).
        assert (Vm : valid (gmul_gs d (c j))).
        { apply valid_iff. split; [auto with gwf|]. apply gmul_nz. }
        apply IH in E; [|apply valid_add; auto]. destruct E as (Vr & Or & Sr & Dr). split; auto. split; [|split].
        * rewrite Or. cbn [fold_left gadd gord]. rewrite gmul_gs_ord, Od. reflexivity.
        * rewrite Sr. cbn [fold_left]. rewrite gsyms_add, gsyms_gmul_gs by auto with gwf. rewrite Sd. reflexivity.
        * intros F. rewrite Dr. rewrite (seqv_elim (gden_add idK None a0 (gmul_gs d (c j)) ltac:(auto with gwf) ltac:(auto with gwf))) by (simpl; tauto).
          rewrite Lf_sadd. rewrite (seqv_elim (gden_mul_gs idK None (c j) d ltac:(auto with gwf))) by (simpl; tauto).
          rewrite Lf_smul_scon. rewrite (seqv_elim Dd) by (simpl; tauto). rewrite Lf_sadd, Lf_scon. unfold svar. rewrite Lf_cons, Lf_nil.
          cbn [fst snd]. rewrite sum_cons. ring.
      + exfalso. clear - E. induction l; cbn [fold_left rbind] in E; [discriminate|auto].
  Qed.
  Lemma row_fold_ok prefix order (c : nat -> K) : (forall j, exists d, gvar (K:=K) 0 (String.append prefix (to_string j)) order = Ok d) -> forall l a0,
    exists r, fold_left (fun acc j => a <- acc;; d <- gvar 0 (String.append prefix (to_string j)) order;; Ok (gadd a (gmul_gs d (c j)))) l (Ok a0) = Ok r.
  Proof.
    intros H. induction l as [|j l IH]; intros a0; cbn [fold_left]; [eauto|]. destruct (H j) as [d E]. cbn [rbind]. rewrite E. cbn [rbind]. apply IH.
  Qed.
  Lemma fold_max_const order (l : list nat) : l <> [] -> fold_left (fun x _ => Nat.max x order) l 0%nat = order.
  Proof.
    intros H. destruct l as [|x l]; [contradiction|]. cbn [fold_left]. rewrite Nat.max_0_l. clear.
    induction l as [|y l IH]; cbn [fold_left]; auto. rewrite Nat.max_id. exact IH.
  Qed.
  Lemma fold_sunion_In (nm : nat -> string) l : forall a s, In s (fold_left (fun a j => sunion a [nm j]) l a) <-> In s a \/ In s (map nm l).
  Proof.
    induction l as [|j l IH]; intros a s; cbn [fold_left map]; [simpl; tauto|]. rewrite IH, sunion_In. simpl. tauto.
  Qed.

  Record mrow (prefix : string) (n order : nat) (c : nat -> K) (r : gdual K) : Prop := {
    mr_valid : valid r;
    mr_ord : gord r = order;
    mr_syms : gsyms r = fold_left (fun a j => sunion a [dsym (String.append prefix (to_string j))]) (seq 0 n) [];
    mr_den : seqv None (gd r) (lin c (fun j => svar (dsym (String.append prefix (to_string j)))) n)
  }.
  Lemma minv_rows prefix n order invm r : n <> 0%nat -> order <> 0%nat -> inv_minv prefix n order invm = Ok r ->
    length r = n /\ forall i, (i < n)%nat -> mrow prefix n order (ent invm i) (at_map r i).
  Proof.
    intros Hn Ho E. apply mapM_inv in E. destruct E as [L H]. rewrite seq_length in *. split; auto.
    intros i Hi. specialize (H i 0%nat gdefault Hi). rewrite seq_nth in H by auto. cbn [Nat.add] in H. fold (at_map r i) in H.
    apply row_fold in H; auto; [|apply valid_const]. destruct H as (V & O & S & D). constructor; auto.
    - rewrite O. apply fold_max_const. destruct n; [contradiction|discriminate].
    - constructor. intros F _. rewrite D. rewrite (seqv_elim (gden_const idK None 0)) by (simpl; tauto). rewrite Lf_scon, Lf_lin.
      transitivity (sum_list (fun j => ent invm i j * F 1%nat (mon1 (dsym (prefix ++ to_string j)))) (seq 0 n)); [ring|].
      apply sum_list_ext. intros j _. unfold svar. rewrite Lf_cons, Lf_nil. cbn [fst snd]. ring.
  Qed.

  (** ** The identity map *)
  Lemma identity_rows n order r : order <> 0%nat -> inv_identity n order = Ok r ->
    length r = n /\ forall i, (i < n)%nat -> valid (at_map r i) /\ gord (at_map r i) = order /\
      incl (gsyms (at_map r i)) (map dp_name (seq 0 n)) /\ seqv None (gd (at_map r i)) (svar (dp_name i)).
  Proof.
    intros Ho E. apply mapM_inv in E. destruct E as [L H]. rewrite seq_length in *. split; auto.
    intros i Hi. specialize (H i 0%nat gdefault Hi). rewrite seq_nth in H by auto. cbn [Nat.add] in H. fold (at_map r i) in H.
    destruct (gvar 0 (String.append "p" (to_string i)) order) as [g|] eqn:Eg; cbn [rbind] in H; [|discriminate].
    destruct (gvar_den 0 _ _ g Eg Ho) as (Vg & Og & Sg & Dg). apply extend_den in H; auto. destruct H as (Vr & Or & Sr & Dr).
    split; auto. split; [congruence|]. split.
    - rewrite Sr, Sg. intros s Hs. apply sunion_In in Hs. rewrite sset_In in Hs. destruct Hs as [[<-|[]]|Hs]; auto.
      apply in_map_iff. exists i. split; auto. apply in_seq. lia.
    - rewrite Dr, Dg. change (dsym (String.append "p" (to_string i))) with (dp_name i).
      constructor. intros F _. rewrite Lf_sadd, Lf_scon. ring.
  Qed.
End Invert.
