(** * Proofs for C20 and C23-C26 (proof file) *)

From Coq Require Import String Ascii List Arith Bool Lia ZArith Sorting.Sorted Setoid Morphisms Ring Field.
From Verif Require Import Ops Syms SymsFacts Poly PolyFacts Sem Den Gdual GdualFacts Functions FunStruct Spec CoefFacts CoreProofs CalcProofs ValueProofs.
Import ListNotations.

Section Requests.
  Context {K : Type} {o : Ops K}.
  Local Open Scope K_scope.
  #[local] Hint Resolve (@valid_gwf K o) (@valid_gnz K o) : gwf.

  Lemma stored_own (g : gdual K) k : gwf g -> length k = length (psyms (gp g)) ->
    stored g (psyms (gp g)) k = pfind k (gp g).
  Proof.
    intros [[Hs Hl _] _] Hk. apply ssorted_NoDup in Hs. unfold stored, pfind. unfold klen in Hl.
    induction (pterms (gp g)) as [|[kt c] ts IH]; cbn [find tfind]; auto. inversion Hl; subst.
    replace (same_mono (psyms (gp g)) (fst (kt, c)) (psyms (gp g)) k) with (key_eqb kt k).
    - destruct (key_eqb kt k); auto.
    - apply eq_true_iff_eq. rewrite key_eqb_spec, same_mono_spec. cbn [fst]. split; [intros ->; auto|].
      intros H. apply (expo_inj (psyms (gp g))); auto.
  Qed.

  (** C20 *)
  Lemma find_cf_spec (g : gdual K) c : valid g -> (Z.of_nat (list_sum c) < 4294967296)%Z ->
    find_cf g c =
    if Nat.ltb (get_order g) (list_sum c) || negb (Nat.eqb (length c) (length (psyms (gp g))))
    then Throw InvalidArgument
    else Ok (match stored g (psyms (gp g)) c with Some v => v | None => 0 end).
  Proof.
    intros Hg Hc. unfold find_cf, get_order. rewrite list_sum_kdeg in *. rewrite Z.mod_small by (unfold two32; lia).
    unfold get_symbol_set_size.
    rewrite (list_sum_kdeg c). destruct (Z.ltb_spec (Z.of_nat (gord g)) (Z.of_nat (kdeg c))); destruct (Nat.ltb_spec (gord g) (kdeg c)); try lia; auto.
    cbn [orb]. destruct (Nat.eqb_spec (length c) (length (psyms (gp g)))); cbn [negb]; auto.
    rewrite stored_own by auto with gwf. destruct (pfind c (gp g)); auto.
  Qed.
  Lemma constant_cf_never_throws (g : gdual K) :
    find_cf g (repeat 0%nat (get_symbol_set_size g)) = Ok (constant_cf g).
  Proof.
    unfold constant_cf, find_cf. rewrite kdeg_zero. change (Z.of_nat 0 mod two32)%Z with 0%Z.
    destruct (Z.ltb_spec (Z.of_nat (gord g)) 0); [lia|]. rewrite repeat_length, Nat.eqb_refl. cbn [negb].
    destruct (pfind _ _); auto.
  Qed.
  Lemma get_derivative_spec (g : gdual K) c :
    ((forall e, In e c -> (Z.of_nat e <= 170)%Z) -> get_derivative g c =
    match find_cf g c with Ok v => Ok (v * fold_left (fun a e => a * kfact e) c 1) | Throw x => Throw x end) /\
    ((exists e, In e c /\ (170 < Z.of_nat e)%Z) -> get_derivative g c = Throw OtherException).
  Proof.
    unfold get_derivative. split; intros H.
    - rewrite factorials_fit by exact H. destruct (find_cf g c); reflexivity.
    - destruct H as (e & He & X). replace (existsb factorial_overflows c) with true; auto. symmetry. apply existsb_exists.
      exists e. split; auto. apply Z.ltb_lt. exact X.
  Qed.

  Lemma index_of_spec s l : index_of s l = length l <-> ~ In s l.
  Proof.
    induction l as [|x l IH]; simpl; [tauto|]. destruct (String.eqb_spec x s).
    - subst. split; [discriminate|tauto].
    - split.
      + intros H. assert (E : index_of s l = length l) by congruence. rewrite IH in E. tauto.
      + intros H. f_equal. apply IH. tauto.
  Qed.
  Definition dict_get (dict : list (string * nat)) (s : string) : nat :=
    match dfind s dict with Some e => e | None => 0%nat end.
  Lemma set_nth_length n v (l : key) : length (set_nth n v l) = length l.
  Proof. revert n. induction l as [|x l IH]; intros [|n]; simpl; auto. Qed.
  Lemma expo_set_nth ss k s v t : NoDup ss -> length k = length ss -> In s ss ->
    expo ss (set_nth (index_of s ss) v k) t = if String.eqb s t then v else expo ss k t.
  Proof.
    intros HN. revert k. induction HN as [|x ss Hx HN IH]; intros k Hk HS; [destruct HS|].
    destruct k as [|y k]; [discriminate|]. simpl in Hk. cbn [index_of]. destruct (String.eqb_spec x s).
    - subst. cbn [set_nth expo]. destruct (String.eqb s t); auto.
    - cbn [set_nth expo]. destruct HS as [->|HS]; [congruence|]. rewrite IH by auto.
      destruct (String.eqb_spec x t); auto. subst t. destruct (String.eqb_spec s x); auto. congruence.
  Qed.
  Lemma dict_coeff_spec ss dict : NoDup ss -> NoDup (map fst dict) -> (forall s, In s (map fst dict) -> In s ss) ->
    forall k, length k = length ss -> (forall s, In s (map fst dict) -> expo ss k s = 0%nat) ->
    exists k', dict_coeff ss dict k = Some k' /\ length k' = length ss /\
      forall t, expo ss k' t = (expo ss k t + dict_get dict t)%nat.
  Proof.
    intros HN. induction dict as [|[s e] d IH]; intros HD HI k Hk H0; cbn [dict_coeff].
    - exists k. split; [auto|split; [auto|]]. intros t. unfold dict_get; simpl. lia.
    - inversion HD as [|? ? Hs HD']; subst. cbn [map fst] in *.
      assert (HS : In s ss) by (apply HI; left; auto).
      destruct (Nat.eqb_spec (index_of s ss) (length ss)) as [E|E]; [apply index_of_spec in E; contradiction|].
      destruct (IH HD') with (k := set_nth (index_of s ss) e k) as (k' & E1 & E2 & E3).
      + intros t Ht. apply HI. right; auto.
      + rewrite set_nth_length; auto.
      + intros t Ht. rewrite expo_set_nth by auto. destruct (String.eqb_spec s t); [subst; contradiction|].
        apply H0. right; auto.
      + exists k'. conjs; auto. intros t. rewrite E3, expo_set_nth by auto. unfold dict_get at 2. cbn [dfind].
        destruct (String.eqb_spec s t).
        * subst t. unfold dict_get. assert (N : dfind s d = None).
          { clear - Hs. induction d as [|[x y] d IH]; simpl in *; auto. destruct (String.eqb_spec x s); [subst; tauto|]. apply IH. tauto. }
          rewrite N. rewrite (H0 s) by (left; auto). lia.
        * reflexivity.
  Qed.
  Lemma dict_coeff_none ss dict : (exists s, In s (map fst dict) /\ ~ In s ss) -> forall k, dict_coeff ss dict k = None.
  Proof.
    intros (s & Hi & Hn). induction dict as [|[x e] d IH]; intros k; [destruct Hi|]. cbn [dict_coeff].
    destruct (Nat.eqb_spec (index_of x ss) (length ss)) as [E|E]; auto. apply IH. destruct Hi as [Hi|Hi]; auto.
    simpl in Hi. subst. exfalso. apply E. apply index_of_spec. auto.
  Qed.
  Lemma derivative_dict (g : gdual K) dict : valid g -> NoDup (map fst dict) ->
    get_derivative_dict g dict =
    if forallb (fun se => str_in (fst se) (psyms (gp g))) dict
    then get_derivative g (map (fun s => match dfind s dict with Some e => e | None => 0%nat end) (psyms (gp g)))
    else Ok 0.
  Proof.
    intros Hg HD. assert (HN : NoDup (psyms (gp g))) by (apply ssorted_NoDup, gsyms_sorted; auto with gwf).
    unfold get_derivative_dict.
    destruct (forallb (fun se => str_in (fst se) (psyms (gp g))) dict) eqn:E.
    - rewrite forallb_forall in E.
      destruct (dict_coeff_spec (psyms (gp g)) dict) with (k := repeat 0%nat (length (psyms (gp g)))) as (k' & E1 & E2 & E3); auto.
      + intros s Hs. apply in_map_iff in Hs. destruct Hs as (se & <- & Hs). apply str_in_spec, E. auto.
      + apply repeat_length.
      + intros. apply expo_zero.
      + rewrite E1. f_equal. rewrite <- (map_expo_id (psyms (gp g)) k') by auto. apply map_ext. intros t.
        rewrite E3, expo_zero. reflexivity.
    - rewrite dict_coeff_none; auto. apply Bool.not_true_iff_false in E. rewrite forallb_forall in E.
      destruct (existsb (fun se => negb (str_in (fst se) (psyms (gp g)))) dict) eqn:X.
      + apply existsb_exists in X. destruct X as (se & Hs & X). exists (fst se). split; [apply in_map; auto|].
        intros Hi. apply str_in_spec in Hi. rewrite Hi in X. discriminate.
      + exfalso. apply E. intros se Hs. destruct (str_in (fst se) (psyms (gp g))) eqn:Y; auto.
        apply Bool.not_true_iff_false in X. exfalso. apply X. apply existsb_exists. exists se. rewrite Y. auto.
  Qed.

  (** C24 *)
  Lemma stored_filter (g : gdual K) n (f : term K -> bool) W k : valid g ->
    NoDup W -> length k = length W ->
    stored (mkG (pfilter f (gp g)) n) W k =
    match find (fun t => same_mono (psyms (gp g)) (fst t) W k) (pterms (gp g)) with
    | Some t => if f t then Some (snd t) else None
    | None => None
    end.
  Proof.
    intros Hg HW Hk. destruct Hg as [Hs Hl Hd _ _]. apply ssorted_NoDup in Hs. unfold stored.
    cbn [gp pfilter psyms pterms].
    induction (pterms (gp g)) as [|t l IH]; auto. inversion Hd as [|? ? Ht Hd']; subst.
    cbn [find filter]. destruct (same_mono (psyms (gp g)) (fst t) W k) eqn:E.
    - destruct (f t); cbn [find]; [rewrite E; auto|].
      assert (N : find (fun t => same_mono (psyms (gp g)) (fst t) W k) (filter f l) = None).
      { destruct (find (fun t => same_mono (psyms (gp g)) (fst t) W k) (filter f l)) as [t'|] eqn:F; auto. exfalso. apply find_some in F. destruct F as [F1 F2].
        apply filter_In in F1. destruct F1 as [F1 _]. apply Ht. apply in_map_iff. exists t'. split; auto.
        rewrite same_mono_spec in E, F2.
        apply (expo_inj (psyms (gp g))); auto; [apply Hl; right; auto|apply Hl; left; auto|].
        intros s Hsx. rewrite E, F2 by auto. reflexivity. }
      rewrite N. reflexivity.
    - destruct (f t); cbn [find]; rewrite ?E; apply IH; auto; intros; apply Hl; right; auto.
  Qed.
  Lemma trim_spec (g : gdual K) eps W k : valid g -> NoDup W -> length k = length W ->
    match gtrim g eps with
    | Ok r => kltb eps 0 = false /\ valid r /\
              stored r W k = match stored g W k with
                             | Some c => if kltb (kabs c) eps then None else Some c
                             | None => None
                             end
    | Throw x => kltb eps 0 = true /\ x = InvalidArgument
    end.
  Proof.
    intros Hg HW Hk. unfold gtrim. destruct (kltb eps 0) eqn:E; auto. split; auto. split.
    - apply valid_iff. split.
      + apply (gtrim_gwf g eps); auto with gwf. unfold gtrim. rewrite E. reflexivity.
      + apply pfilter_nz. apply (valid_gnz g Hg).
    - rewrite stored_filter by auto. unfold stored. destruct (find _ _) as [t|]; auto.
      destruct (kltb (kabs (snd t)) eps); auto.
  Qed.
  Lemma trim_idem (g r : gdual K) eps : gtrim g eps = Ok r -> gtrim r eps = Ok r.
  Proof.
    unfold gtrim. destruct (kltb eps 0); [discriminate|]. intros E. inversion E as [E']. subst r. cbn [gp gord].
    do 2 f_equal. unfold pfilter. cbn [psyms pterms]. f_equal.
    induction (pterms (gp g)) as [|t l IH]; auto. cbn [filter]. destruct (negb (kltb (kabs (snd t)) eps)) eqn:F; auto.
    cbn [filter]. rewrite F, IH. reflexivity.
  Qed.
  Lemma extract_spec (g : gdual K) n W k : valid g -> NoDup W -> length k = length W ->
    match extract_terms g n with
    | Ok r => n <= get_order g /\ get_order r = n /\ valid r /\
              stored r W k = if Nat.eqb (list_sum k) n then stored g W k else None
    | Throw x => get_order g < n /\ x = InvalidArgument
    end.
  Proof.
    intros Hg HW Hk. unfold extract_terms, get_order. destruct (Nat.ltb_spec (gord g) n) as [E|E]; auto. split; auto. split; auto.
    split.
    - apply valid_iff. split.
      + apply (extract_terms_gwf g n); auto with gwf. unfold extract_terms. destruct (Nat.ltb_spec (gord g) n); [lia|]. reflexivity.
      + apply pfilter_nz. apply (valid_gnz g Hg).
    - rewrite stored_filter by auto. unfold stored. destruct (find _ _) as [t|] eqn:F.
      + apply find_some in F. destruct F as [F1 F2]. destruct Hg as [Hs Hl _ _ _].
        replace (kdeg (fst t)) with (list_sum k); auto. rewrite list_sum_kdeg. symmetry.
        apply (kdeg_same (psyms (gp g)) (fst t) W k); auto.
        * apply ssorted_NoDup. exact Hs.
        * rewrite same_mono_spec in F2. exact F2.
      + destruct (Nat.eqb _ _); auto.
  Qed.
  Lemma is_zero_spec (g : gdual K) tol : valid g ->
    (gis_zero g tol = true <->
     forall W k c, NoDup W -> length k = length W -> stored g W k = Some c -> kltb tol (kabs c) = false).
  Proof.
    intros Hg. unfold gis_zero. rewrite forallb_forall. split.
    - intros H W k c HW Hk E. unfold stored in E. destruct (find _ _) as [t|] eqn:F; [|discriminate].
      apply find_some in F. inversion E; subst. specialize (H t (proj1 F)). apply negb_true_iff in H. exact H.
    - intros H t Ht. apply negb_true_iff. apply (H (psyms (gp g)) (fst t)).
      + apply ssorted_NoDup, (valid_sorted g Hg).
      + apply (valid_length g Hg). auto.
      + rewrite stored_own; auto with gwf; [|apply (valid_length g Hg); auto].
        apply tfind_Some; [apply (valid_distinct g Hg)|]. destruct t; auto.
  Qed.

  (** C26 *)
  Lemma gvar_spec (v : K) s n :
    match gvar v s n with
    | Ok g => (Z.of_nat n < 4294967285)%Z /\ (exists c r, s = String c r /\ c <> "d"%char) /\
              get_order g = n /\ get_symbol_set g = [s] /\ valid g
    | Throw InvalidArgument => (4294967285 <= Z.of_nat n)%Z \/ exists r, s = String "d" r
    | Throw OutOfRange => s = EmptyString
    | Throw _ => False
    end.
  Proof.
    destruct (gvar v s n) as [g|x] eqn:E.
    - assert (V : valid g).
      { apply valid_iff. split; [apply (gvar_gwf v s n g E)|]. revert E. unfold gvar.
        destruct (check_order n); simpl; [|discriminate]. destruct (check_var_name s); simpl; [|discriminate].
        destruct (Nat.eqb n 0).
        - unfold extend_symbol_set. simpl. intros E. inversion E. apply padd_nz. constructor.
        - simpl. intros E. inversion E. apply padd_nz. apply pvar_nz. }
      revert E. unfold gvar, check_order, two32. destruct (Z.leb_spec (4294967296 - 1 - 10) (Z.of_nat n)); cbn [rbind]; [discriminate|].
      unfold check_var_name. destruct s as [|c r]; [discriminate|]. destruct (Ascii.eqb_spec c "d"); cbn [rbind]; [discriminate|].
      intros E. split; [lia|]. split; [eauto|]. destruct (Nat.eqb_spec n 0).
      + unfold extend_symbol_set in E. simpl in E. inversion E. subst g n. conjs; auto.
      + simpl in E. inversion E. subst g. conjs; auto.
    - unfold gvar, check_order, two32 in E. destruct (Z.leb_spec (4294967296 - 1 - 10) (Z.of_nat n)); cbn [rbind] in E.
      + inversion E. left. lia.
      + unfold check_var_name in E. destruct s as [|c r]; [inversion E; auto|].
        destruct (Ascii.eqb_spec c "d"); cbn [rbind] in E; [inversion E; right; subst; eauto|].
        destruct (Nat.eqb n 0); simpl in E; discriminate.
  Qed.
  Lemma extend_spec l (g : gdual K) : valid g ->
    match extend_symbol_set l g with
    | Ok r => (forall s, In s l -> exists x, s = String "d" x) /\ get_order r = get_order g /\ valid r /\
              (forall s, In s (psyms (gp r)) <-> In s (psyms (gp g)) \/ In s l) /\
              (forall W k, NoDup W -> length k = length W -> stored r W k = stored g W k)
    | Throw InvalidArgument => exists c x, In (String c x) l /\ c <> "d"%char
    | Throw OutOfRange => In EmptyString l
    | Throw _ => False
    end.
  Proof.
    intros Hg. unfold extend_symbol_set.
    assert (C : match check_all_d l with
                | Ok _ => forall s, In s l -> exists x, s = String "d" x
                | Throw InvalidArgument => exists c x, In (String c x) l /\ c <> "d"%char
                | Throw OutOfRange => In EmptyString l
                | Throw _ => False
                end).
    { induction l as [|s l IH]; cbn [check_all_d]; [intros s []|].
      destruct s as [|c x]; cbn [check_var_name_has_d rbind]; [left; auto|].
      destruct (Ascii.eqb_spec c "d"); cbn [rbind].
      - subst. destruct (check_all_d l) as [u|[]]; auto.
        + intros s [<-|Hs]; eauto.
        + destruct IH as (c & y & Hi & Hc). exists c, y. split; auto. right; auto.
        + right; auto.
      - exists c, x. split; auto. left; auto. }
    destruct (check_all_d l) as [u|[]] eqn:E; cbn [rbind]; auto. split; auto. split; auto.
    assert (V : valid (mkG (padd_symbols l (gp g)) (gord g))).
    { apply valid_iff. split.
      - apply (extend_gwf l g); auto with gwf. unfold extend_symbol_set. rewrite E. reflexivity.
      - apply pext_nz. apply (valid_gnz g Hg). }
    assert (SW : ssorted (sunion (psyms (gp g)) (sset l))) by apply sunion_sorted, sset_sorted.
    split; [exact V|]. split.
    - intros s. cbn [gp padd_symbols pext psyms]. rewrite sunion_In, sset_In. tauto.
    - intros W k HW Hk.
      rewrite (stored_tfind g W k (sunion (psyms (gp g)) (sset l))); auto with gwf.
      + rewrite (stored_tfind _ W k (sunion (psyms (gp g)) (sset l))); auto with gwf.
        * destruct (fits _ _ _); auto. f_equal. unfold padd_symbols. cbn [gp pext psyms pterms]. rewrite map_map. apply map_ext.
          intros t. cbn [fst snd]. f_equal. apply rekey_same; [apply ssorted_NoDup; auto|apply rekey_length].
        * apply ssorted_NoDup; auto.
        * apply incl_refl.
      + apply ssorted_NoDup; auto.
  Qed.
End Requests.

Section Laws.
  Context {K : Type} {o : Ops K} {fl : FieldLaws o}.
  Local Open Scope K_scope.
  Add Field Kfield : (fl_field (K:=K)).
  #[local] Hint Resolve (@valid_gwf K o) (@valid_gnz K o) : gwf.
  Notation idK := (fun x : K => x).
  Notation gd := (gden idK).

  Lemma gvar_value (v : K) s n g rho : gvar v s n = Ok g ->
    value g rho = if Nat.eqb n 0 then v else v + rho (dsym s).
  Proof.
    intros E. assert (G := gvar_spec v s n). rewrite E in G. destruct G as (_ & _ & Ho & Hs & Hv).
    assert (Hsy : gsyms g = [dsym s]).
    { revert E. unfold gvar. destruct (check_order n); simpl; [|discriminate]. destruct (check_var_name s); simpl; [|discriminate].
      destruct (Nat.eqb n 0); unfold extend_symbol_set; simpl; intros E; inversion E; reflexivity. }
    assert (HN : NoDup [dsym s]) by (constructor; [tauto|constructor]).
    rewrite (value_Lf g [dsym s]); auto with gwf; [|rewrite Hsy; apply incl_refl].
    clear Hv. revert E. unfold gvar. destruct (check_order n); simpl; [|discriminate]. destruct (check_var_name s); simpl; [|discriminate].
    destruct (Nat.eqb n 0); unfold extend_symbol_set; simpl.
    - intros E. inversion E. subst g. unfold gden. cbn [gp].
      destruct (den_padd idK None (padd_symbols [dsym s] pzero) (pconst v)) as [L]; [apply padd_symbols_swf; auto with swf|auto with swf|].
      rewrite L by (intros d m []; exact I). rewrite Lf_sadd.
      destruct (den_pconst idK None v) as [L2]. rewrite L2 by (intros d m []; exact I). rewrite Lf_ev_con.
      cbn. ring.
    - intros E. inversion E. subst g. unfold gden. cbn [gp].
      destruct (den_padd idK None (pvar (dsym s)) (pconst v)) as [L]; auto with swf.
      rewrite L by (intros d m []; exact I). rewrite Lf_sadd.
      destruct (den_pconst idK None v) as [L2]. rewrite L2 by (intros d m []; exact I). rewrite Lf_ev_con.
      destruct (den_pvar idK None (dsym s)) as [L3]. rewrite L3 by (intros d m []; exact I).
      unfold svar, Lf, evF. cbn [fold_right fst snd mval mon1]. unfold mon1. rewrite String.eqb_refl. simpl. ring.
  Qed.

  (** C23 *)
  Definition look (dict : list (string * K)) (s : string) : K := match dfind s dict with Some v => v | None => 0 end.
  Lemma mono_at_ext V k (r r' : string -> K) : (forall s, In s V -> r s = r' s) -> mono_at V k r = mono_at V k r'.
  Proof.
    intros H. unfold mono_at. generalize (expo V k) as m. intros m. induction V as [|v V IH]; simpl; auto.
    rewrite IH by (intros; apply H; right; auto). rewrite (H v) by (left; auto). reflexivity.
  Qed.
  Lemma value_ext g (r r' : string -> K) : (forall s, In s (psyms (gp g)) -> r s = r' s) -> value g r = value g r'.
  Proof.
    intros H. unfold value. apply sum_list_ext. intros t _. rewrite (mono_at_ext _ _ r r'); auto.
  Qed.
  Lemma evaluate_spec g dict : valid g ->
    match gevaluate g dict with
    | Ok v => (forall s, In s (psyms (gp g)) -> exists x, dfind s dict = Some x) /\
              forall rho, (forall s x, dfind s dict = Some x -> rho s = x) -> v = value g rho
    | Throw e => e = InvalidArgument /\ exists s, In s (psyms (gp g)) /\ dfind s dict = None
    end.
  Proof.
    intros Hg. unfold gevaluate.
    destruct (forallb (fun s => match dfind s dict with Some _ => true | None => false end) (psyms (gp g))) eqn:E.
    - rewrite forallb_forall in E. assert (A : forall s, In s (psyms (gp g)) -> exists x, dfind s dict = Some x).
      { intros s Hs. specialize (E s Hs). destruct (dfind s dict); eauto; discriminate. }
      split; auto. intros rho H. rewrite <- value_peval by auto with gwf. apply value_ext. intros s Hs.
      destruct (A s Hs) as [x Ex]. rewrite Ex. symmetry. auto.
    - split; auto. clear Hg. induction (psyms (gp g)) as [|s l IH]; [discriminate|]. cbn [forallb] in E.
      destruct (dfind s dict) eqn:Ed; [|exists s; split; auto; left; auto].
      destruct (IH E) as (t & Ht & Hn). exists t. split; auto. right; auto.
  Qed.

  (** C24: the extracted terms add up *)
  Lemma extract_sum g n : valid g -> (n <= gord g)%nat ->
    exists s, valid s /\ (forall W k, NoDup W -> length k = length W ->
      coef s W k = if Nat.leb (list_sum k) n then coef g W k else 0) /\
    fold_left (fun acc k => match acc, extract_terms g k with
                            | Ok a, Ok t => Ok (gadd a t) | Throw x, _ => Throw x | _, Throw x => Throw x end)
              (seq 0 (S n)) (Ok (gconst 0)) = Ok s.
  Proof.
    intros Hg. induction n as [|n IH]; intros Hn.
    - cbn [seq fold_left]. assert (X : extract_terms g 0 = Ok (mkG (pfilter (fun t => Nat.eqb (kdeg (fst t)) 0) (gp g)) 0)) by reflexivity.
      rewrite X. eexists. split; [|split; [|reflexivity]].
      + apply valid_add; [apply valid_const|]. assert (T := extract_spec g 0 [] [] Hg (NoDup_nil _) eq_refl). rewrite X in T. apply T.
      + intros W k HW Hk. assert (T := extract_spec g 0 [] [] Hg (NoDup_nil _) eq_refl). rewrite X in T. destruct T as (_ & _ & V & _).
        rewrite coef_add by (auto with gwf). rewrite (coef_filter g 0 W k _ (fun d => Nat.eqb d 0)) by auto with gwf.
        assert (LS := list_sum_kdeg k). set (dk := list_sum k) in *. rewrite <- LS.
        replace (coef (gconst 0) W k) with 0.
        * destruct (Nat.eqb_spec dk 0); destruct (Nat.leb_spec dk 0); try lia; ring.
        * unfold coef. cbn. destruct (keqb 0 0) eqn:Z; auto. rewrite keqb_refl in Z. discriminate.
    - destruct IH as (s & Vs & Cs & Es); [lia|]. rewrite seq_S, fold_left_app, Es. cbn [fold_left Nat.add].
      assert (X : extract_terms g (S n) = Ok (mkG (pfilter (fun t => Nat.eqb (kdeg (fst t)) (S n)) (gp g)) (S n))).
      { unfold extract_terms. destruct (Nat.ltb_spec (gord g) (S n)); [lia|reflexivity]. }
      assert (T := extract_spec g (S n) [] [] Hg (NoDup_nil _) eq_refl). rewrite X in *. destruct T as (_ & _ & V & _).
      eexists. split; [|split; [|reflexivity]].
      + apply valid_add; auto.
      + intros W k HW Hk. rewrite coef_add, Cs by (auto with gwf). rewrite (coef_filter g (S n) W k _ (fun d => Nat.eqb d (S n))) by auto with gwf.
        assert (LS := list_sum_kdeg k). set (dk := list_sum k) in *. rewrite <- LS.
        destruct (Nat.leb_spec dk n); destruct (Nat.eqb_spec dk (S n)); destruct (Nat.leb_spec dk (S n)); try lia; ring.
  Qed.
  Lemma extract_sum_eq g : valid g -> exists s,
    fold_left (fun acc k => match acc, extract_terms g k with
                            | Ok a, Ok t => Ok (gadd a t) | Throw x, _ => Throw x | _, Throw x => Throw x end)
              (seq 0 (S (gord g))) (Ok (gconst 0)) = Ok s /\ geqb s g = true.
  Proof.
    intros Hg. destruct (extract_sum g (gord g) Hg (le_n _)) as (s & Vs & Cs & Es). exists s. split; auto.
    apply geqb_same; auto. intros W k HW Hk. rewrite Cs by auto. destruct (Nat.leb_spec (list_sum k) (gord g)); auto.
    symmetry. apply coef_above; auto with gwf.
  Qed.

  (** C25 *)
  Lemma geqb_equiv a b c : valid a -> valid b -> valid c ->
    geqb a a = true /\ (geqb a b = true -> geqb b a = true) /\
    (geqb a b = true -> geqb b c = true -> geqb a c = true) /\ gneqb a b = negb (geqb a b).
  Proof.
    intros Ha Hb Hc. conjs; auto.
    - apply geqb_same; auto. intros W k _ _. reflexivity.
    - rewrite !geqb_same by auto. intros H W k HW Hk. symmetry. auto.
    - rewrite !geqb_same by auto. intros H H' W k HW Hk. rewrite H; auto.
  Qed.
  Lemma geqb_cc a b : valid a -> valid b -> geqb a b = true -> constant_cf a = constant_cf b.
  Proof.
    intros Ha Hb E. apply geqb_seqv in E; auto with gwf.
    rewrite (constant_cf_scc idK a), (constant_cf_scc idK b) by auto with gwf. eapply scc_eqv; eauto.
  Qed.
  Lemma order_congr a b a' b' : valid a -> valid b -> valid a' -> valid b' ->
    geqb a a' = true -> geqb b b' = true ->
    gltb a b = gltb a' b' /\ ggtb a b = ggtb a' b' /\ ggtb a b = gltb b a /\
    gltb a b = kltb (constant_cf a) (constant_cf b).
  Proof.
    intros Ha Hb Ha' Hb' Ea Eb. unfold gltb, ggtb.
    rewrite (geqb_cc a a'), (geqb_cc b b') by auto. conjs; auto.
  Qed.
  Lemma geqb_ops a b a' b' : valid a -> valid b -> valid a' -> valid b' ->
    geqb a a' = true -> geqb b b' = true ->
    geqb (gadd a b) (gadd a' b') = true /\ geqb (gsub a b) (gsub a' b') = true /\
    (get_order a = get_order a' -> get_order b = get_order b' -> geqb (gmul a b) (gmul a' b') = true).
  Proof.
    intros Ha Hb Ha' Hb'. rewrite !geqb_same by (auto using valid_add, valid_sub, valid_mul). intros Ea Eb. conjs.
    - intros W k HW Hk. rewrite !coef_add by auto with gwf. rewrite Ea, Eb by auto. reflexivity.
    - intros W k HW Hk. rewrite !coef_sub by auto with gwf. rewrite Ea, Eb by auto. reflexivity.
    - intros Oa Ob W k HW Hk. unfold get_order in *. rewrite !coef_mul_all by auto. unfold get_order. rewrite Oa, Ob.
      destruct (Nat.leb _ _); auto. apply sum_list_ext. intros ij Hij. apply splits_length in Hij. destruct Hij.
      rewrite Ea, Eb by (auto; lia). reflexivity.
  Qed.
  Lemma extend_eq l g r : valid g -> extend_symbol_set l g = Ok r -> geqb g r = true /\ geqb r g = true.
  Proof.
    intros Hg E. assert (S := extend_spec l g Hg). rewrite E in S. destruct S as (_ & _ & Vr & _ & Hst).
    assert (C : geqb g r = true).
    { apply geqb_seqv; auto with gwf. symmetry.
      unfold extend_symbol_set in E. destruct (check_all_d l); [|discriminate]. simpl in E. inversion E. subst r.
      unfold gden, padd_symbols. cbn [gp]. apply (den_pext idK).
      - apply valid_gwf in Hg. apply Hg.
      - apply ssorted_NoDup, sunion_sorted, sset_sorted.
      - intros x Hx. apply sunion_In. auto. }
    split; auto. apply (geqb_equiv g r g); auto.
  Qed.
End Laws.

(** Orders of reachable values fit the check of the constructor. *)
Section Bound.
  Context {K : Type} {o : Ops K} {e : Elem K}.
  Local Open Scope K_scope.

  Lemma compose_loop_ord ss : forall prev (f dg r g : gdual K) n, (gord f <= n)%nat -> (gord dg <= n)%nat -> (gord r <= n)%nat ->
    compose_loop prev ss f dg r = Ok g -> (gord g <= n)%nat.
  Proof.
    induction ss as [|s ss IH]; intros prev f dg r g n Hf Hd Hr; cbn [compose_loop].
    - intros E. inversion E; subst. auto.
    - destruct (gpartial _ s) as [df|] eqn:E1; cbn [rbind]; [|discriminate].
      destruct (gintegrate _ s) as [t|] eqn:E2; cbn [rbind]; [|discriminate].
      apply gpartial_Ok in E1. destruct E1 as [_ E1]. apply gintegrate_Ok in E2. destruct E2 as [_ E2]. subst df t.
      apply IH; cbn [gsubs_val gord gadd]; auto. cbn [gmul gord gsubs_val]. lia.
  Qed.
  Lemma compose_ord (f dg g : gdual K) g0 n : (gord f <= n)%nat -> (gord dg <= n)%nat ->
    compose_from_derivative f dg g0 = Ok g -> (gord g <= n)%nat.
  Proof.
    intros Hf Hd. unfold compose_from_derivative. destruct (get_symbol_set f) as [|s ss].
    - intros E. inversion E. cbn. lia.
    - destruct (gpartial _ s) as [df|] eqn:E1; cbn [rbind]; [|discriminate].
      destruct (gintegrate _ s) as [t|] eqn:E2; cbn [rbind]; [|discriminate].
      destruct (compose_loop _ _ _ _ _) as [r|] eqn:E3; cbn [rbind]; [|discriminate].
      apply gpartial_Ok in E1. destruct E1 as [_ E1]. apply gintegrate_Ok in E2. destruct E2 as [_ E2]. subst df t.
      intros E. inversion E. cbn [gadd_sg gord]. apply (compose_loop_ord ss s f dg _ _ n Hf Hd) in E3; [exact E3|].
      cbn [gmul gord]. lia.
  Qed.
  #[local] Hint Resolve (@valid_gwf K o) (@valid_gnz K o) : gwf.
  Lemma runD_ord f (d g : gdual K) : valid d -> runD f d = Ok g -> (gord g <= gord d)%nat.
  Proof.
    intros V E. pose proof (sto_valid d V) as S.
    assert (C : forall x v0 r, sto (gsyms d) (gord d) x -> compose_from_derivative d x v0 = Ok r -> (gord r <= gord d)%nat).
    { intros x v0 r Sx Er. eapply compose_ord; [| |exact Er]; auto. rewrite (sto_ord _ _ _ Sx). auto. }
    assert (Cerf : forall r, gerf d = Ok r -> (gord r <= gord d)%nat).
    { intros r Er. unfold gerf in Er. eapply C; [|exact Er]. assert (W := valid_gwf d V).
      assert (Sm : sto (gsyms d) (gord d) (gmul (gneg d) d)).
      { constructor; auto with gwf.
        - apply gmul_nz.
        - simpl. apply Nat.max_id.
        - rewrite gsyms_mul, gsyms_neg. apply sunion_idem, gsyms_sorted; auto. }
      auto with sto. }
    destruct f; cbn [runD] in E; try (eapply C; [|exact E]; auto 10 with sto; fail); auto.
    unfold gerfc in E. destruct (gerf d) as [r|] eqn:Er; cbn [rbind] in E; [|discriminate]. inversion E.
    cbn. auto.
  Qed.
  Definition max_order : Z := 4294967285.
  Lemma reach_order_bound (neg_nz : forall c : K, keqb c k0 = false -> keqb (kopp c) k0 = false) (g : gdual K) :
    reach g -> (Z.of_nat (get_order g) < max_order)%Z.
  Proof.
    intros H. assert (V : valid g) by (apply (reach_valid neg_nz); auto).
    unfold max_order, get_order. induction H; unfold get_order in *;
      repeat match goal with
      | Hr : reach ?a, IH : valid ?a -> _ |- _ => specialize (IH (reach_valid neg_nz a Hr))
      end.
    - cbn. lia.
    - cbn. lia.
    - assert (G := gvar_spec v s n). rewrite H in G. destruct G as (B & _ & O & _). unfold get_order in O. rewrite O. lia.
    - cbn. lia.
    - first [exact IHreach|rewrite gmul_sg_ord; exact IHreach|rewrite gmul_gs_ord; exact IHreach|rewrite gdiv_gs_ord; exact IHreach].
    - first [exact IHreach|rewrite gmul_sg_ord; exact IHreach|rewrite gmul_gs_ord; exact IHreach|rewrite gdiv_gs_ord; exact IHreach].
    - cbn. lia.
    - first [exact IHreach|rewrite gmul_sg_ord; exact IHreach|rewrite gmul_gs_ord; exact IHreach|rewrite gdiv_gs_ord; exact IHreach].
    - first [exact IHreach|rewrite gmul_sg_ord; exact IHreach|rewrite gmul_gs_ord; exact IHreach|rewrite gdiv_gs_ord; exact IHreach].
    - first [exact IHreach|rewrite gmul_sg_ord; exact IHreach|rewrite gmul_gs_ord; exact IHreach|rewrite gdiv_gs_ord; exact IHreach].
    - cbn. lia.
    - first [exact IHreach|rewrite gmul_sg_ord; exact IHreach|rewrite gmul_gs_ord; exact IHreach|rewrite gdiv_gs_ord; exact IHreach].
    - first [exact IHreach|rewrite gmul_sg_ord; exact IHreach|rewrite gmul_gs_ord; exact IHreach|rewrite gdiv_gs_ord; exact IHreach].
    - rewrite gdiv_ord by (eapply valid_gwf; eapply reach_valid; eauto). lia.
    - rewrite gdiv_sg_ord by (eapply valid_gwf; eapply reach_valid; eauto). lia.
    - first [exact IHreach|rewrite gmul_sg_ord; exact IHreach|rewrite gmul_gs_ord; exact IHreach|rewrite gdiv_gs_ord; exact IHreach].
    - rewrite (proj2 (extend_gwf l a g (valid_gwf _ (reach_valid neg_nz a H)) H0)). lia.
    - rewrite (proj2 (gintegrate_gwf a s g (valid_gwf _ (reach_valid neg_nz a H)) H0)). lia.
    - rewrite (proj2 (gpartial_gwf a s g (valid_gwf _ (reach_valid neg_nz a H)) H0)). lia.
    - first [exact IHreach|rewrite gmul_sg_ord; exact IHreach|rewrite gmul_gs_ord; exact IHreach|rewrite gdiv_gs_ord; exact IHreach].
    - exact IHreach1.
    - rewrite (proj2 (gtrim_gwf a eps g (valid_gwf _ (reach_valid neg_nz a H)) H0)). lia.
    - assert (X := proj2 (extract_terms_gwf a n g (valid_gwf _ (reach_valid neg_nz a H)) H0)).
      unfold extract_terms in H0. destruct (Nat.ltb_spec (gord a) n); [discriminate|]. lia.
    - assert (X := run1_ord f a (reach_valid neg_nz a H)). unfold get_order in X. lia.
    - assert (X := runD_ord f a g (reach_valid neg_nz a H) H0). lia.
    - destruct (Nat.eq_dec (gdegree a) 0) as [E|E].
      + unfold gpow_sg. rewrite E. cbn. lia.
      + destruct (ord_pow a (reach_valid neg_nz a H)) as (_ & _ & X). specialize (X b E). unfold get_order in X. lia.
    - destruct (ord_pow a (reach_valid neg_nz a H)) as (X & _ & _). specialize (X alpha). unfold get_order in X. lia.
    - destruct (ord_pow a (reach_valid neg_nz a H)) as (_ & X & _). specialize (X n). unfold get_order in X. lia.
    - destruct (ord_binary a b (reach_valid neg_nz a H) (reach_valid neg_nz b H0)) as (_ & _ & _ & _ & X).
      unfold get_order in X. lia.
    - assert (W := reach_valid neg_nz a H). rewrite valid_iff in W. destruct W as [W N].
      assert (X := sto_ord _ _ _ (gsin_sto a W N)). change (gord (gsin a)) with (gord (fst (gsin_and_cos a))) in X. lia.
    - assert (W := reach_valid neg_nz a H). rewrite valid_iff in W. destruct W as [W N].
      assert (X := sto_ord _ _ _ (gcos_sto a W N)). change (gord (gcos a)) with (gord (snd (gsin_and_cos a))) in X. lia.
    - assert (W := reach_valid neg_nz a H). rewrite valid_iff in W. destruct W as [W N].
      assert (X := sto_ord _ _ _ (gsinh_sto a W N)). change (gord (gsinh a)) with (gord (fst (gsinh_and_cosh a))) in X. lia.
    - assert (W := reach_valid neg_nz a H). rewrite valid_iff in W. destruct W as [W N].
      assert (X := sto_ord _ _ _ (gcosh_sto a W N)). change (gord (gcosh a)) with (gord (snd (gsinh_and_cosh a))) in X. lia.
  Qed.
End Bound.

(** C23 *)
Section Evaluate.
  Context {K : Type} {o : Ops K} {fl : FieldLaws o}.
  Local Open Scope K_scope.

  Lemma evaluate_look g dict : valid g -> (forall s, In s (psyms (gp g)) -> dfind s dict <> None) ->
    gevaluate g dict = Ok (value g (look dict)).
  Proof.
    intros Hg H. assert (E := evaluate_spec g dict Hg). destruct (gevaluate g dict) as [v|x].
    - f_equal. apply E. intros s x Ex. unfold look. rewrite Ex. reflexivity.
    - destruct E as (_ & s & Hs & Hn). exfalso. apply (H s); auto.
  Qed.
  Lemma evaluate_Ok g dict v : valid g -> gevaluate g dict = Ok v ->
    (forall s, In s (psyms (gp g)) -> dfind s dict <> None) /\ v = value g (look dict).
  Proof.
    intros Hg H. assert (E := evaluate_spec g dict Hg). rewrite H in E. destruct E as [E1 E2]. split.
    - intros s Hs. destruct (E1 s Hs) as [x Ex]. rewrite Ex. discriminate.
    - apply E2. intros s x Ex. unfold look. rewrite Ex. reflexivity.
  Qed.
  Lemma psyms_cover (a b c : gdual K) : (forall s, In s (psyms (gp c)) -> In s (psyms (gp a)) \/ In s (psyms (gp b))) ->
    forall dict : list (string * K),
    (forall s, In s (psyms (gp a)) -> dfind s dict <> None) -> (forall s, In s (psyms (gp b)) -> dfind s dict <> None) ->
    (forall s, In s (psyms (gp c)) -> dfind s dict <> None).
  Proof. intros H dict Ha Hb s Hs. destruct (H s Hs); auto. Qed.
  Lemma evaluate_arith a b v dict va vb : valid a -> valid b ->
    gevaluate a dict = Ok va -> gevaluate b dict = Ok vb ->
    gevaluate (gadd a b) dict = Ok (va + vb) /\ gevaluate (gsub a b) dict = Ok (va - vb) /\
    gevaluate (gneg a) dict = Ok (- va) /\ gevaluate (gmul_sg v a) dict = Ok (v * va) /\
    ((gdegree a + gdegree b <= Nat.max (get_order a) (get_order b))%nat -> gevaluate (gmul a b) dict = Ok (va * vb)).
  Proof.
    intros Ha Hb Ea Eb. apply evaluate_Ok in Ea; auto. apply evaluate_Ok in Eb; auto.
    destruct Ea as [Ca ->]. destruct Eb as [Cb ->]. conjs.
    - rewrite evaluate_look; [rewrite value_add; auto|auto using valid_add, valid_neg, valid_sub, valid_mul, valid_mul_sg|].
      apply (psyms_cover a b); auto. intros s Hs. apply sunion_In. exact Hs.
    - rewrite evaluate_look; [rewrite value_sub; auto|auto using valid_add, valid_neg, valid_sub, valid_mul, valid_mul_sg|].
      apply (psyms_cover a b); auto. intros s Hs. apply sunion_In. exact Hs.
    - rewrite evaluate_look; [rewrite value_neg; auto|auto using valid_add, valid_neg, valid_sub, valid_mul, valid_mul_sg|exact Ca].
    - rewrite evaluate_look; [rewrite value_mul_sg; auto|auto using valid_add, valid_neg, valid_sub, valid_mul, valid_mul_sg|].
      intros s Hs. apply Ca. revert Hs. change (In s (gsyms (gmul_sg v a)) -> In s (gsyms a)). rewrite gsyms_gmul_sg. auto.
    - intros Hd. rewrite evaluate_look; [rewrite value_mul; auto|auto using valid_add, valid_neg, valid_sub, valid_mul, valid_mul_sg|].
      apply (psyms_cover a b); auto. intros s Hs. change (In s (gsyms (gmul a b))) in Hs. rewrite gsyms_mul in Hs.
      apply sunion_In in Hs. exact Hs.
  Qed.
  Lemma evaluate_zero g dict : valid g -> (forall s, In s (psyms (gp g)) -> dfind s dict = Some 0) ->
    gevaluate g dict = Ok (constant_cf g).
  Proof.
    intros Hg H. rewrite evaluate_look; auto.
    - rewrite <- value_zero by auto. f_equal. apply value_ext. intros s Hs. unfold look. rewrite (H s Hs). reflexivity.
    - intros s Hs. rewrite (H s Hs). discriminate.
  Qed.
End Evaluate.

(** C21: wrappers *)
Section Calculus.
  Context {K : Type} {o : Ops K} {fl : FieldLaws o}.
  Local Open Scope K_scope.
  Lemma coef_partial_valid g s r W k : valid g -> gpartial g s = Ok r -> NoDup W -> length k = length W -> In (dsym s) W ->
    coef r W k = kofnat (S (expo W k (dsym s))) * coef g W (incr W k (dsym s)).
  Proof. intros. apply coef_partial; auto. apply valid_gwf; auto. Qed.
  Lemma calc_throws (g : gdual K) s :
    (forall c x, s = String c x -> c <> "d"%char ->
       (exists r, gpartial g s = Ok r) /\ exists r, gintegrate g s = Ok r) /\
    (forall x, s = String "d" x -> gpartial g s = Throw InvalidArgument /\ gintegrate g s = Throw InvalidArgument) /\
    (s = EmptyString -> gpartial g s = Throw OutOfRange /\ gintegrate g s = Throw OutOfRange).
  Proof.
    unfold gpartial, gintegrate, check_var_name. conjs.
    - intros c x -> Hc. destruct (Ascii.eqb_spec c "d"); [contradiction|]. cbn [rbind]. eauto.
    - intros x ->. cbn. auto.
    - intros ->. auto.
  Qed.
  Lemma partial_linear_ok a b v s ra rb : valid a -> valid b ->
    gpartial a s = Ok ra -> gpartial b s = Ok rb ->
    exists rs rv, gpartial (gadd a b) s = Ok rs /\ gpartial (gmul_sg v a) s = Ok rv /\
      geqb rs (gadd ra rb) = true /\ geqb rv (gmul_sg v ra) = true.
  Proof.
    intros Ha Hb Ea Eb. destruct (gpartial_total a (gadd a b) s ra Ea) as [rs Es].
    destruct (gpartial_total a (gmul_sg v a) s ra Ea) as [rv Ev]. exists rs, rv. split; auto. split; auto.
    exact (partial_linear a b v s ra rb rs rv Ha Hb Ea Eb Es Ev).
  Qed.
  Lemma integrate_linear_ok a b v s ra rb : valid a -> valid b -> get_order a = get_order b ->
    (Z.of_nat (get_order a) < 2147483648)%Z ->
    gintegrate a s = Ok ra -> gintegrate b s = Ok rb ->
    exists rs rv, gintegrate (gadd a b) s = Ok rs /\ gintegrate (gmul_sg v a) s = Ok rv /\
      geqb rs (gadd ra rb) = true /\ geqb rv (gmul_sg v ra) = true.
  Proof.
    intros Ha Hb Ho Hl Ea Eb. destruct (gintegrate_total a (gadd a b) s ra Ea) as [rs Es].
    destruct (gintegrate_total a (gmul_sg v a) s ra Ea) as [rv Ev]. exists rs, rv. split; auto. split; auto.
    exact (integrate_linear a b v s ra rb rs rv Ha Hb Ho Hl Ea Eb Es Ev).
  Qed.
  Lemma partial_comm_ok g s t rs rst : valid g -> gpartial g s = Ok rs -> gpartial rs t = Ok rst ->
    exists rt rts, gpartial g t = Ok rt /\ gpartial rt s = Ok rts /\ geqb rst rts = true.
  Proof.
    intros Hg E1 E2. destruct (gpartial_total rs g t rst E2) as [rt E3].
    destruct (gpartial_total g rt s rs E1) as [rts E4]. exists rt, rts. split; auto. split; auto.
    exact (partial_comm g s t rs rt rst rts Hg E1 E2 E3 E4).
  Qed.
  Lemma integrate_big (g : gdual K) s r : (2147483648 <= Z.of_nat (get_order g) < 4294967296)%Z ->
    gintegrate g s = Ok r -> pterms (gp r) = [].
  Proof.
    unfold get_order. intros H E. apply gintegrate_Ok in E. destruct E as [_ ->]. cbn [gp ptruncateZ].
    unfold ptruncateZ, pfilter. cbn [pterms].
    assert (A : (as_int (gord g) < 0)%Z).
    { unfold as_int. cbv zeta. unfold two31, two32. destruct (Z.ltb_spec (Z.of_nat (gord g)) 2147483648); lia. }
    generalize (pterms (pintegrate (dsym s) (gp g))). intros l. induction l as [|t l IH]; auto. cbn [filter].
    destruct (Z.leb_spec (Z.of_nat (kdeg (fst t))) (as_int (gord g))); [lia|auto].
  Qed.
End Calculus.
