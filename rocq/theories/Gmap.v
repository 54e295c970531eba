(** * Applying an injective homomorphism to the coefficients (proof file).

    The operations and functions of the model commute with it, as stored
    structures. *)

From Coq Require Import String Reals Lra Lia List ZArith Bool.
From Verif Require Import Ops Syms Poly Sem Gdual Functions FunAlg.
Import ListNotations.

Lemma fold_commute {S S' I : Type} (m : S -> S') (f : S -> I -> S) (f' : S' -> I -> S') l :
  (forall s i, f' (m s) i = m (f s i)) -> forall s, fold_left f' l (m s) = m (fold_left f l s).
Proof. intros H. induction l; intros s; simpl; auto. rewrite H. auto. Qed.

Ltac lpc m :=
  match goal with |- ?L = ?R =>
    match L with context [fold_left ?f' ?l ?s'] =>
      match R with context [fold_left ?f l ?s] =>
        replace s' with (m s); [rewrite (fold_commute m f f' l)|] end end end.

Section Gmap.
  Context {A K : Type} {oA : Ops A} {oK : Ops K} {eA : Elem A} {eK : Elem K}.
  Variable h : A -> K.
  Context {hh : Hom oA oK h}.
  Hypothesis h0 : forall a, keqb (h a) k0 = keqb a k0.

  Definition mt (t : key * A) : key * K := (fst t, h (snd t)).
  Definition pmapc (p : poly A) : poly K := mkPoly (psyms p) (map mt (pterms p)).
  Definition gmapc (g : gdual A) : gdual K := mkG (pmapc (gp g)) (gord g).

  Lemma add_term_map k c l : add_term k (h c) (map mt l) = map mt (add_term k c l).
  Proof.
    induction l as [|[k' c'] l IH]; cbn [add_term map mt fst snd].
    - rewrite h0. destruct (keqb c k0); reflexivity.
    - destruct (key_eqb k' k).
      + rewrite <- (hom_add h), h0. destruct (keqb _ _); reflexivity.
      + cbn [map]. rewrite IH. reflexivity.
  Qed.
  Lemma add_terms_map ts acc : add_terms (map mt ts) (map mt acc) = map mt (add_terms ts acc).
  Proof.
    unfold add_terms. revert acc. induction ts as [|t ts IH]; intros acc; cbn [map fold_left]; auto.
    rewrite <- IH. f_equal. apply add_term_map.
  Qed.
  Lemma pext_map W p : pext W (pmapc p) = pmapc (pext W p).
  Proof. unfold pext, pmapc. cbn [psyms pterms]. rewrite !map_map. reflexivity. Qed.
  Lemma padd_map p q : padd (pmapc p) (pmapc q) = pmapc (padd p q).
  Proof.
    unfold padd. change (psyms (pmapc p)) with (psyms p). change (psyms (pmapc q)) with (psyms q).
    rewrite !pext_map. unfold pmapc at 3. cbn [psyms pterms]. f_equal. apply add_terms_map.
  Qed.
  Lemma pconst_map c : pconst (h c) = pmapc (pconst c).
  Proof. unfold pconst, pmapc. cbn [psyms pterms]. rewrite <- add_term_map. reflexivity. Qed.
  Lemma pneg_map p : pneg (pmapc p) = pmapc (pneg p).
  Proof.
    unfold pneg, pmapc. cbn [psyms pterms]. rewrite !map_map. f_equal. apply map_ext. intros t. unfold mt. cbn [fst snd].
    rewrite (hom_opp h). reflexivity.
  Qed.
  Lemma psub_map p q : psub (pmapc p) (pmapc q) = pmapc (psub p q).
  Proof. unfold psub. rewrite pneg_map. apply padd_map. Qed.
  Lemma ptmul_map n p q : ptmul n (pmapc p) (pmapc q) = pmapc (ptmul n p q).
  Proof.
    unfold ptmul, pmul_if. change (psyms (pmapc p)) with (psyms p). change (psyms (pmapc q)) with (psyms q).
    rewrite !pext_map. set (W := sunion (psyms p) (psyms q)). unfold pmapc. cbn [psyms pterms]. f_equal.
    assert (X : forall ts us acc,
      fold_left (fun acc t1 => fold_left (fun acc t2 => if Nat.leb (kdeg (fst t1) + kdeg (fst t2)) n
         then add_term (kplus (fst t1) (fst t2)) (kmul (snd t1) (snd t2)) acc else acc) (map mt us) acc) (map mt ts) (map mt acc) =
      map mt (fold_left (fun acc t1 => fold_left (fun acc t2 => if Nat.leb (kdeg (fst t1) + kdeg (fst t2)) n
         then add_term (kplus (fst t1) (fst t2)) (kmul (snd t1) (snd t2)) acc else acc) us acc) ts acc)).
    { induction ts as [|t ts IH]; intros us acc; cbn [map fold_left]; auto. rewrite <- IH. f_equal.
      clear IH. revert acc. induction us as [|u us IH]; intros acc; cbn [map fold_left]; auto. rewrite <- IH. f_equal.
      cbn [mt fst snd]. destruct (Nat.leb _ n); auto. rewrite <- (hom_mul h). apply add_term_map. }
    exact (X (pterms (pext W p)) (pterms (pext W q)) []).
  Qed.
  Lemma pfind_map k p : pfind k (pmapc p) = option_map h (pfind k p).
  Proof.
    unfold pfind, pmapc. cbn [pterms]. induction (pterms p) as [|[k' c] l IH]; cbn [map tfind mt fst snd]; auto.
    destruct (key_eqb k' k); auto.
  Qed.
  Lemma pdegree_map p : pdegree (pmapc p) = pdegree p.
  Proof. unfold pdegree, pmapc. cbn [pterms]. induction (pterms p); cbn [map fold_right mt fst]; auto. Qed.

  Lemma gdegree_map g : gdegree (gmapc g) = gdegree g.
  Proof. apply pdegree_map. Qed.
  Lemma cc_map g : constant_cf (gmapc g) = h (constant_cf g).
  Proof.
    unfold constant_cf, find_cf, get_symbol_set_size, gmapc. cbn [gp gord pmapc psyms]. fold (pmapc (gp g)).
    destruct (Z.ltb _ _); [symmetry; apply (hom_0 h)|]. destruct (negb _); [symmetry; apply (hom_0 h)|].
    rewrite pfind_map. destruct (pfind _ _); cbn [option_map]; auto. symmetry; apply (hom_0 h).
  Qed.
  Lemma ord_map g : gord (gmapc g) = gord g.
  Proof. reflexivity. Qed.

  Lemma gconst_map v : gconst (h v) = gmapc (gconst v).
  Proof.
    unfold gconst, gmapc. cbn [gp gord]. f_equal. rewrite pconst_map. change (@pzero K) with (pmapc pzero). apply padd_map.
  Qed.
  Lemma one_map : gconst k1 = gmapc (gconst k1).
  Proof. rewrite <- gconst_map. f_equal. symmetry. apply (hom_1 h). Qed.
  Lemma gconst_ord_map v n : gconst_ord (h v) n = gmapc (gconst_ord v n).
  Proof. unfold gconst_ord, gmapc. cbn [gp gord]. f_equal. apply pconst_map. Qed.
  Lemma gadd_map a b : gadd (gmapc a) (gmapc b) = gmapc (gadd a b).
  Proof. unfold gadd, gmapc. cbn [gp gord]. f_equal. apply padd_map. Qed.
  Lemma gsub_map a b : gsub (gmapc a) (gmapc b) = gmapc (gsub a b).
  Proof. unfold gsub, gmapc. cbn [gp gord]. f_equal. apply psub_map. Qed.
  Lemma gneg_map a : gneg (gmapc a) = gmapc (gneg a).
  Proof. unfold gneg, gmapc. cbn [gp gord]. f_equal. apply pneg_map. Qed.
  Lemma gmul_map a b : gmul (gmapc a) (gmapc b) = gmapc (gmul a b).
  Proof. unfold gmul, gmapc. cbn [gp gord]. f_equal. apply ptmul_map. Qed.
  Lemma gadd_sg_map v a : gadd_sg (h v) (gmapc a) = gmapc (gadd_sg v a).
  Proof. unfold gadd_sg, gmapc. cbn [gp gord]. f_equal. rewrite pconst_map. apply padd_map. Qed.
  Lemma gadd_gs_map v a : gadd_gs (gmapc a) (h v) = gmapc (gadd_gs a v).
  Proof. unfold gadd_gs, gmapc. cbn [gp gord]. f_equal. rewrite pconst_map. apply padd_map. Qed.
  Lemma gsub_sg_map v a : gsub_sg (h v) (gmapc a) = gmapc (gsub_sg v a).
  Proof. unfold gsub_sg, gmapc. cbn [gp gord]. f_equal. rewrite pconst_map. apply psub_map. Qed.
  Lemma gsub_gs_map v a : gsub_gs (gmapc a) (h v) = gmapc (gsub_gs a v).
  Proof. unfold gsub_gs, gmapc. cbn [gp gord]. f_equal. rewrite pconst_map. apply psub_map. Qed.
  Lemma gmul_sg_map v a : gmul_sg (h v) (gmapc a) = gmapc (gmul_sg v a).
  Proof. unfold gmul_sg. rewrite gconst_ord_map. apply gmul_map. Qed.
  Lemma gmul_gs_map v a : gmul_gs (gmapc a) (h v) = gmapc (gmul_gs a v).
  Proof. unfold gmul_gs. rewrite gconst_ord_map. apply gmul_map. Qed.
  Lemma gdiv_gs_map v a : gdiv_gs (gmapc a) (h v) = gmapc (gdiv_gs a v).
  Proof. unfold gdiv_gs. rewrite <- (hom_1 h), <- (hom_div h). apply gmul_gs_map. Qed.

  Definition m2 (s : gdual A * gdual A) := (gmapc (fst s), gmapc (snd s)).
  Definition m3 (s : gdual A * gdual A * gdual A) := (gmapc (fst (fst s)), gmapc (snd (fst s)), gmapc (snd s)).
  Definition mgkg (s : gdual A * A * gdual A) := (gmapc (fst (fst s)), h (snd (fst s)), gmapc (snd s)).
  Definition mggk (s : gdual A * gdual A * A) := (gmapc (fst (fst s)), gmapc (snd (fst s)), h (snd s)).
  Definition mgzgk (s : gdual A * Z * gdual A * A) := (gmapc (fst (fst (fst s))), snd (fst (fst s)), gmapc (snd (fst s)), h (snd s)).
  Definition mggkk (s : gdual A * gdual A * A * A) := (gmapc (fst (fst (fst s))), gmapc (snd (fst (fst s))), h (snd (fst s)), h (snd s)).
  Lemma kofnat_map i : h (kofnat i) = kofnat i.
  Proof. apply (hom_ofZ h). Qed.
  Lemma kpow_map v n : kpow (h v) n = h (kpow v n).
  Proof. induction n; cbn [kpow]; [symmetry; apply (hom_1 h)|]. rewrite IHn, (hom_mul h). reflexivity. Qed.

  Lemma grecip_map d : grecip_loop (gmapc d) = gmapc (grecip_loop d).
  Proof.
    unfold grecip_loop. rewrite cc_map, ord_map. rewrite gsub_gs_map, gdiv_gs_map.
    set (ph := gdiv_gs (gsub_gs d (constant_cf d)) (constant_cf d)).
    rewrite one_map, gsub_map.
    lpc mgkg.
    - destruct (fold_left _ _ _) as [[a b] c]. reflexivity.
    - intros [[a b] c] i. unfold mgkg. cbn [fst snd]. rewrite <- (hom_1 h), <- (hom_opp h), <- (hom_mul h), gmul_map, gmul_sg_map, gadd_map. reflexivity.
    - unfold mgkg. cbn [fst snd]. rewrite (hom_opp h), (hom_1 h). reflexivity.
  Qed.
  Lemma gdiv_map a b : gdiv (gmapc a) (gmapc b) = gmapc (gdiv a b).
  Proof. unfold gdiv. rewrite grecip_map, gmul_map, cc_map, gdiv_gs_map. reflexivity. Qed.
  Lemma gdiv_sg_map v b : gdiv_sg (h v) (gmapc b) = gmapc (gdiv_sg v b).
  Proof. unfold gdiv_sg. rewrite grecip_map, gmul_sg_map, cc_map, gdiv_gs_map. reflexivity. Qed.

  (** Functions, when their values on the constant coefficient agree. *)
  Lemma gexp_map d : h (e_exp (constant_cf d)) = e_exp (h (constant_cf d)) -> gexp (gmapc d) = gmapc (gexp d).
  Proof.
    intros E. unfold gexp. rewrite cc_map, ord_map, gsub_gs_map, <- E.
    set (ph := gsub_gs d (constant_cf d)). rewrite <- (hom_1 h). rewrite gconst_map, gadd_map.
    lpc m3.
    - destruct (fold_left _ _ _) as [[a b] c]. cbn [m3 fst snd]. apply gmul_gs_map.
    - intros [[a b] c] i. unfold m3. cbn [fst snd]. rewrite <- kofnat_map, gmul_map, gmul_gs_map, gdiv_map, gadd_map. reflexivity.
    - reflexivity.
  Qed.
  Lemma glog_map d : h (e_log (constant_cf d)) = e_log (h (constant_cf d)) -> glog (gmapc d) = gmapc (glog d).
  Proof.
    intros E. unfold glog. rewrite cc_map, ord_map, gsub_gs_map, gdiv_gs_map, <- E.
    set (ph := gdiv_gs (gsub_gs d (constant_cf d)) (constant_cf d)). rewrite <- (hom_1 h). rewrite gconst_map, gadd_sg_map.
    lpc m3.
    - destruct (fold_left _ _ _) as [[a b] c]. reflexivity.
    - intros [[a b] c] i. unfold m3. cbn [fst snd].
      rewrite <- kofnat_map, <- (hom_opp h), gmul_gs_map, !gmul_map, gdiv_gs_map, gadd_map. reflexivity.
    - reflexivity.
  Qed.
  Lemma gpow_map a b : h (e_log (constant_cf a)) = e_log (h (constant_cf a)) ->
    (forall x, h (e_exp x) = e_exp (h x)) -> gpow (gmapc a) (gmapc b) = gmapc (gpow a b).
  Proof. intros E1 E2. unfold gpow. rewrite glog_map, gmul_map, gexp_map by auto. reflexivity. Qed.
  Lemma gpow_sg_map v d : h (e_log v) = e_log (h v) -> (forall x, h (e_exp x) = e_exp (h x)) ->
    h (e_pow v (constant_cf d)) = e_pow (h v) (h (constant_cf d)) -> gpow_sg (h v) (gmapc d) = gmapc (gpow_sg v d).
  Proof.
    intros E1 E2 E3. unfold gpow_sg. rewrite gdegree_map, cc_map. destruct (Nat.eqb _ 0).
    - rewrite <- E3. apply gconst_map.
    - rewrite <- E1, gmul_sg_map, gexp_map by auto. reflexivity.
  Qed.
  Lemma gpow_loop_map d n : gpow_loop (gmapc d) n = gmapc (gpow_loop d n).
  Proof. unfold gpow_loop. apply fold_commute. intros s i. apply gmul_map. Qed.
  Lemma gpow_int_map d n : gpow_int (gmapc d) n = gmapc (gpow_int d n).
  Proof.
    unfold gpow_int. destruct (Z.ltb n 0).
    - rewrite <- (hom_1 h), gdiv_sg_map. apply fold_commute. intros s i. apply gdiv_map.
    - destruct (Z.ltb 0 n); [apply gpow_loop_map|]. rewrite gsub_map, <- (hom_1 h). apply gadd_gs_map.
  Qed.
  Lemma kbinomial_map x n : kbinomial (h x) n = h (kbinomial x n).
  Proof.
    unfold kbinomial. apply fold_commute. intros s i. rewrite <- !kofnat_map, <- (hom_sub h), <- (hom_mul h), <- (hom_div h). reflexivity.
  Qed.
  Definition pow_exps (a b : A) : Prop := b = a \/ b = ksub a k1 \/ exists i, b = ksub a (kofnat i).
  Lemma gpow_series_map d a : (forall b, pow_exps a b -> h (e_pow (constant_cf d) b) = e_pow (h (constant_cf d)) (h b)) ->
    gpow_series (gmapc d) (h a) = gmapc (gpow_series d a).
  Proof.
    intros E. unfold pow_exps in E. unfold gpow_series. cbv zeta. rewrite cc_map, ord_map, gsub_gs_map.
    set (ph := gsub_gs d (constant_cf d)).
    lpc m2.
    - destruct (fold_left _ _ _) as [x y]. reflexivity.
    - intros [x y] i. unfold m2. cbn [fst snd].
      rewrite kbinomial_map, gmul_map, gmul_sg_map, <- kofnat_map, <- (hom_sub h), <- E, gmul_gs_map, gadd_map by eauto. reflexivity.
    - unfold m2. cbn [fst snd]. rewrite <- (hom_1 h), <- (hom_sub h), <- !E, gconst_map, gmul_sg_map, gmul_gs_map, gadd_map by eauto. reflexivity.
  Qed.
  Lemma gpow_real_map d a :
    ((keqb (kofZ (e_toint (h a))) (h a) && kltb k0 (h a))%bool = (keqb (kofZ (e_toint a)) a && kltb k0 a)%bool) ->
    e_toint (h a) = e_toint a ->
    ((keqb (kofZ (e_toint a)) a && kltb k0 a)%bool = false -> forall b, pow_exps a b -> h (e_pow (constant_cf d) b) = e_pow (h (constant_cf d)) (h b)) ->
    gpow_real (gmapc d) (h a) = gmapc (gpow_real d a).
  Proof.
    intros E1 E2 E3. rewrite !gpow_real_cases. rewrite E1, E2.
    destruct (keqb (kofZ (e_toint a)) a && kltb k0 a)%bool; [apply gpow_loop_map|apply gpow_series_map; auto].
  Qed.

  Lemma trig_loop_map p t idx : trig_loop (gmapc p) (gmapc t) idx = gmapc (trig_loop p t idx).
  Proof.
    unfold trig_loop.
    lpc mgzgk.
    - destruct (fold_left _ _ _) as [[[a b] c] k]. reflexivity.
    - intros [[[a b] c] k] i. unfold mgzgk. cbn [fst snd].
      rewrite <- !(hom_ofZ h), <- (hom_mul h), gmul_map, gmul_sg_map, gdiv_gs_map, gadd_map. reflexivity.
    - unfold mgzgk. cbn [fst snd]. rewrite (hom_1 h). reflexivity.
  Qed.
  Lemma hyp_loop_map p t idx : hyp_loop (gmapc p) (gmapc t) idx = gmapc (hyp_loop p t idx).
  Proof.
    unfold hyp_loop.
    lpc mggk.
    - destruct (fold_left _ _ _) as [[a b] c]. reflexivity.
    - intros [[a b] c] i. unfold mggk. cbn [fst snd].
      rewrite <- !kofnat_map, <- (hom_1 h), <- (hom_sub h), <- !(hom_mul h), gmul_map, gdiv_gs_map, gadd_map. reflexivity.
    - unfold mggk. cbn [fst snd]. rewrite (hom_1 h). reflexivity.
  Qed.
  Lemma cos_taylor_map d : cos_taylor (gmapc d) = gmapc (cos_taylor d).
  Proof. unfold cos_taylor. rewrite cc_map, ord_map, gsub_gs_map, gmul_map, one_map. apply trig_loop_map. Qed.
  Lemma sin_taylor_map d : sin_taylor (gmapc d) = gmapc (sin_taylor d).
  Proof. unfold sin_taylor. rewrite cc_map, ord_map, gsub_gs_map, gmul_map. apply trig_loop_map. Qed.
  Lemma cosh_taylor_map d : cosh_taylor (gmapc d) = gmapc (cosh_taylor d).
  Proof. unfold cosh_taylor. rewrite cc_map, ord_map, gsub_gs_map, gmul_map, one_map. apply hyp_loop_map. Qed.
  Lemma sinh_taylor_map d : sinh_taylor (gmapc d) = gmapc (sinh_taylor d).
  Proof. unfold sinh_taylor. rewrite cc_map, ord_map, gsub_gs_map, gmul_map. apply hyp_loop_map. Qed.
  Lemma gsin_map d : h (e_sin (constant_cf d)) = e_sin (h (constant_cf d)) -> h (e_cos (constant_cf d)) = e_cos (h (constant_cf d)) ->
    gsin (gmapc d) = gmapc (gsin d) /\ gcos (gmapc d) = gmapc (gcos d).
  Proof.
    intros E1 E2. unfold gsin, gcos. rewrite cc_map, <- E1, <- E2, cos_taylor_map, sin_taylor_map, !gmul_sg_map, gadd_map, gsub_map. auto.
  Qed.
  Lemma gsinh_map d : h (e_sinh (constant_cf d)) = e_sinh (h (constant_cf d)) -> h (e_cosh (constant_cf d)) = e_cosh (h (constant_cf d)) ->
    gsinh (gmapc d) = gmapc (gsinh d) /\ gcosh (gmapc d) = gmapc (gcosh d).
  Proof.
    intros E1 E2. unfold gsinh, gcosh. rewrite cc_map, <- E1, <- E2, cosh_taylor_map, sinh_taylor_map, !gmul_sg_map, !gadd_map. auto.
  Qed.
  Lemma bn_map n k : (forall i, h (e_bern i) = e_bern i) -> nth k (bn n) k0 = h (nth k (bn n) k0).
  Proof.
    intros E. unfold bn. rewrite <- (hom_0 h) at 1. rewrite (map_ext e_bern (fun i => h (e_bern i))) by auto.
    rewrite <- (map_map e_bern h). apply map_nth.
  Qed.
  Lemma gtan_map d : (forall i, h (e_bern i) = e_bern i) -> h (e_tan (constant_cf d)) = e_tan (h (constant_cf d)) ->
    gtan (gmapc d) = gmapc (gtan d).
  Proof.
    intros B E. unfold gtan. rewrite cc_map, ord_map, gsub_gs_map, gmul_map, <- E.
    lpc mggkk.
    - destruct (fold_left _ _ _) as [[[a b] c] k]. unfold mggkk. cbn [fst snd].
      rewrite <- (hom_1 h), gmul_sg_map, gadd_sg_map, gsub_sg_map. apply gdiv_map.
    - intros [[[a b] c] k] i. unfold mggkk. cbn [fst snd]. rewrite bn_map by auto.
      rewrite <- !(hom_ofZ h), <- (hom_1 h), <- (hom_abs h), <- !kofnat_map.
      repeat (rewrite <- (hom_mul h) || rewrite <- (hom_sub h) || rewrite <- (hom_add h) || rewrite <- (hom_div h)).
      rewrite gmul_map, gmul_sg_map, gadd_map. reflexivity.
    - unfold mggkk. cbn [fst snd]. rewrite !(hom_ofZ h). reflexivity.
  Qed.
  Lemma gtanh_map d : (forall i, h (e_bern i) = e_bern i) -> h (e_tanh (constant_cf d)) = e_tanh (h (constant_cf d)) ->
    gtanh (gmapc d) = gmapc (gtanh d).
  Proof.
    intros B E. unfold gtanh. rewrite cc_map, ord_map, gsub_gs_map, gmul_map, <- E.
    lpc mggkk.
    - destruct (fold_left _ _ _) as [[[a b] c] k]. unfold mggkk. cbn [fst snd].
      rewrite <- (hom_1 h), gmul_sg_map, !gadd_sg_map. apply gdiv_map.
    - intros [[[a b] c] k] i. unfold mggkk. cbn [fst snd]. rewrite bn_map by auto.
      rewrite <- !(hom_ofZ h), <- (hom_1 h), <- !kofnat_map.
      repeat (rewrite <- (hom_mul h) || rewrite <- (hom_sub h) || rewrite <- (hom_add h) || rewrite <- (hom_div h)).
      rewrite gmul_map, gmul_sg_map, gadd_map. reflexivity.
    - unfold mggkk. cbn [fst snd]. rewrite !(hom_ofZ h). reflexivity.
  Qed.
  Lemma gatanh_map d : h (e_atanh (constant_cf d)) = e_atanh (h (constant_cf d)) -> gatanh (gmapc d) = gmapc (gatanh d).
  Proof.
    intros E. unfold gatanh. rewrite cc_map, ord_map, gsub_gs_map, <- E.
    lpc mgkg.
    - destruct (fold_left _ _ _) as [[a b] c]. unfold mgkg. cbn [fst snd].
      rewrite <- (hom_1 h), <- (hom_ofZ h), <- (hom_div h), gmul_sg_map. apply gadd_sg_map.
    - intros [[a b] c] i. unfold mgkg. cbn [fst snd]. rewrite <- (hom_1 h), <- (hom_sub h), <- (hom_add h), !kpow_map, <- !(hom_div h), <- kofnat_map.
      rewrite <- (hom_add h), <- (hom_div h), <- (hom_opp h), <- (hom_mul h), gmul_sg_map, gmul_map, gadd_map. reflexivity.
    - unfold mgkg. cbn [fst snd]. rewrite (hom_1 h), <- (hom_0 h), gconst_map. reflexivity.
  Qed.
  Lemma gvar_map v s n : gvar (h v) s n = match gvar v s n with Ok g => Ok (gmapc g) | Throw x => Throw x end.
  Proof.
    unfold gvar. destruct (check_order n); cbn [rbind]; [|reflexivity]. destruct (check_var_name s); cbn [rbind]; [|reflexivity].
    destruct (Nat.eqb n 0).
    - unfold extend_symbol_set. destruct (check_all_d _); cbn [rbind gp gord]; [|reflexivity].
      unfold gmapc. cbn [gp gord]. rewrite <- padd_map, <- pconst_map. reflexivity.
    - cbn [rbind gp gord]. unfold gmapc. cbn [gp gord]. rewrite <- padd_map, <- pconst_map. f_equal. f_equal. f_equal.
      unfold pvar, pmapc. cbn [psyms pterms]. rewrite <- add_term_map. cbn [map]. rewrite (hom_1 h). reflexivity.
  Qed.

  (** The calculus and the quadratures. *)
  Definition resmap (r : res (gdual A)) : res (gdual K) := match r with Ok g => Ok (gmapc g) | Throw x => Throw x end.
  Lemma fold_terms_map (F : list (key * A) -> key * A -> list (key * A)) (F' : list (key * K) -> key * K -> list (key * K)) l acc :
    (forall acc t, F' (map mt acc) (mt t) = map mt (F acc t)) ->
    fold_left F' (map mt l) (map mt acc) = map mt (fold_left F l acc).
  Proof. intros H. revert acc. induction l as [|t l IH]; intros acc; cbn [map fold_left]; auto. rewrite H. apply IH. Qed.
  Lemma pdiff_map s p : pdiff s (pmapc p) = pmapc (pdiff s p).
  Proof.
    unfold pdiff, pmapc. cbn [psyms pterms]. f_equal. apply (fold_terms_map _ _ (pterms p) []). intros acc t.
    cbn [mt fst snd]. destruct (expo (psyms p) (fst t) s) as [|e]; auto.
    rewrite <- add_term_map, (hom_mul h), kofnat_map. reflexivity.
  Qed.
  Lemma pintegrate_map s p : pintegrate s (pmapc p) = pmapc (pintegrate s p).
  Proof.
    unfold pintegrate. change (psyms (pmapc p)) with (psyms p). rewrite pext_map. unfold pmapc at 2. cbn [psyms pterms]. f_equal.
    apply (fold_terms_map _ _ (pterms (pext (sinsert s (psyms p)) p)) []). intros acc t. cbn [mt fst snd].
    rewrite <- add_term_map, (hom_div h), kofnat_map. reflexivity.
  Qed.
  Lemma psubs_val_map s v p : psubs_val s (h v) (pmapc p) = pmapc (psubs_val s v p).
  Proof.
    unfold psubs_val, pmapc. cbn [psyms pterms]. f_equal. apply (fold_terms_map _ _ (pterms p) []). intros acc t.
    cbn [mt fst snd]. rewrite <- add_term_map, (hom_mul h), kpow_map. reflexivity.
  Qed.
  Lemma ptruncateZ_map m p : ptruncateZ m (pmapc p) = pmapc (ptruncateZ m p).
  Proof.
    unfold ptruncateZ, pfilter, pmapc. cbn [psyms pterms]. f_equal. induction (pterms p) as [|t l IH]; cbn [map filter mt fst]; auto.
    destruct (Z.leb _ m); cbn [map]; rewrite IH; reflexivity.
  Qed.
  Lemma gpartial_map g s : gpartial (gmapc g) s = resmap (gpartial g s).
  Proof. unfold gpartial. destruct (check_var_name s); cbn [rbind resmap]; auto. unfold gmapc. cbn [gp gord]. rewrite pdiff_map. reflexivity. Qed.
  Lemma gintegrate_map g s : gintegrate (gmapc g) s = resmap (gintegrate g s).
  Proof.
    unfold gintegrate. destruct (check_var_name s); cbn [rbind resmap]; auto. unfold gmapc. cbn [gp gord].
    rewrite pintegrate_map, ptruncateZ_map. reflexivity.
  Qed.
  Lemma gsubs_val_map g s v : gsubs_val (gmapc g) s (h v) = gmapc (gsubs_val g s v).
  Proof. unfold gsubs_val, gmapc. cbn [gp gord]. rewrite psubs_val_map. reflexivity. Qed.
  Lemma compose_loop_map ss : forall prev f dg r, compose_loop prev ss (gmapc f) (gmapc dg) (gmapc r) = resmap (compose_loop prev ss f dg r).
  Proof.
    induction ss as [|s ss IH]; intros prev f dg r; cbn [compose_loop]; auto.
    rewrite <- (hom_0 h), !gsubs_val_map, gpartial_map. destruct (gpartial _ s) as [df|]; cbn [rbind resmap]; auto.
    rewrite gmul_map, gintegrate_map. destruct (gintegrate _ s) as [t|]; cbn [rbind resmap]; auto.
    rewrite gadd_map. apply IH.
  Qed.
  Lemma compose_map f dg v : compose_from_derivative (gmapc f) (gmapc dg) (h v) = resmap (compose_from_derivative f dg v).
  Proof.
    unfold compose_from_derivative. change (get_symbol_set (gmapc f)) with (get_symbol_set f).
    destruct (get_symbol_set f) as [|s ss]; [cbn [resmap]; rewrite gconst_map; reflexivity|].
    rewrite gpartial_map. destruct (gpartial _ s) as [df|]; cbn [rbind resmap]; auto.
    rewrite gmul_map, gintegrate_map. destruct (gintegrate _ s) as [t|]; cbn [rbind resmap]; auto.
    rewrite compose_loop_map. destruct (compose_loop s ss f dg t) as [r|]; cbn [rbind resmap]; auto.
    rewrite gadd_sg_map. reflexivity.
  Qed.
  Lemma gatanh_d_map d : h (e_atanh (constant_cf d)) = e_atanh (h (constant_cf d)) -> gatanh_d (gmapc d) = resmap (gatanh_d d).
  Proof.
    intros H. unfold gatanh_d. rewrite cc_map, <- H, gmul_map. rewrite <- (hom_1 h), gsub_sg_map, gdiv_sg_map. apply compose_map.
  Qed.
  Lemma gatan_d_map d : h (e_atan (constant_cf d)) = e_atan (h (constant_cf d)) -> gatan_d (gmapc d) = resmap (gatan_d d).
  Proof.
    intros H. unfold gatan_d. rewrite cc_map, <- H, gmul_map. rewrite <- (hom_1 h), gadd_sg_map, gdiv_sg_map. apply compose_map.
  Qed.
End Gmap.
