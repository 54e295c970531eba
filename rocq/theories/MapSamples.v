(** * Concrete Taylor maps used by the examples and counterexamples. *)
From Coq Require Import String Ascii List Arith Bool ZArith QArith Qcanon Lia.
From Verif Require Import Ops Syms Poly Gdual Functions Spec CoefFacts CoreProofs ValueProofs MiscProofs Samples InvertMap SpecMaps Compose MapProofs InvertSem InvertProofs InvertMain InvertFinal.
Import ListNotations.
Open Scope string_scope. Open Scope list_scope. Open Scope nat_scope.

(** Exact linear algebra on the rationals: Gauss-Jordan elimination. *)
Section LA.
  Definition rscale (c : Qc) (r : list Qc) : list Qc := map (fun x => c * x)%Qc r.
  Definition rsub (r p : list Qc) (c : Qc) : list Qc := map (fun xy => fst xy - c * snd xy)%Qc (combine r p).
  Fixpoint pick (j : nat) (rows : list (list Qc)) : option (list Qc * list (list Qc)) :=
    match rows with
    | [] => None
    | r :: rows' => if keqb (nth j r k0) k0 then match pick j rows' with Some (p, o) => Some (p, r :: o) | None => None end
                    else Some (r, rows')
    end.
  Fixpoint gauss (n j : nat) (done rows : list (list Qc)) (det : Qc) : list (list Qc) * Qc :=
    match n with
    | O => (done, det)
    | S n' => match pick j rows with
              | None => (done ++ rows, k0)
              | Some (p, others) =>
                  let c := nth j p k0 in
                  let p1 := rscale (/ c)%Qc p in
                  gauss n' (S j) (map (fun r => rsub r p1 (nth j r k0)) done ++ [p1]) (map (fun r => rsub r p1 (nth j r k0)) others) (det * c)%Qc
              end
    end.
  Definition augment (m : list (list Qc)) : list (list Qc) :=
    map (fun i => nth i m [] ++ map (fun j => if Nat.eqb i j then k1 else k0) (seq 0 (length m))) (seq 0 (length m)).
  (** (the determinant up to its sign) *)
  Definition gdet (m : list (list Qc)) : Qc := snd (gauss (length m) 0 [] m k1).
  Definition ginv (m : list (list Qc)) : list (list Qc) := map (skipn (length m)) (fst (gauss (length m) 0 [] (augment m) k1)).
End LA.
#[global] Instance LinalgQ : Linalg Qc := mkLinalg Qc gdet ginv.

Definition isone (n : nat) (a b : list (list Qc)) : bool :=
  forallb (fun i => forallb (fun k => keqb (sum_list (fun j => kmul (entry a i j) (entry b j k)) (seq 0 n)) (if Nat.eqb i k then k1 else k0)) (seq 0 n)) (seq 0 n).
Lemma isone_spec n a b : isone n a b = true -> product_is_one n a b.
Proof.
  unfold isone. rewrite forallb_forall. intros H i k Hi Hk. specialize (H i ltac:(apply in_seq; lia)). rewrite forallb_forall in H.
  specialize (H k ltac:(apply in_seq; lia)). apply fl_eqb in H. exact H.
Qed.

Definition okg (r : res (gdual Qc)) : gdual Qc := match r with Ok g => g | Throw _ => gconst (q 0) end.
Definition var0 (s : string) (n : nat) : gdual Qc := okg (gvar (q 0) s n).
Definition ext (l : list string) (g : gdual Qc) : gdual Qc := okg (extend_symbol_set l g).
Lemma ext_valid l g : valid g -> valid (ext l g).
Proof. intros H. unfold ext, okg. destruct (extend_symbol_set l g) eqn:E; [eapply extend_den; eauto|]. apply valid_const. Qed.
Lemma var0_valid s n : valid (var0 s n).
Proof. unfold var0, okg. destruct (gvar (q 0) s n) eqn:E; [eapply x2_valid; eauto|]. apply valid_const. Qed.
Lemma map_eqb_ok (r : res (list (gdual Qc))) : (match r with Ok _ => true | Throw _ => false end) = true -> exists l, r = Ok l.
Proof. destruct r; eauto; discriminate. Qed.

(** (2x + y + xy, x + y + y^2 + x^3) at order 3 *)
Definition mx : gdual Qc := var0 "x" 3.
Definition my : gdual Qc := var0 "y" 3.
Definition f2 : list (gdual Qc) :=
  [gadd (gadd (gmul_sg (q 2) mx) my) (gmul mx my); gadd (gadd mx my) (gadd (gmul my my) (gmul mx (gmul mx mx)))].
(** the same with the variables named p0 and p1 *)
Definition mp0 : gdual Qc := var0 "p0" 3.
Definition mp1 : gdual Qc := var0 "p1" 3.
Definition fp : list (gdual Qc) := [gadd mp0 (gmul mp1 mp1); gadd (gadd mp1 mp0) (gmul mp0 mp0)].

(** Deciding validity. *)
Fixpoint sortedb (l : list string) : bool :=
  match l with
  | [] => true
  | a :: l' => forallb (fun b => match String.compare a b with Lt => true | _ => false end) l' && sortedb l'
  end.
Fixpoint nodupk (l : list key) : bool := match l with [] => true | k :: l' => negb (if in_dec (list_eq_dec Nat.eq_dec) k l' then true else false) && nodupk l' end.
Definition validb (g : gdual Qc) : bool :=
  sortedb (psyms (gp g)) && nodupk (map fst (pterms (gp g))) &&
  forallb (fun t => Nat.eqb (length (fst t)) (length (psyms (gp g))) && negb (keqb (snd t) k0) && Nat.leb (list_sum (fst t)) (gord g)) (pterms (gp g)).
Lemma validb_spec g : validb g = true -> valid g.
Proof.
  unfold validb. rewrite !andb_true_iff. intros [[S N] F]. rewrite forallb_forall in F.
  assert (F' : forall t, In t (pterms (gp g)) -> length (fst t) = length (psyms (gp g)) /\ keqb (snd t) k0 = false /\ list_sum (fst t) <= gord g).
  { intros t Ht. specialize (F t Ht). rewrite !andb_true_iff in F. destruct F as [[A B] C]. apply Nat.eqb_eq in A. apply negb_true_iff in B.
    apply Nat.leb_le in C. auto. }
  split; try (intros t Ht; apply F'; exact Ht).
  - clear - S. induction (psyms (gp g)) as [|a l IH]; constructor; cbn [sortedb] in S; apply andb_true_iff in S; destruct S as [S1 S2]; auto.
    rewrite forallb_forall in S1. apply Forall_forall. intros b Hb. specialize (S1 b Hb). destruct (String.compare a b); auto; discriminate.
  - clear - N. induction (map fst (pterms (gp g))) as [|a l IH]; constructor; cbn [nodupk] in N; apply andb_true_iff in N; destruct N as [N1 N2]; auto.
    destruct (in_dec (list_eq_dec Nat.eq_dec) a l); auto. discriminate.
Qed.
Lemma validb_all l : forallb validb l = true -> Forall valid l.
Proof. intros H. rewrite forallb_forall in H. apply Forall_forall. intros g Hg. apply validb_spec. auto. Qed.
(** "d..." names *)
Definition diffb (V : list string) : bool := forallb (fun s => match s with String c _ => if Ascii.ascii_dec c "d"%char then true else false | EmptyString => false end) V.
Lemma diffb_spec V : diffb V = true -> differentials V.
Proof.
  unfold diffb. rewrite forallb_forall. intros H s Hs. specialize (H s Hs). destruct s as [|c s]; [discriminate|].
  destruct (Ascii.ascii_dec c "d"%char); [subst|discriminate]. exists s. reflexivity.
Qed.
Lemma diffb_all (f : list (gdual Qc)) : forallb (fun g => diffb (psyms (gp g))) f = true -> forall g, In g f -> differentials (psyms (gp g)).
Proof. rewrite forallb_forall. intros H g Hg. apply diffb_spec. auto. Qed.
Definition disjb (l l' : list string) : bool := forallb (fun s => negb (existsb (String.eqb s) l')) l.
Lemma disjb_spec l l' : disjb l l' = true -> forall s, In s l -> ~ In s l'.
Proof.
  unfold disjb. rewrite forallb_forall. intros H s Hs X. specialize (H s Hs). apply negb_true_iff in H.
  rewrite <- not_true_iff_false in H. apply H. apply existsb_exists. exists s. split; auto. apply String.eqb_refl.
Qed.
Definition freshb (n : nat) (V : list string) : bool := disjb (map dp_name (seq 0 n)) V.
Lemma freshb_spec n V : freshb n V = true -> forall j, j < n -> ~ In (dp_name j) V.
Proof. intros H j Hj. apply (disjb_spec _ _ H). apply in_map. apply in_seq. lia. Qed.

Definition okm (r : res (list (gdual Qc))) : list (gdual Qc) := match r with Ok l => l | Throw _ => [] end.
Lemma okm_Ok (r : res (list (gdual Qc))) : match r with Ok _ => true | Throw _ => false end = true -> r = Ok (okm r).
Proof. destruct r; auto; discriminate. Qed.
Lemma q_keqb (a b : Qc) : keqb a b = false -> a <> b.
Proof. intros H E. subst. assert (X : keqb b b = true) by (apply fl_eqb; reflexivity). congruence. Qed.

(** Composition with a component whose constant part is not zero: [x y] at
    order 2 with x := p0^2 and y := 1 + p1. *)
Definition cA : list (gdual Qc) := [gmul (var0 "x" 2) (var0 "y" 2)].
Definition cB : list (gdual Qc) := [gmul (var0 "p0" 2) (var0 "p0" 2); okg (gvar (q 1) "p1" 2)].
Lemma compose_counterexample : exists (A B : list (gdual Qc)),
  Forall valid A /\ Forall valid B /\ 0 < length A /\ differentials (variables A) /\ length B <= length (variables A) /\
  (forall b s, In b B -> In s (variables A) -> ~ In s (psyms (gp b))) /\
  exists c, is_composition c (nth 0 A gdefault) (variables A) B /\
    ~ truncation_of (nth 0 (tcompose A B) gdefault) c (get_order (nth 0 A gdefault)).
Proof.
  exists cA, cB. assert (VA : Forall valid cA) by (apply validb_all; vm_compute; reflexivity).
  assert (VB : Forall valid cB) by (apply validb_all; vm_compute; reflexivity).
  assert (D : forall b s, In b cB -> In s (variables cA) -> ~ In s (psyms (gp b))).
  { assert (X : forallb (fun b => disjb (variables cA) (psyms (gp b))) cB = true) by (vm_compute; reflexivity).
    rewrite forallb_forall in X. intros b s Hb Hs. exact (disjb_spec _ _ (X b Hb) s Hs). }
  split; auto. split; auto. split; [simpl; lia|]. split; [apply diffb_spec; vm_compute; reflexivity|]. split; [vm_compute; lia|].
  split; auto. assert (Va : valid (nth 0 cA gdefault)) by (rewrite Forall_forall in VA; apply VA; left; reflexivity).
  exists (gcseq (combine (variables cA) cB) (nth 0 cA gdefault)). split.
  - split; [apply gcseq_valid; [exact Va|exact (combine_Forall valid _ _ VB)]|]. intros rho. exact (gcseq_value _ _ _ rho Va VB D).
  - intros H. specialize (H ["dp0"] [2] ltac:(repeat constructor; auto) eq_refl). revert H. apply q_keqb. vm_compute. reflexivity.
Qed.

(** Eleven variables: the identity map at order 2. *)
Definition names11 : list string := ["a"; "b"; "c"; "e"; "f"; "g"; "h"; "i"; "j"; "k"; "l"].
Definition f11 : list (gdual Qc) := map (fun s => ext (map dsym names11) (var0 s 2)) names11.
Definition r11 : list (gdual Qc) := okm (invert_map f11).
Lemma eleven_counterexample : exists (f r : list (gdual Qc)),
  Forall valid f /\ (forall g, In g f -> differentials (psyms (gp g))) /\
  (forall j, j < length f -> ~ In (dp_name j) (variables f)) /\
  product_is_one (length f) (linear_part (variables f) f) (la_inv (linear_part (variables f) f)) /\
  (forall g, In g f -> constant_cf g = k0) /\
  invert_map f = Ok r /\ length f = 11 /\
  exists c, is_composition c (nth 2 f gdefault) (variables f) r /\ ~ is_affine (get_order (nth 2 f gdefault)) c k0 (dp_name 2).
Proof.
  exists f11, r11. assert (VA : Forall valid f11) by (apply validb_all; vm_compute; reflexivity).
  split; auto. split; [apply diffb_all; vm_compute; reflexivity|]. split; [apply freshb_spec; vm_compute; reflexivity|].
  split; [apply isone_spec; vm_compute; reflexivity|]. split.
  { assert (X : forallb (fun g => keqb (constant_cf g) k0) f11 = true) by (vm_compute; reflexivity). rewrite forallb_forall in X.
    intros g Hg. apply fl_eqb. auto. }
  split; [apply okm_Ok; vm_compute; reflexivity|]. split; [reflexivity|].
  assert (VB : Forall valid r11) by (apply validb_all; vm_compute; reflexivity).
  assert (D : forall b s, In b r11 -> In s (variables f11) -> ~ In s (psyms (gp b))).
  { assert (X : forallb (fun b => disjb (variables f11) (psyms (gp b))) r11 = true) by (vm_compute; reflexivity).
    rewrite forallb_forall in X. intros b s Hb Hs. exact (disjb_spec _ _ (X b Hb) s Hs). }
  assert (Va : valid (nth 2 f11 gdefault)) by (rewrite Forall_forall in VA; apply VA; apply nth_In; vm_compute; lia).
  exists (gcseq (combine (variables f11) r11) (nth 2 f11 gdefault)). split.
  - split; [apply gcseq_valid; [exact Va|exact (combine_Forall valid _ _ VB)]|]. intros rho. exact (gcseq_value _ _ _ rho Va VB D).
  - intros H. assert (L : list_sum [1] <= get_order (nth 2 f11 gdefault)) by (apply Nat.leb_le; vm_compute; reflexivity).
    specialize (H ["dp2"] [1] ltac:(repeat constructor; auto) eq_refl L). revert H. apply q_keqb. vm_compute. reflexivity.
Qed.

(** Variables called p0 and p1. *)
Definition rp : list (gdual Qc) := okm (invert_map fp).
Definition up (g : gdual Qc) : gdual Qc := mkG (gp g) 6.
Definition cp : gdual Qc := gadd (gadd (up (nth 1 rp gdefault)) (up (nth 0 rp gdefault))) (gmul (up (nth 0 rp gdefault)) (up (nth 0 rp gdefault))).
Lemma var0_value s n (rho : string -> Qc) : n <> 0 -> (Z.of_nat n < 4294967285)%Z -> check_var_name s = Ok tt -> value (var0 s n) rho = rho (dsym s).
Proof.
  intros Hn Hb Hs. unfold var0, okg. destruct (gvar (q 0) s n) eqn:E.
  - rewrite (gvar_value _ _ _ _ _ E). destruct (Nat.eqb_spec n 0); [contradiction|]. exact (Qcplus_0_l (rho (dsym s))).
  - exfalso. unfold gvar, check_order, two32 in E. destruct (Z.leb_spec (4294967296 - 1 - 10) (Z.of_nat n)); [lia|]. cbn [rbind] in E.
    rewrite Hs in E. cbn [rbind] in E. destruct (Nat.eqb n 0); unfold extend_symbol_set in E; simpl in E; discriminate.
Qed.
Lemma up_value g rho : value (up g) rho = value g rho.
Proof. reflexivity. Qed.
Lemma poly_value (R0 R1 : gdual Qc) rho : valid R0 -> valid R1 -> gdegree R0 + gdegree R0 <= Nat.max (gord R0) (gord R0) ->
  value (gadd (gadd R1 R0) (gmul R0 R0)) rho = kadd (kadd (value R1 rho) (value R0 rho)) (kmul (value R0 rho) (value R0 rho)).
Proof.
  intros V0 V1 H. rewrite (value_add (gadd R1 R0) (gmul R0 R0)) by (try apply valid_add; try apply valid_mul; auto).
  rewrite value_add by auto. rewrite value_mul by auto. reflexivity.
Qed.
Lemma clash_counterexample : exists (f r : list (gdual Qc)),
  Forall valid f /\ (forall g, In g f -> differentials (psyms (gp g))) /\ length f = 2 /\
  product_is_one (length f) (linear_part (variables f) f) (la_inv (linear_part (variables f) f)) /\
  (forall g, In g f -> constant_cf g = k0) /\
  invert_map f = Ok r /\
  exists c, is_composition c (nth 1 f gdefault) (variables f) r /\ ~ is_affine (get_order (nth 1 f gdefault)) c k0 (dp_name 1).
Proof.
  exists fp, rp. assert (VA : Forall valid fp) by (apply validb_all; vm_compute; reflexivity).
  split; auto. split; [apply diffb_all; vm_compute; reflexivity|]. split; [reflexivity|].
  split; [apply isone_spec; vm_compute; reflexivity|]. split.
  { assert (X : forallb (fun g => keqb (constant_cf g) k0) fp = true) by (vm_compute; reflexivity). rewrite forallb_forall in X.
    intros g Hg. apply fl_eqb. auto. }
  split; [apply okm_Ok; vm_compute; reflexivity|].
  assert (V0 : valid (up (nth 0 rp gdefault))) by (apply validb_spec; vm_compute; reflexivity).
  assert (V1 : valid (up (nth 1 rp gdefault))) by (apply validb_spec; vm_compute; reflexivity).
  exists cp. split; [split|].
  - exact (valid_add _ _ (valid_add _ _ V1 V0) (valid_mul _ _ V0 V0)).
  - intros rho. unfold cp.
    assert (D0 : gdegree (up (nth 0 rp gdefault)) + gdegree (up (nth 0 rp gdefault)) <= Nat.max (gord (up (nth 0 rp gdefault))) (gord (up (nth 0 rp gdefault))))
      by (apply Nat.leb_le; vm_compute; reflexivity).
    assert (D1 : gdegree mp0 + gdegree mp0 <= Nat.max (gord mp0) (gord mp0)) by (apply Nat.leb_le; vm_compute; reflexivity).
    rewrite (poly_value _ _ rho V0 V1 D0).
    assert (F1 : nth 1 fp gdefault = gadd (gadd mp1 mp0) (gmul mp0 mp0)) by reflexivity. rewrite F1.
    rewrite (poly_value mp0 mp1 _ (var0_valid _ _) (var0_valid _ _) D1).
    unfold mp0, mp1. rewrite !var0_value by (try discriminate; vm_compute; reflexivity).
    change (variables fp) with ["dp0"; "dp1"].
    assert (L : rp = [nth 0 rp gdefault; nth 1 rp gdefault]) by (vm_compute; reflexivity).
    rewrite !up_value.
    revert L. generalize (nth 0 rp gdefault) (nth 1 rp gdefault). intros R0 R1 L. rewrite L. reflexivity.
  - intros H. assert (L : list_sum [3] <= get_order (nth 1 fp gdefault)) by (apply Nat.leb_le; vm_compute; reflexivity).
    specialize (H ["dp0"] [3] ltac:(repeat constructor; auto) eq_refl L). revert H. apply q_keqb. vm_compute. reflexivity.
Qed.

(** x / 10^11: invertible, but rejected. *)
Definition ftiny : list (gdual Qc) := [gmul_sg (qf 1 100000000000) (var0 "x" 2)].
Lemma tiny_counterexample : exists (f : list (gdual Qc)),
  Forall valid f /\ (forall g, In g f -> differentials (psyms (gp g))) /\ length f = 1 /\ length (variables f) = 1 /\
  (forall j, j < length f -> ~ In (dp_name j) (variables f)) /\
  product_is_one (length f) (linear_part (variables f) f) (la_inv (linear_part (variables f) f)) /\
  (forall g, In g f -> constant_cf g = k0) /\ invert_map f = Throw InvalidArgument.
Proof.
  exists ftiny. split; [apply validb_all; vm_compute; reflexivity|]. split; [apply diffb_all; vm_compute; reflexivity|].
  split; [reflexivity|]. split; [reflexivity|]. split; [apply freshb_spec; vm_compute; reflexivity|].
  split; [apply isone_spec; vm_compute; reflexivity|]. split.
  { assert (X : forallb (fun g => keqb (constant_cf g) k0) ftiny = true) by (vm_compute; reflexivity). rewrite forallb_forall in X.
    intros g Hg. apply fl_eqb. auto. }
  vm_compute. reflexivity.
Qed.

(** The sample map and its inverse. *)
Definition r2 : list (gdual Qc) := okm (invert_map f2).
Lemma cc0_all (f : list (gdual Qc)) : forallb (fun g => keqb (constant_cf g) k0) f = true -> forall g, In g f -> constant_cf g = k0.
Proof. rewrite forallb_forall. intros X g Hg. apply fl_eqb. auto. Qed.
Lemma compose_sample :
  Forall valid f2 /\ Forall valid r2 /\ differentials (variables f2) /\ length r2 <= length (variables f2) /\
  (forall b s, In b r2 -> In s (variables f2) -> ~ In s (psyms (gp b))) /\
  (forall b, In b r2 -> constant_cf b = k0) /\ length (pterms (gp (nth 0 r2 gdefault))) = 9 /\
  forallb (fun gh => geqb (fst gh) (snd gh)) (combine (tcompose f2 r2) [var0 "p0" 3; var0 "p1" 3]) = true.
Proof.
  split; [apply validb_all; vm_compute; reflexivity|]. split; [apply validb_all; vm_compute; reflexivity|].
  split; [apply diffb_spec; vm_compute; reflexivity|]. split; [apply Nat.leb_le; vm_compute; reflexivity|]. split.
  { assert (X : forallb (fun b => disjb (variables f2) (psyms (gp b))) r2 = true) by (vm_compute; reflexivity).
    rewrite forallb_forall in X. intros b s Hb Hs. exact (disjb_spec _ _ (X b Hb) s Hs). }
  split; [apply cc0_all; vm_compute; reflexivity|]. split; vm_compute; reflexivity.
Qed.
Lemma invert_sample :
  Forall valid f2 /\ (forall g, In g f2 -> differentials (psyms (gp g))) /\ length f2 = 2 /\
  (forall j, j < length f2 -> ~ In (dp_name j) (variables f2)) /\
  product_is_one (length f2) (linear_part (variables f2) f2) (la_inv (linear_part (variables f2) f2)) /\
  product_is_one (length f2) (la_inv (linear_part (variables f2) f2)) (linear_part (variables f2) f2) /\
  (forall g, In g f2 -> constant_cf g = k0) /\
  invertible_map la_det f2 /\ invert_map f2 = Ok r2.
Proof.
  split; [apply validb_all; vm_compute; reflexivity|]. split; [apply diffb_all; vm_compute; reflexivity|].
  split; [reflexivity|]. split; [apply freshb_spec; vm_compute; reflexivity|].
  split; [apply isone_spec; vm_compute; reflexivity|]. split; [apply isone_spec; vm_compute; reflexivity|].
  split; [apply cc0_all; vm_compute; reflexivity|].
  assert (E : invert_map f2 = Ok r2) by (apply okm_Ok; vm_compute; reflexivity). split; [|exact E].
  split; [discriminate|]. split; [|split].
  - assert (X : forallb (fun g => Nat.eqb (get_order g) 3 && strings_eqb (psyms (gp g)) ["dx"; "dy"]) f2 = true) by (vm_compute; reflexivity).
    rewrite forallb_forall in X. intros g h Hg Hh. apply X in Hg, Hh. rewrite andb_true_iff in *. rewrite Nat.eqb_eq, strings_eqb_spec in *.
    destruct Hg, Hh. split; congruence.
  - assert (X : forallb (fun g => Nat.eqb (get_order g) 3 && strings_eqb (psyms (gp g)) ["dx"; "dy"]) f2 = true) by (vm_compute; reflexivity).
    rewrite forallb_forall in X. intros g Hg. apply X in Hg. rewrite andb_true_iff, Nat.eqb_eq, strings_eqb_spec in Hg.
    destruct Hg as [-> ->]. split; [reflexivity|]. split; [apply Nat.leb_le; reflexivity|reflexivity].
  - vm_compute. reflexivity.
Qed.
