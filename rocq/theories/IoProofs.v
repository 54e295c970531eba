(** * Text output (proof file) *)
From Coq Require Import String Ascii List Arith Bool Lia.
From Verif Require Import Ops Syms Poly Gdual Interval TaylorModel Io SpecIo.
Import ListNotations.
Local Open Scope string_scope.

Lemma app_assoc_s (a b c : string) : (a ++ b) ++ c = a ++ (b ++ c).
Proof. induction a; cbn; [reflexivity|]. now rewrite IHa. Qed.
Lemma app_nil_s (a : string) : a ++ "" = a.
Proof. induction a; cbn; [reflexivity|]. now rewrite IHa. Qed.
Lemma append_length (a b : string) : String.length (a ++ b) = String.length a + String.length b.
Proof. induction a; cbn; [reflexivity|]. now rewrite IHa. Qed.
Lemma joined_cons sep a l : joined sep (a :: l) = a ++ match l with [] => "" | _ => sep ++ joined sep l end.
Proof. unfold joined. destruct l; cbn [String.concat]; [now rewrite app_nil_s|reflexivity]. Qed.
Lemma fold_app {A} (f : A -> string) l : forall a, fold_left (fun os i => os ++ f i) l a = a ++ fold_left (fun os i => os ++ f i) l "".
Proof.
  induction l as [|i l IH]; intros a; cbn [fold_left]; [now rewrite app_nil_s|]. rewrite IH, (IH ("" ++ f i)). cbn. apply app_assoc_s.
Qed.

Section Vec.
  Context {A : Type} (sh : A -> string).
  Lemma terminated (v : list A) : forall w, fold_left (fun os i => os ++ at_index sh (v ++ w) i ++ ", ") (seq 0 (length v)) "" =
    match v with [] => "" | _ => joined ", " (map sh v) ++ ", " end.
  Proof.
    induction v as [|x v IH] using rev_ind; intros w; [reflexivity|]. rewrite app_length, seq_app, fold_left_app. cbn [length seq fold_left plus Nat.add].
    rewrite <- app_assoc. rewrite IH. cbn [app]. unfold at_index. rewrite nth_error_app2, Nat.sub_diag by lia. cbn [nth_error].
    rewrite map_app. cbn [map]. assert (J : forall l y, joined ", " (l ++ [y]) = match l with [] => y | _ => joined ", " l ++ ", " ++ y end).
    { induction l as [|a l IHl]; intros y; [reflexivity|]. cbn [app]. rewrite !joined_cons. rewrite IHl. destruct l as [|b l]; cbn [app].
      - now rewrite app_nil_s.
      - now rewrite !app_assoc_s. }
    rewrite J. destruct v as [|y v].
    - cbn [map app]. reflexivity.
    - cbn [map app]. now rewrite !app_assoc_s.
  Qed.
  Lemma joined_snoc sep l y : joined sep (l ++ [y]) = match l with [] => y | _ => joined sep l ++ sep ++ y end.
  Proof.
    induction l as [|a l IHl]; [reflexivity|]. cbn [app]. rewrite !joined_cons. rewrite IHl. destruct l as [|b l]; cbn [app].
    - now rewrite app_nil_s.
    - now rewrite !app_assoc_s.
  Qed.
  Lemma long_text (v : list A) : (5 < length v)%nat ->
    fold_left (fun os i => os ++ at_index sh v i ++ ", ") (seq 0 max_output) "[" ++ "... ]" = "[" ++ joined ", " (map sh (firstn 5 v) ++ ["... ]"]).
  Proof.
    intros L. rewrite fold_app. assert (T := terminated (firstn 5 v) (skipn 5 v)). rewrite firstn_skipn in T. rewrite firstn_length_le in T by lia.
    unfold max_output. rewrite T. rewrite joined_snoc. destruct (firstn 5 v) eqn:E; [destruct v; cbn in *; [lia|discriminate]|].
    cbn [map]. now rewrite !app_assoc_s.
  Qed.
  Lemma vector_text (v : list A) : stream_vector sh v =
    "[" ++ joined ", " (map sh (firstn 5 v) ++ if Nat.leb (length v) 5 then [] else ["... ]"]) ++ if Nat.leb (length v) 5 then "]" else "".
  Proof.
    unfold stream_vector. change max_output with 5 at 1. destruct (Nat.leb_spec (length v) 5) as [L|L].
    - rewrite firstn_all2, app_nil_r by auto. rewrite fold_app. rewrite app_assoc_s. f_equal. f_equal.
      destruct v as [|x v] using rev_ind; [reflexivity|]. clear IHv. rewrite app_length. cbn [length]. replace (length v + 1 - 1) with (length v) by lia.
      rewrite seq_app, fold_left_app. cbn [seq fold_left Nat.add plus].
      assert (E : forall a, fold_left (fun os i => os ++ at_index sh (v ++ [x]) i ++ (if Nat.eqb i (length v) then "" else ", ")) (seq 0 (length v)) a =
                  fold_left (fun os i => os ++ at_index sh (v ++ [x]) i ++ ", ") (seq 0 (length v)) a).
      { assert (forall i, In i (seq 0 (length v)) -> i < length v) as Q by (intros i Hi; apply in_seq in Hi; lia). revert Q. generalize (seq 0 (length v)).
        induction l as [|i l IH]; intros Q a; cbn [fold_left]; [reflexivity|]. rewrite IH by (intros; apply Q; right; auto).
        assert (Y := Q i (or_introl eq_refl)). destruct (Nat.eqb_spec i (length v)); [lia|reflexivity]. }
      rewrite E, terminated. unfold at_index. rewrite nth_error_app2, Nat.sub_diag, Nat.eqb_refl by lia. cbn [nth_error]. rewrite app_nil_s.
      rewrite map_app. cbn [map]. rewrite joined_snoc. destruct v; [reflexivity|]. cbn [map]. now rewrite !app_assoc_s.
    - rewrite app_nil_s. apply long_text. auto.
  Qed.
  Lemma vectorized_snoc (v : list A) x : stream_vectorized sh (v ++ [x]) = Some (stream_vector sh (v ++ [x])).
  Proof.
    rewrite vector_text. unfold stream_vectorized. rewrite app_length, Nat.add_comm. cbn [length Nat.add]. f_equal. change max_output with 5 at 1.
    destruct (Nat.leb_spec (S (length v)) 5) as [L|L].
    - rewrite firstn_all2, app_nil_r by (rewrite app_length; cbn; lia). rewrite fold_app, app_assoc_s. f_equal.
      rewrite terminated. unfold at_index. rewrite nth_error_app2, Nat.sub_diag by lia. cbn [nth_error].
      rewrite map_app. cbn [map]. rewrite joined_snoc. destruct v; [reflexivity|]. cbn [map]. now rewrite !app_assoc_s.
    - rewrite app_nil_s. apply long_text. rewrite app_length. cbn. lia.
  Qed.
  Lemma vectorized_text (v : list A) : stream_vectorized sh v = match v with [] => None | _ => Some (stream_vector sh v) end.
  Proof.
    destruct v as [|a v]; [reflexivity|]. destruct (@exists_last _ (a :: v)) as (w & x & E); [discriminate|]. rewrite E. rewrite vectorized_snoc. destruct w; reflexivity.
  Qed.
End Vec.

(** ** Maps *)
Section MapText.
  Context {A B : Type} (sh : A -> string) (shd : B -> string).
  Definition entry (e : A * B) : string := sh (fst e) ++ " : " ++ shd (snd e).
  Lemma map_loop_text (m : list (A * B)) : forall c, (c <= 5)%nat -> stream_map_loop sh shd c m =
    joined ",  " (map entry (firstn (5 - c) m) ++ if Nat.leb (length m) (5 - c) then [] else ["..."]).
  Proof.
    induction m as [|e m IH]; intros c L; cbn [stream_map_loop]; [now rewrite firstn_nil|]. unfold max_output. destruct (Nat.eqb_spec c 5) as [->|N].
    - reflexivity.
    - replace (5 - c) with (S (5 - S c)) by lia. cbn [firstn map app length]. rewrite joined_cons, IH by lia. change (Nat.leb (S (length m)) (S (5 - S c))) with (Nat.leb (length m) (5 - S c)).
      change (entry e) with (sh (fst e) ++ " : " ++ shd (snd e)). rewrite !app_assoc_s. do 3 f_equal. destruct m as [|e' m].
      + rewrite firstn_nil. reflexivity.
      + destruct (firstn (5 - S c) (e' :: m)) eqn:F; [|reflexivity]. destruct (5 - S c) eqn:Z; [|discriminate]. reflexivity.
  Qed.
  Lemma map_text m : stream_map sh shd m = "{" ++ joined ",  " (map entry (firstn 5 m) ++ if Nat.leb (length m) 5 then [] else ["..."]) ++ "}".
  Proof. unfold stream_map. rewrite map_loop_text by lia. reflexivity. Qed.
End MapText.
Lemma first_fold {E} (f : E -> string) (g : string * bool -> E -> string * bool) :
  (forall os fi e, g (os, fi) e = (os ++ (if fi : bool then "" else ", ") ++ f e, false)) ->
  forall m os, fst (fold_left g m (os, true)) = os ++ joined ", " (map f m).
Proof.
  intros G m os. destruct m as [|e m]; [now rewrite app_nil_s|]. cbn [fold_left map]. rewrite G. cbn [append].
  assert (H : forall m os, fst (fold_left g m (os, false)) = os ++ match m with [] => "" | _ => ", " ++ joined ", " (map f m) end).
  { clear - G. induction m as [|e m IH]; intros os; [now rewrite app_nil_s|]. cbn [fold_left map]. rewrite G, IH, joined_cons. rewrite !app_assoc_s. do 3 f_equal. destruct m; reflexivity. }
  rewrite H, joined_cons, app_assoc_s. do 2 f_equal. destruct m; reflexivity.
Qed.
Lemma var_map_text {K} (sh : K -> string) m : stream_var_map sh m = "{" ++ joined ", " (map (fun e => fst e ++ ": " ++ sh (snd e)) m) ++ "}".
Proof. unfold stream_var_map. rewrite (first_fold (fun e => fst e ++ ": " ++ sh (snd e))); [apply app_assoc_s|]. intros os fi [k v]. reflexivity. Qed.
Lemma var_map_i_text {K} (sh : K -> string) m : stream_var_map_i sh m =
  "{" ++ joined ", " (map (fun e => fst e ++ ":[" ++ sh (fst (snd e)) ++ ", " ++ sh (snd (snd e)) ++ "]") m) ++ "}".
Proof. unfold stream_var_map_i. rewrite (first_fold (fun e => fst e ++ ":[" ++ sh (fst (snd e)) ++ ", " ++ sh (snd (snd e)) ++ "]")); [apply app_assoc_s|]. intros os fi [k v]. reflexivity. Qed.

(** ** Reading a vector back *)
Fixpoint nocomma (s : string) : Prop := match s with "" => True | String c s' => c <> ","%char /\ nocomma s' end.
Lemma plain_nocomma s : plain s -> nocomma s.
Proof.
  intros [_ H]. induction s as [|c s IH]; cbn; [auto|]. split.
  - intros ->. exact (H 0 eq_refl).
  - apply IH. intros i. exact (H (S i)).
Qed.
Lemma split_comma a b x y : nocomma a -> nocomma b -> a ++ String "," x = b ++ String "," y -> a = b /\ x = y.
Proof.
  revert b. induction a as [|c a IH]; intros [|d b] Ha Hb E; cbn in *.
  - inversion E. auto.
  - inversion E. subst. tauto.
  - inversion E. subst. tauto.
  - inversion E. subst. destruct (IH b) as [-> ->]; tauto.
Qed.
Lemma comma_free a b x : nocomma a -> nocomma b -> a = b ++ String "," x -> False.
Proof.
  revert b. induction a as [|c a IH]; intros [|d b] Ha Hb E; cbn in *; try discriminate.
  - inversion E. subst. tauto.
  - inversion E. subst. apply (IH b); tauto.
Qed.
Lemma joined_inj l : forall l', Forall plain l -> Forall plain l' -> joined ", " l = joined ", " l' -> l = l'.
Proof.
  induction l as [|a l IH]; intros [|b l'] Hl Hl' E.
  - reflexivity.
  - inversion Hl' as [|? ? [N _]]; subst. rewrite joined_cons in E. destruct b; [congruence|discriminate].
  - inversion Hl as [|? ? [N _]]; subst. rewrite joined_cons in E. destruct a; [congruence|discriminate].
  - inversion Hl as [|? ? Pa Pl]; inversion Hl' as [|? ? Pb Pl']; subst. rewrite !joined_cons in E. assert (Na := plain_nocomma _ Pa). assert (Nb := plain_nocomma _ Pb).
    destruct l as [|a2 l], l' as [|b2 l'].
    + rewrite !app_nil_s in E. now subst.
    + exfalso. rewrite app_nil_s in E. exact (comma_free _ _ _ Na Nb E).
    + exfalso. rewrite app_nil_s in E. exact (comma_free _ _ _ Nb Na (eq_sym E)).
    + change (", " ++ joined ", " (a2 :: l)) with (String "," (String " " (joined ", " (a2 :: l)))) in E.
      change (", " ++ joined ", " (b2 :: l')) with (String "," (String " " (joined ", " (b2 :: l')))) in E.
      apply split_comma in E; auto. destruct E as [-> E]. inversion E. f_equal. apply IH; auto.
Qed.
Fixpoint commas (s : string) : nat := match s with "" => 0 | String c s' => (if Ascii.eqb c "," then 1 else 0) + commas s' end.
Lemma commas_app a b : commas (a ++ b) = commas a + commas b.
Proof. induction a; cbn; [reflexivity|]. rewrite IHa. lia. Qed.
Lemma commas_free a : nocomma a -> commas a = 0.
Proof. induction a as [|c a IH]; cbn; [auto|]. intros [N H]. rewrite IH by auto. destruct (Ascii.eqb_spec c ","); [congruence|reflexivity]. Qed.
Lemma commas_joined l : Forall plain l -> commas (joined ", " l) = length l - 1.
Proof.
  induction 1 as [|a l Pa Pl IH]; [reflexivity|]. rewrite joined_cons, commas_app, (commas_free a) by (apply plain_nocomma; auto).
  destruct l; [reflexivity|]. rewrite commas_app, IH. cbn. lia.
Qed.
Lemma app_inj_r (a b c : string) : a ++ c = b ++ c -> a = b.
Proof.
  revert b. induction a as [|x a IH]; intros [|y b] E; cbn in E; try reflexivity.
  - exfalso. apply (f_equal String.length) in E. cbn in E. rewrite append_length in E. lia.
  - exfalso. apply (f_equal String.length) in E. cbn in E. rewrite append_length in E. lia.
  - inversion E. f_equal. eauto.
Qed.
Lemma dots_plain : plain "... ]".
Proof. split; [discriminate|]. intros i. do 6 (destruct i as [|i]; [discriminate|]). discriminate. Qed.
Lemma plain_firstn {A} (sh : A -> string) n v : (forall x, In x v -> plain (sh x)) -> Forall plain (map sh (firstn n v)).
Proof. intros H. apply Forall_map, Forall_forall. intros x Hx. apply H. rewrite <- (firstn_skipn n v). apply in_app_iff. auto. Qed.
Lemma string_tail c a b : String c a = String c b -> a = b.
Proof. intros E. now inversion E. Qed.
Lemma vector_read {A} (sh : A -> string) v w : (forall x, In x v -> plain (sh x)) -> (forall x, In x w -> plain (sh x)) ->
  stream_vector sh v = stream_vector sh w ->
  map sh (firstn 5 v) = map sh (firstn 5 w) /\ ((length v <= 5)%nat <-> (length w <= 5)%nat).
Proof.
  intros Hv Hw E. rewrite !vector_text in E. change (String "[" (joined ", " (map sh (firstn 5 v) ++ (if Nat.leb (length v) 5 then [] else ["... ]"])) ++ if Nat.leb (length v) 5 then "]" else "") =
    String "[" (joined ", " (map sh (firstn 5 w) ++ (if Nat.leb (length w) 5 then [] else ["... ]"])) ++ if Nat.leb (length w) 5 then "]" else "")) in E.
  apply string_tail in E. assert (Pv := plain_firstn sh 5 v Hv). assert (Pw := plain_firstn sh 5 w Hw).
  assert (D : forall l, Forall plain l -> Forall plain (l ++ ["... ]"])) by (intros; apply Forall_app; split; auto; constructor; auto using dots_plain).
  destruct (Nat.leb_spec (length v) 5) as [L|L], (Nat.leb_spec (length w) 5) as [L'|L'].
  - rewrite !app_nil_r in E. apply app_inj_r in E. apply joined_inj in E; auto. split; auto. tauto.
  - exfalso. rewrite app_nil_r, app_nil_s in E. apply (f_equal commas) in E. rewrite commas_app, !commas_joined in E; auto. rewrite app_length, !map_length, !firstn_length in E. change (commas "]") with 0 in E. cbn [length] in E. lia.
  - exfalso. rewrite app_nil_r, app_nil_s in E. apply (f_equal commas) in E. rewrite commas_app, !commas_joined in E; auto. rewrite app_length, !map_length, !firstn_length in E. change (commas "]") with 0 in E. cbn [length] in E. lia.
  - rewrite !app_nil_s in E. apply joined_inj in E; auto. apply app_inj_tail in E. split; [tauto|lia].
Qed.

(** ** Tables *)
Lemma fold_append l : forall a, fold_left append l a = a ++ String.concat "" l.
Proof.
  induction l as [|x l IH]; intros a; cbn [fold_left]; [now rewrite app_nil_s|]. rewrite IH, app_assoc_s. f_equal.
  cbn [String.concat]. destruct l; [now rewrite app_nil_s|reflexivity].
Qed.
Lemma transform2_length {A B C} (f : A -> B -> C) l : forall m, length l = length m -> length (transform2 f l m) = length l.
Proof. induction l as [|a l IH]; intros [|b m] H; cbn in *; try lia. f_equal. apply IH. lia. Qed.
Lemma transform2_nth {A B C} (f : A -> B -> C) l : forall m j a b c, length l = length m -> (j < length l)%nat -> nth j (transform2 f l m) c = f (nth j l a) (nth j m b).
Proof. induction l as [|x l IH]; intros [|y m] [|j] a b c H L; cbn in *; try lia; auto. apply IH; lia. Qed.
Definition sizes_ok (headers : list string) (rows : list (list string)) (t : table) : Prop :=
  t_headers t = headers /\ t_rows t = rows /\ length (t_sizes t) = length headers /\ Forall (fun r => length r = length headers) rows /\
  forall j, (j < length headers)%nat -> nth j (t_sizes t) 0 = width (headers :: rows) j.
Lemma width_snoc l r j : width (l ++ [r]) j = Nat.max (width l j) (String.length (nth j r "")).
Proof. unfold width. induction l as [|x l IH]; cbn; [lia|]. rewrite IH. lia. Qed.
Lemma built_ok headers indent rows t : built headers indent rows t -> t_indent t = indent /\ sizes_ok headers rows t.
Proof.
  induction 1 as [|rows t row t' H [I (E1 & E2 & E3 & E4 & E5)] E|rows t row x H [I IH] E].
  - split; [reflexivity|]. unfold sizes_ok. cbn [table_new t_headers t_rows t_sizes]. repeat split; auto.
    + apply map_length.
    + intros j L. unfold width. cbn [map fold_right]. rewrite Nat.max_0_r. replace 0 with (String.length "") by reflexivity. apply map_nth.
  - unfold add_row in E. destruct (Nat.eqb_spec (length row) (length (t_headers t))) as [L|L]; cbn [negb] in E; [|discriminate]. injection E as <-.
    split; [auto|]. unfold sizes_ok. cbn [t_headers t_rows t_sizes]. rewrite E1 in L. rewrite E2. repeat split; auto.
    + rewrite transform2_length; congruence.
    + apply Forall_app. auto.
    + intros j Hj. rewrite (transform2_nth _ _ _ _ "" 0) by congruence. rewrite E5 by auto. change (headers :: rows ++ [row]) with ((headers :: rows) ++ [row])%list. rewrite width_snoc. lia.
  - auto.
Qed.
Lemma sizes_cover headers rows t r j : sizes_ok headers rows t -> In r (headers :: rows) -> (j < length headers)%nat -> (String.length (nth j r "") <= nth j (t_sizes t) 0)%nat.
Proof.
  intros (_ & _ & _ & _ & E) Hr Hj. rewrite E by auto. unfold width. clear E. induction (headers :: rows) as [|x l IH]; [destruct Hr|]. cbn [map fold_right].
  destruct Hr as [->|Hr]; [lia|]. specialize (IH Hr). lia.
Qed.
Lemma fill_length c n : String.length (fill c n) = n.
Proof. induction n; cbn; congruence. Qed.
Fixpoint total (w : list nat) : nat := match w with [] => 0 | x :: w => x + 2 + total w end.
Definition padded (str : string) (size : nat) : string := str ++ fill " " (size - String.length str + 2).
Lemma row_length row : forall sizes, length row = length sizes -> (forall j, (j < length row)%nat -> (String.length (nth j row "") <= nth j sizes 0)%nat) ->
  String.length (String.concat "" (transform2 padded row sizes)) = total sizes.
Proof.
  induction row as [|a row IH]; intros [|x sizes] L H; cbn [transform2 total] in *; try discriminate; [reflexivity|]. cbn in L.
  assert (Q : forall a l, String.concat "" (a :: l) = a ++ String.concat "" l) by (intros b [|c l]; [symmetry; apply app_nil_s|reflexivity]).
  rewrite Q, append_length. rewrite IH; [|lia|intros j Hj; apply (H (S j)); cbn; lia]. unfold padded. rewrite append_length, fill_length.
  specialize (H 0 ltac:(cbn; lia)). cbn in H. lia.
Qed.
Lemma row_cell row : forall sizes j, length row = length sizes -> (forall j, (j < length row)%nat -> (String.length (nth j row "") <= nth j sizes 0)%nat) -> (j < length row)%nat ->
  exists rest, String.concat "" (transform2 padded row sizes) = String.concat "" (transform2 padded (firstn j row) (firstn j sizes)) ++ padded (nth j row "") (nth j sizes 0) ++ rest.
Proof.
  induction row as [|a row IH]; intros [|x sizes] j L H Hj; cbn in L, Hj; try lia.
  assert (Q : forall a l, String.concat "" (a :: l) = a ++ String.concat "" l) by (intros b [|c l]; [symmetry; apply app_nil_s|reflexivity]).
  destruct j as [|j]; cbn [firstn transform2 nth].
  - exists (String.concat "" (transform2 padded row sizes)). apply Q.
  - destruct (IH sizes j) as [rest E]; [lia|intros i Hi; apply (H (S i)); cbn; lia|lia|]. exists rest. rewrite !Q, E. now rewrite app_assoc_s.
Qed.
Lemma firstn_S (l : list nat) : forall j, (j < length l)%nat -> firstn (S j) l = (firstn j l ++ [nth j l 0])%list.
Proof. induction l as [|x l IH]; intros [|j] H; cbn in H; try lia; [reflexivity|]. change (x :: firstn (S j) l = x :: (firstn j l ++ [nth j l 0]))%list. f_equal. apply IH. lia. Qed.
Lemma total_width indent lines : forall sizes j, (j <= length sizes)%nat -> (forall i, (i < length sizes)%nat -> nth i sizes 0 = width lines i) ->
  (String.length indent + total (firstn j sizes) = column_start indent lines j)%nat.
Proof.
  intros sizes j. revert sizes. assert (T : forall a b, total (a ++ b) = total a + total b) by (induction a; cbn; intros; [reflexivity|rewrite IHa; lia]).
  induction j as [|j IH]; intros sizes L H; cbn [column_start]; [cbn; lia|]. rewrite <- (IH sizes) by (auto; lia). rewrite <- H by lia.
  rewrite firstn_S by lia. rewrite T. cbn. lia.
Qed.
Lemma nth_firstn_lt {A} (l : list A) d : forall n i, (i < n)%nat -> nth i (firstn n l) d = nth i l d.
Proof. induction l as [|x l IH]; intros [|n] [|i] H; cbn; try lia; auto. apply IH. lia. Qed.
Lemma substring_app a b : substring (String.length a) (String.length b) (a ++ b) = b.
Proof. induction a; cbn; [|auto]. induction b; cbn; congruence. Qed.
Lemma substring_mid a b c : substring (String.length a) (String.length b) (a ++ b ++ c) = b.
Proof. induction a; cbn; [|auto]. induction b; cbn; [destruct c; reflexivity|congruence]. Qed.
(** The lines of the output. *)
Definition text_line (t : table) (row : list string) : string := t_indent t ++ print_row t row.
Definition rule_line (t : table) : string := t_indent t ++ fold_left append (map (fun size => fill "-" (size + 2)) (t_sizes t)) "".
Lemma print_lines t : print_table t = String.concat "" (map (fun l => l ++ nl) (text_line t (t_headers t) :: rule_line t :: map (text_line t) (t_rows t))).
Proof.
  unfold print_table. rewrite (fold_app (fun v => t_indent t ++ print_row t v ++ nl)).
  assert (Q : forall a l, String.concat "" (a :: l) = a ++ String.concat "" l) by (intros b [|c l]; [symmetry; apply app_nil_s|reflexivity]).
  cbn [map]. rewrite !Q. unfold text_line at 1, rule_line. rewrite !app_assoc_s. do 6 f_equal.
  induction (t_rows t) as [|r l IH]; [reflexivity|]. cbn [map fold_left]. rewrite (fold_app (fun v => t_indent t ++ print_row t v ++ nl)), Q, IH. unfold text_line at 2. cbn. now rewrite !app_assoc_s.
Qed.
Lemma line_facts headers indent rows t r : built headers indent rows t -> In r (headers :: rows) ->
  String.length (text_line t r) = column_start indent (headers :: rows) (length headers) /\
  forall j, (j < length headers)%nat -> substring (column_start indent (headers :: rows) j) (String.length (nth j r "")) (text_line t r) = nth j r "".
Proof.
  intros B Hr. destruct (built_ok _ _ _ _ B) as [I S]. pose proof S as (E1 & E2 & E3 & E4 & E5).
  assert (Lr : length r = length headers) by (destruct Hr as [<-|Hr]; [auto|rewrite Forall_forall in E4; auto]).
  assert (Cv : forall j, (j < length r)%nat -> (String.length (nth j r "") <= nth j (t_sizes t) 0)%nat) by (intros j Hj; apply (sizes_cover headers rows t r j S Hr); lia).
  assert (W : forall i, (i < length (t_sizes t))%nat -> nth i (t_sizes t) 0 = width (headers :: rows) i) by (intros i Hi; apply E5; lia).
  unfold text_line, print_row. rewrite fold_append. cbn [append]. fold padded. rewrite I. split.
  - rewrite append_length, row_length by (auto; congruence). rewrite <- (firstn_all (t_sizes t)) at 1. rewrite (total_width indent (headers :: rows)) by auto. congruence.
  - intros j Hj. destruct (row_cell r (t_sizes t) j) as [rest E]; auto; try congruence; try lia. rewrite E.
    change (padded (nth j r "") (nth j (t_sizes t) 0)) with (nth j r "" ++ fill " " (nth j (t_sizes t) 0 - String.length (nth j r "") + 2)).
    rewrite !app_assoc_s, <- app_assoc_s. rewrite <- (total_width indent (headers :: rows) (t_sizes t) j) by (auto; lia).
    replace (String.length indent + total (firstn j (t_sizes t))) with (String.length (indent ++ String.concat "" (transform2 padded (firstn j r) (firstn j (t_sizes t))))).
    + apply substring_mid.
    + rewrite append_length, row_length; auto.
      * rewrite !firstn_length. lia.
      * intros i Hi. rewrite firstn_length in Hi. rewrite !nth_firstn_lt by lia. apply Cv. lia.
Qed.
Lemma rule_length headers indent rows t : built headers indent rows t -> String.length (rule_line t) = column_start indent (headers :: rows) (length headers).
Proof.
  intros B. destruct (built_ok _ _ _ _ B) as [I (E1 & E2 & E3 & E4 & E5)]. unfold rule_line. rewrite fold_append, append_length, I. cbn [append].
  rewrite <- E3. rewrite <- (total_width indent (headers :: rows) (t_sizes t)) by (auto; intros; apply E5; lia). rewrite firstn_all. f_equal. clear.
  assert (Q : forall a l, String.concat "" (a :: l) = a ++ String.concat "" l) by (intros b [|c l]; [symmetry; apply app_nil_s|reflexivity]).
  induction (t_sizes t) as [|x l IH]; [reflexivity|]. cbn [map total]. rewrite Q, append_length, IH, fill_length. reflexivity.
Qed.
Lemma table_lines headers indent rows t : built headers indent rows t ->
  print_table t = String.concat "" (map (fun l => l ++ nl) (text_line t headers :: rule_line t :: map (text_line t) rows)).
Proof. intros B. destruct (built_ok _ _ _ _ B) as [_ (E1 & E2 & _)]. rewrite print_lines, E1, E2. reflexivity. Qed.
Lemma table_ok headers indent rows t : built headers indent rows t -> exists line rule,
  print_table t = joined "" (map (fun l => l ++ nl) (line headers :: rule :: map line rows)) /\
  String.length rule = column_start indent (headers :: rows) (length headers) /\
  forall r, In r (headers :: rows) ->
    length r = length headers /\ String.length (line r) = column_start indent (headers :: rows) (length headers) /\
    forall j, (j < length headers)%nat -> substring (column_start indent (headers :: rows) j) (String.length (nth j r "")) (line r) = nth j r "".
Proof.
  intros B. exists (text_line t), (rule_line t). split; [exact (table_lines _ _ _ _ B)|]. split; [exact (rule_length _ _ _ _ B)|]. intros r Hr.
  destruct (built_ok _ _ _ _ B) as [_ (E1 & E2 & E3 & E4 & E5)]. split; [|exact (line_facts _ _ _ _ r B Hr)].
  destruct Hr as [<-|Hr]; [auto|]. rewrite Forall_forall in E4. auto.
Qed.
Lemma add_row_spec t row : (length row = length (t_headers t) -> exists t', add_row t row = Ok t' /\ t_headers t' = t_headers t /\ t_indent t' = t_indent t /\ t_rows t' = (t_rows t ++ [row])%list) /\
  (length row <> length (t_headers t) -> add_row t row = Throw InvalidArgument).
Proof. unfold add_row. destruct (Nat.eqb_spec (length row) (length (t_headers t))); cbn [negb]; split; intros; try contradiction; eauto. Qed.

(** ** Taylor models *)
Lemma lacks_cons c d s : lacks c (String d s) -> d <> c /\ lacks c s.
Proof. intros H. split; [intros ->; exact (H 0 eq_refl)|]. intros i. exact (H (S i)). Qed.
Lemma split_at c a b x y : lacks c a -> lacks c b -> a ++ String c x = b ++ String c y -> a = b /\ x = y.
Proof.
  revert b. induction a as [|e a IH]; intros [|d b] Ha Hb E; cbn in E.
  - inversion E. auto.
  - inversion E. subst. apply lacks_cons in Hb. tauto.
  - inversion E. subst. apply lacks_cons in Ha. tauto.
  - apply lacks_cons in Ha, Hb. inversion E. subst. destruct (IH b) as [-> ->]; tauto.
Qed.
Lemma split_two c d a b x y : lacks c a -> lacks c b -> lacks d a -> lacks d b -> a ++ String c x = b ++ String d y -> a = b /\ String c x = String d y.
Proof.
  revert b. induction a as [|e a IH]; intros [|f b] Ha Hb Ka Kb E; cbn in E.
  - auto.
  - inversion E. subst. apply lacks_cons in Hb. tauto.
  - inversion E. subst. apply lacks_cons in Ka. tauto.
  - apply lacks_cons in Ha, Hb, Ka, Kb. inversion E. subst. destruct (IH b) as [-> H]; tauto.
Qed.
Lemma tm_text {K} shg sh (t : taylor_model K) : stream_tm shg sh t = joined nl
  [ "Taylor Polynomial:"; shg (m_tpol t); "Remainder Bound: [" ++ sh (fst (m_rem t)) ++ ", " ++ sh (snd (m_rem t)) ++ "]";
    "Expansion Point: {" ++ joined ", " (map (fun e => fst e ++ ": " ++ sh (snd e)) (m_exp t)) ++ "}";
    "Domain: {" ++ joined ", " (map (fun e => fst e ++ ":[" ++ sh (fst (snd e)) ++ ", " ++ sh (snd (snd e)) ++ "]") (m_domain t)) ++ "}" ].
Proof.
  unfold stream_tm. rewrite var_map_text, var_map_i_text. unfold joined. cbn [String.concat]. rewrite !app_assoc_s. reflexivity.
Qed.
Lemma brace_first k x y : lacks "}" k -> String "}" x = k ++ String ":" y -> False.
Proof. intros L E. destruct k as [|c k]; cbn in E; [discriminate|]. injection E as <- _. exact (L 0 eq_refl). Qed.
Section Read.
  Context {K : Type} (sh : K -> string).
  Hypothesis C1 : forall x, lacks "," (sh x).
  Hypothesis C2 : forall x, lacks "]" (sh x).
  Hypothesis C3 : forall x, lacks "}" (sh x).
  Let en (e : string * K) := fst e ++ ": " ++ sh (snd e).
  Let ei (e : string * (K * K)) := fst e ++ ":[" ++ sh (fst (snd e)) ++ ", " ++ sh (snd (snd e)) ++ "]".
  Lemma exp_read m : forall m' x y, (forall s, In s (map fst m) -> lacks ":" s /\ lacks "}" s) -> (forall s, In s (map fst m') -> lacks ":" s /\ lacks "}" s) ->
    joined ", " (map en m) ++ "}" ++ x = joined ", " (map en m') ++ "}" ++ y ->
    map (fun e => (fst e, sh (snd e))) m = map (fun e => (fst e, sh (snd e))) m' /\ x = y.
  Proof.
    induction m as [|[k v] m IH]; intros m' x y N N' E.
    - destruct m' as [|[k' v'] m']; [cbn in E; inversion E; auto|]. exfalso. cbn [map] in E. rewrite joined_cons in E. unfold en at 1 in E. cbn [fst snd] in E.
      rewrite !app_assoc_s in E. exact (brace_first _ _ _ (proj2 (N' _ (or_introl eq_refl))) E).
    - destruct m' as [|[k' v'] m'].
      { exfalso. cbn [map] in E. rewrite joined_cons in E. change (en (k, v)) with (k ++ ": " ++ sh v) in E.
        rewrite !app_assoc_s in E. exact (brace_first _ _ _ (proj2 (N _ (or_introl eq_refl))) (eq_sym E)). }
      cbn [map] in E. rewrite !joined_cons in E. change (en (k, v)) with (k ++ ": " ++ sh v) in E. change (en (k', v')) with (k' ++ ": " ++ sh v') in E.
      rewrite !app_assoc_s in E. cbn [append] in E. apply split_at in E; [|apply N; left; reflexivity|apply N'; left; reflexivity]. destruct E as [-> E]. apply string_tail in E.
      destruct m as [|e m], m' as [|e' m']; cbn [map append] in E; cbn [map fst snd].
      + apply split_at in E; auto. destruct E as [-> ->]. auto.
      + apply split_two in E; auto. destruct E as [_ E]. discriminate E.
      + apply split_two in E; auto. destruct E as [_ E]. discriminate E.
      + change (en e :: map en m) with (map en (e :: m)) in E. change (en e' :: map en m') with (map en (e' :: m')) in E.
        rewrite ?app_assoc_s in E. apply split_at in E; auto. destruct E as [-> E]. apply string_tail in E.
        destruct (IH (e' :: m') x y) as [J ->]; auto.
        * intros s Hs. apply N. right. exact Hs.
        * intros s Hs. apply N'. right. exact Hs.
        * cbn [map] in J |- *. now rewrite J.
  Qed.
  Lemma dom_read m : forall m', (forall s, In s (map fst m) -> lacks ":" s /\ lacks "}" s) -> (forall s, In s (map fst m') -> lacks ":" s /\ lacks "}" s) ->
    joined ", " (map ei m) ++ "}" = joined ", " (map ei m') ++ "}" ->
    map (fun e => (fst e, (sh (fst (snd e)), sh (snd (snd e))))) m = map (fun e => (fst e, (sh (fst (snd e)), sh (snd (snd e))))) m'.
  Proof.
    induction m as [|[k [v w]] m IH]; intros m' N N' E.
    - destruct m' as [|[k' [v' w']] m']; [auto|]. exfalso. cbn [map] in E. rewrite joined_cons in E. unfold ei at 1 in E. cbn [fst snd] in E.
      rewrite !app_assoc_s in E. exact (brace_first _ _ _ (proj2 (N' _ (or_introl eq_refl))) E).
    - destruct m' as [|[k' [v' w']] m'].
      { exfalso. cbn [map] in E. rewrite joined_cons in E. change (ei (k, (v, w))) with (k ++ ":[" ++ sh v ++ ", " ++ sh w ++ "]") in E.
        rewrite !app_assoc_s in E. exact (brace_first _ _ _ (proj2 (N _ (or_introl eq_refl))) (eq_sym E)). }
      cbn [map] in E. rewrite !joined_cons in E. change (ei (k, (v, w))) with (k ++ ":[" ++ sh v ++ ", " ++ sh w ++ "]") in E. change (ei (k', (v', w'))) with (k' ++ ":[" ++ sh v' ++ ", " ++ sh w' ++ "]") in E.
      rewrite !app_assoc_s in E. cbn [append] in E. apply split_at in E; [|apply N; left; reflexivity|apply N'; left; reflexivity]. destruct E as [-> E]. apply string_tail in E.
      apply split_at in E; auto. destruct E as [E1 E]. apply string_tail in E. apply split_at in E; auto. destruct E as [E2 E]. cbn [map fst snd]. rewrite E1, E2.
      destruct m as [|e m], m' as [|e' m']; cbn [map append] in E; try discriminate E; auto.
      apply string_tail, string_tail in E. change (ei e :: map ei m) with (map ei (e :: m)) in E. change (ei e' :: map ei m') with (map ei (e' :: m')) in E.
      rewrite (IH (e' :: m')); auto.
      + intros s Hs. apply N. right. exact Hs.
      + intros s Hs. apply N'. right. exact Hs.
  Qed.
  Lemma tm_read shg (t t' : taylor_model K) :
    (forall g : gdual K, lacks "010" (shg g)) ->
    (forall s, In s (map fst (m_exp t) ++ map fst (m_domain t) ++ map fst (m_exp t') ++ map fst (m_domain t')) -> lacks ":" s /\ lacks "}" s) ->
    stream_tm shg sh t = stream_tm shg sh t' ->
    shg (m_tpol t) = shg (m_tpol t') /\ sh (fst (m_rem t)) = sh (fst (m_rem t')) /\ sh (snd (m_rem t)) = sh (snd (m_rem t')) /\
    map (fun e => (fst e, sh (snd e))) (m_exp t) = map (fun e => (fst e, sh (snd e))) (m_exp t') /\
    map (fun e => (fst e, (sh (fst (snd e)), sh (snd (snd e))))) (m_domain t) = map (fun e => (fst e, (sh (fst (snd e)), sh (snd (snd e))))) (m_domain t').
  Proof.
    intros G N E. rewrite !tm_text in E. unfold joined, nl in E. cbn [String.concat] in E. cbn [append] in E. do 19 apply string_tail in E.
    apply split_at in E; auto. destruct E as [-> E]. repeat (rewrite !app_assoc_s in E; cbn [append] in E). do 18 apply string_tail in E.
    apply split_at in E; auto. destruct E as [-> E]. apply string_tail in E. apply split_at in E; auto. destruct E as [-> E]. cbn [append] in E.
    do 19 apply string_tail in E.
    apply exp_read in E.
    - destruct E as [E1 E2]. split; [reflexivity|]. split; [reflexivity|]. split; [reflexivity|]. split; [exact E1|]. cbn [append] in E2. do 10 apply string_tail in E2.
      apply dom_read; auto.
      + intros s Hs. apply N. rewrite !in_app_iff. auto.
      + intros s Hs. apply N. rewrite !in_app_iff. auto.
    - intros s Hs. apply N. rewrite !in_app_iff. auto.
    - intros s Hs. apply N. rewrite !in_app_iff. auto.
  Qed.
End Read.
