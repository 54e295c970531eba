(** * Concrete values and counterexamples for Properties_Calculus.v *)

From Coq Require Import String List Arith Bool Lia ZArith QArith Qcanon.
From Verif Require Import Ops Syms Poly Gdual Functions Spec CoefFacts CoreProofs CalcProofs ValueProofs MiscProofs Samples.
Import ListNotations.
Open Scope nat_scope.
Open Scope string_scope.

Lemma xy_valid : valid xy.
Proof. exact (reach_valid neg_nz_field xy xy_reach). Qed.
Lemma x2_3_valid : valid (x2 3).
Proof. exact (reach_valid neg_nz_field _ x2_reach). Qed.
Lemma y3_2_valid : valid (y3 2).
Proof. exact (reach_valid neg_nz_field _ y3_reach). Qed.

Lemma find_cf_wrap : exists (g : gdual Qc) (c : list nat), reach g /\ length c = length (psyms (gp g)) /\
  get_order g < list_sum c /\ exists v, find_cf g c = Ok v.
Proof.
  assert (X : exists n, Z.of_nat n = 4294967296%Z) by (exists (Z.to_nat 4294967296); apply Z2Nat.id; lia).
  destruct X as [n Hn].
  assert (P : pterms (gp (x2 3)) = [([1], q 1); ([0], q 2)]) by (vm_compute; reflexivity).
  exists (x2 3), [n]. split; [exact x2_reach|]. split; [reflexivity|]. split.
  - change (get_order (x2 3)) with 3. change (list_sum [n]) with (n + 0). lia.
  - exists (q 0). unfold find_cf. change (kdeg [n]) with (n + 0). rewrite Nat.add_0_r, Hn.
    change (4294967296 mod two32)%Z with 0%Z. change (Z.ltb (Z.of_nat (gord (x2 3))) 0) with false. cbv iota.
    change (length [n]) with 1. change (get_symbol_set_size (x2 3)) with 1. change (negb (Nat.eqb 1 1)) with false. cbv iota.
    destruct (pfind [n] (gp (x2 3))) as [v|] eqn:E; [|reflexivity]. exfalso.
    unfold pfind in E. rewrite P in E. cbn [tfind key_eqb] in E.
    destruct (Nat.eqb_spec 1 n) as [H|H]; [subst n; discriminate|].
    destruct (Nat.eqb_spec 0 n) as [H0|H0]; [subst n; discriminate|]. cbn in E. discriminate.
Qed.

Lemma high_derivative : exists (g r : gdual Qc) (k : list nat), reach g /\ length k = length (psyms (gp g)) /\ list_sum k <= get_order g /\
  (exists v, find_cf g k = Ok v) /\ mixed_partial g (combine (get_symbol_set g) k) = Ok r /\
  get_derivative g k = Throw OtherException.
Proof.
  set (n := Z.to_nat 171). destruct (gvar (q 2) "x" n) as [g|] eqn:E; [|discriminate].
  assert (W : g = mkG (gp g) n /\ psyms (gp g) = ["dx"]) by (injection E as <-; split; vm_compute; reflexivity). destruct W as [W1 W2].
  assert (Hs : get_symbol_set g = ["x"]) by (unfold get_symbol_set; rewrite W2; reflexivity).
  destruct (mixed_partial_ok (K := Qc) (combine (get_symbol_set g) [n])) with (g := g) as [r Er].
  { rewrite Hs. intros sn [<-|[]]. reflexivity. }
  exists g, r, [n]. split; [apply (reach_var (q 2) "x" n); exact E|].
  rewrite W2. split; [reflexivity|]. split; [rewrite W1; cbn [get_order gord list_sum fold_right]; lia|]. split; [|split; [exact Er|reflexivity]].
  unfold find_cf, get_symbol_set_size. rewrite W2, W1. cbn [gord]. change (length [n]) with 1. cbn [length Nat.eqb negb].
  replace (Z.ltb _ _) with false by (vm_compute; reflexivity). destruct (pfind _ _); eauto.
Qed.

Lemma dict_unknown : exists (g : gdual Qc) dict s, reach g /\ In s (map fst dict) /\ ~ In s (psyms (gp g)) /\
  get_derivative_dict g dict = Ok k0.
Proof.
  exists (x2 3), [("dz", 1)], "dz". split; [exact x2_reach|]. split; [left; reflexivity|]. split.
  - assert (P : psyms (gp (x2 3)) = ["dx"]) by (vm_compute; reflexivity). rewrite P. intros [H|[]]. discriminate.
  - vm_compute. reflexivity.
Qed.

Lemma integrate_mixed : exists (a b ra rb rs : gdual Qc) s, reach a /\ reach b /\
  gintegrate a s = Ok ra /\ gintegrate b s = Ok rb /\ gintegrate (gadd a b) s = Ok rs /\ geqb rs (gadd ra rb) = false.
Proof.
  exists (x0 1), (y3 2), (val (gintegrate (x0 1) "x")), (val (gintegrate (y3 2) "x")),
    (val (gintegrate (gadd (x0 1) (y3 2)) "x")), "x".
  split; [apply (reach_var (q 0) "x" 1); vm_compute; reflexivity|]. split; [exact y3_reach|].
  vm_compute. auto.
Qed.

Lemma integrate_large : exists (g r p : gdual Qc) s, reach g /\ gintegrate g s = Ok r /\ gpartial r s = Ok p /\
  coef g ["dx"] [0] = k1 /\ list_sum [0] < get_order g /\ coef p ["dx"] [0] = k0.
Proof.
  assert (X : exists n, Z.of_nat n = 2147483648%Z) by (exists (Z.to_nat 2147483648); apply Z2Nat.id; lia).
  destruct X as [n Hn].
  set (g := mkG (padd (pvar (dsym "x")) (pconst (q 1))) n).
  assert (E : gvar (q 1) "x" n = Ok g).
  { unfold gvar, check_order. rewrite Hn. change (Z.leb (two32 - 1 - 10) 2147483648) with false. cbv iota. cbn [rbind check_var_name].
    assert (N : Nat.eqb n 0 = false) by (apply Nat.eqb_neq; intros ->; discriminate). rewrite N. reflexivity. }
  destruct (gintegrate g "x") as [r|] eqn:Er; [|discriminate].
  assert (T : pterms (gp r) = []).
  { apply (integrate_big g "x" r); auto. change (get_order g) with n. lia. }
  exists g, r, (mkG (pdiff (dsym "x") (gp r)) (gord r)), "x".
  split; [exact (reach_var (q 1) "x" n g E)|]. split; [exact Er|]. split; [reflexivity|]. split; [vm_compute; reflexivity|].
  split; [change (get_order g) with n; simpl; lia|].
  unfold coef, pdiff. cbn [gp]. rewrite T. reflexivity.
Qed.
