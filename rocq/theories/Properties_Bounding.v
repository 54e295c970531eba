(** * Properties of the polynomial bounds (C32 - C36)

    Vocabulary: Spec.v, SpecBounding.v.  Model: Bounding.v.  Matrices are lists
    of rows; [cell M i j] is the entry in row [i] and column [j].

    An unordered_map is an association list without repeated keys.  The order
    in which it is iterated is unspecified: it is the function [iter]. *)

From Coq Require Import String List Arith Bool ZArith Permutation QArith Qcanon Reals.
From Verif Require Import Ops Syms Poly Gdual Functions Spec Bounding SpecBounding BinomProofs TensorProofs BernProofs CycleProofs ShiftProofs BoundSamples BoundRefute Samples CalcSamples MapSamples.
Import ListNotations.
Open Scope string_scope.
Open Scope nat_scope.

(** ** C32 *)
(** Every index vector below the limits (and of capped sum) is listed once. *)
Theorem C32_combinations_partial :
  forall (limits : list nat) (capped : bool), limits <> [] ->
  NoDup (generate_combinations limits capped) /\
  forall idx, In idx (generate_combinations limits capped) <->
    below limits idx /\ (capped = true -> list_sum idx <= fold_right Nat.max 0 limits).
Proof. exact combos. Qed.
Print Assumptions C32_combinations_partial.
(** Without limits there is one index vector, the empty one; it is not listed. *)
Theorem C32_no_limits_refuted :
  exists limits idx, below limits idx /\ ~ In idx (generate_combinations limits false).
Proof. exact combos_empty. Qed.
Print Assumptions C32_no_limits_refuted.
Example C32_combinations_case : [2; 1; 2] <> [] /\ length (generate_combinations [2; 1; 2] true) = 9.
Proof. split; [discriminate|vm_compute; reflexivity]. Qed.
(** get_poly returns the terms of the polynomial. *)
Theorem C32_get_poly_partial :
  forall (K : Type) (o : Ops K) (fl : FieldLaws o) (g : gdual K),
  valid g -> psyms (gp g) <> [] -> (Z.of_nat (get_order g) < 4294967296)%Z ->
  exists coeffs exps, get_poly g = Ok (coeffs, exps) /\ NoDup exps /\ length coeffs = length exps /\
    forall k c, In (k, c) (combine exps coeffs) <-> In (k, c) (pterms (gp g)).
Proof. exact poly_terms. Qed.
Print Assumptions C32_get_poly_partial.
(** A constant has a term which get_poly does not return. *)
Theorem C32_constant_refuted :
  exists (g : gdual Qc) k c, valid g /\ (Z.of_nat (get_order g) < 4294967296)%Z /\ In (k, c) (pterms (gp g)) /\ get_poly g = Ok ([], []).
Proof. exact poly_const. Qed.
Print Assumptions C32_constant_refuted.
Example C32_get_poly_case : valid xy /\ psyms (gp xy) <> [] /\ (Z.of_nat (get_order xy) < 4294967296)%Z /\ pterms (gp xy) <> [].
Proof. split; [exact xy_valid|]. split; [vm_compute; discriminate|]. split; [vm_compute; reflexivity|vm_compute; discriminate]. Qed.

(** ** C33 *)
(** The 64-bit computation of the binomial coefficients. *)
Theorem C33_binomial :
  forall n k : Z,
  ((k < 0)%Z \/ (n < k)%Z -> binomial64 n k = 0%Z) /\
  ((0 <= k <= n)%Z -> products_fit (Z.to_nat n) (Nat.min (Z.to_nat k) (Z.to_nat n - Z.to_nat k)) ->
     binomial64 n k = choose (Z.to_nat n) (Z.to_nat k)).
Proof. exact binomial_exact. Qed.
Print Assumptions C33_binomial.
Theorem C33_binomial_up_to_62 :
  forall n k : nat, n <= 62 -> binomial64 (Z.of_nat n) (Z.of_nat k) = choose n k.
Proof. exact binomial_62. Qed.
Print Assumptions C33_binomial_up_to_62.
(** 62 is the last: C(63,31) fits in 64 bits but is not computed. *)
Theorem C33_binomial_63_refuted : binomial64 63 31 <> choose 63 31 /\ (choose 63 31 < two64)%Z.
Proof. exact binomial_63. Qed.
Print Assumptions C33_binomial_63_refuted.
(** Products of binomial coefficients. *)
Theorem C33_binom_product :
  forall n k : list Z,
  (length n <> length k -> binom_product n k = Throw RuntimeError) /\
  (length n = length k -> (fold_right (fun nk p => binomial64 (fst nk) (snd nk) * p) 1 (combine n k) < two64)%Z ->
     (forall a b, In (a, b) (combine n k) -> (0 < binomial64 a b)%Z) ->
     binom_product n k = Ok (fold_right (fun nk p => binomial64 (fst nk) (snd nk) * p)%Z 1%Z (combine n k))).
Proof. exact binom_product_spec. Qed.
Print Assumptions C33_binom_product.
Example C33_case : products_fit 10 4 /\ choose 10 4 = 210%Z /\ binomial64 10 4 = 210%Z.
Proof. split; [exact (fits_62 10 4 ltac:(repeat constructor))|]. split; vm_compute; reflexivity. Qed.

(** ** C34 *)
Theorem C34_matmul :
  forall (K : Type) (o : Ops K) (fl : FieldLaws o) (p q r : nat) (A B : list (list K)),
  is_matrix p q A -> is_matrix q r B -> 0 < p -> 0 < q ->
  is_matrix p r (matmul A B) /\
  forall i j, i < p -> j < r -> cell (matmul A B) i j = sum_to q (fun k => kmul (cell A i k) (cell B k j)).
Proof. exact @matmul_spec. Qed.
Print Assumptions C34_matmul.
Theorem C34_transpose :
  forall (K : Type) (o : Ops K) (r c : nat) (M : list (list K)),
  is_matrix r c M -> 0 < r ->
  is_matrix c r (transpose M) /\ forall i j, i < c -> j < r -> cell (transpose M) i j = cell M j i.
Proof. exact @transpose_spec. Qed.
Print Assumptions C34_transpose.
Theorem C34_matmul_associative :
  forall (K : Type) (o : Ops K) (fl : FieldLaws o) (p q r s : nat) (A B C : list (list K)),
  is_matrix p q A -> is_matrix q r B -> is_matrix r s C -> 0 < p -> 0 < q -> 0 < r ->
  matmul (matmul A B) C = matmul A (matmul B C).
Proof. exact @matmul_assoc. Qed.
Print Assumptions C34_matmul_associative.
Theorem C34_matmul_transpose :
  forall (K : Type) (o : Ops K) (fl : FieldLaws o) (p q r : nat) (A B : list (list K)),
  is_matrix p q A -> is_matrix q r B -> 0 < p -> 0 < q -> 0 < r ->
  transpose (matmul A B) = matmul (transpose B) (transpose A).
Proof. exact @matmul_transpose. Qed.
Print Assumptions C34_matmul_transpose.
(** The Q matrix: coefficients of p(a + (b-a) t) in t from those of p. *)
Theorem C34_q_matrix :
  forall (K : Type) (o : Ops K) (fl : FieldLaws o) (md : list nat) (dom : list (string * (K * K))) (dim : nat) (s : string) (a b : K),
  dim < length md -> nth dim md 0 <= 62 -> nth_error dom dim = Some (s, (a, b)) ->
  exists Q, get_q_matrix md dom dim = Ok Q /\ is_matrix (nth dim md 0 + 1) (nth dim md 0 + 1) Q /\
    forall (c : nat -> K) t,
      sum_to (nth dim md 0 + 1) (fun i => kmul (sum_to (nth dim md 0 + 1) (fun k => kmul (cell Q i k) (c k))) (kpow t i))
      = sum_to (nth dim md 0 + 1) (fun k => kmul (c k) (kpow (kadd a (kmul (ksub b a) t)) k)).
Proof. exact @q_reparam. Qed.
Print Assumptions C34_q_matrix.
(** The lower Pascal matrix and the scaling matrix. *)
Theorem C34_pascal_matrix :
  forall (K : Type) (o : Ops K) (fl : FieldLaws o) (md : list nat) (dim n : nat),
  n = nth dim md 0 -> n <= 62 ->
  is_matrix (n + 1) (n + 1) (get_lower_pascal_matrix (K:=K) md dim) /\
  forall i j, i <= n -> j <= n -> cell (get_lower_pascal_matrix md dim) i j = kofZ (choose i j) :> K.
Proof. exact @pascal_spec. Qed.
Print Assumptions C34_pascal_matrix.
Theorem C34_d_matrix :
  forall (K : Type) (o : Ops K) (md : list nat) (dim n : nat) (t : K),
  n = nth dim md 0 ->
  is_matrix (n + 1) (n + 1) (get_d_matrix md dim t) /\
  forall i j, i <= n -> j <= n -> cell (get_d_matrix md dim t) i j = if Nat.eqb i j then kpow t i else k0.
Proof. exact @d_matrix_spec. Qed.
Print Assumptions C34_d_matrix.
(** Cycling a tensor moves its first index to the end and loses nothing. *)
Theorem C34_cycle :
  forall (K : Type) (o : Ops K) (M : list (list K)) (md : list nat) (dim : nat),
  dim < length md -> shape (rot dim md) M ->
  shape (rot (S dim) md) (get_cycled_2d_array_vec M md dim) /\
  forall idx, below (rot dim md) idx ->
    entry (rot (S dim) md) (get_cycled_2d_array_vec M md dim) (rot 1 idx) = entry (rot dim md) M idx.
Proof. exact @cycle_entry. Qed.
Print Assumptions C34_cycle.
(** Shifting rotates to the left by one. *)
Theorem C34_shift :
  forall (A : Type) (d : A) (l : list A),
  length (shift_indices l) = length l /\
  forall i, i < length l -> nth i (shift_indices l) d = nth ((i + 1) mod length l) l d.
Proof. exact shift_nth. Qed.
Print Assumptions C34_shift.
Example C34_shift_case : shift_indices [2; 3; 4] = [3; 4; 2].
Proof. reflexivity. Qed.
(** The position of an index vector in a row determines it. *)
Theorem C34_positions :
  forall ds : list nat,
  (forall idx, below ds idx -> flat ds idx < size ds) /\
  (forall idx idx', below ds idx -> below ds idx' -> flat ds idx = flat ds idx' -> idx = idx') /\
  (forall j, j < size ds -> exists idx, below ds idx /\ flat ds idx = j).
Proof. exact flat_bij. Qed.
Print Assumptions C34_positions.
Definition m23 : list (list Qc) := [[Q2Qc 1; Q2Qc 2; Q2Qc 3]; [Q2Qc 4; Q2Qc 5; Q2Qc 6]].
Example C34_case : is_matrix 2 3 m23 /\ is_matrix 3 2 (transpose m23) /\ is_matrix 2 2 (matmul m23 (transpose m23)).
Proof. repeat split; repeat constructor. Qed.
Example C34_cycle_case : shape (rot 1 [2; 1]) m23 /\ below (rot 1 [2; 1]) [1; 2] /\
  get_cycled_2d_array_vec m23 [2; 1] 1 = transpose m23.
Proof. repeat split; repeat constructor. Qed.

(** ** C35 *)
Open Scope R_scope.
(** The claim, when the domain is iterated in the order of the variables. *)
Theorem C35_bounds_enclose_partial :
  forall (g : gdual R) (V : list string) (exp_points : list (string * R)) (domain : list (string * (R * R)))
         (I : string -> R * R) (e : string -> R) iter,
  valid g -> psyms (gp g) = map dsym V -> (Z.of_nat (get_order g) < 4294967296)%Z ->
  (forall t, In t (pterms (gp g)) -> (list_sum (fst t) <= 62)%nat) ->
  NoDup (map fst domain) -> NoDup (map fst exp_points) ->
  (forall s, In s V -> In (s, I s) domain /\ In (s, e s) exp_points) ->
  (forall l, Permutation (iter l) l) ->
  map snd (iter (relative_box V I e)) = map snd (relative_box V I e) ->
  exists lo hi, get_bounds iter g exp_points domain = Ok (lo, hi) /\
  forall pt rho, (forall s, In s V -> fst (I s) <= pt s <= snd (I s)) -> (forall s, In s V -> rho (dsym s) = pt s - e s) ->
    lo <= value g rho <= hi.
Proof. exact enclose_same. Qed.
Print Assumptions C35_bounds_enclose_partial.
(** With any iteration order, the polynomial is enclosed on the box in which
    the variables, in alphabetical order, get the intervals in iteration
    order. *)
Theorem C35_any_iteration_order_partial :
  forall (g : gdual R) (V : list string) (exp_points : list (string * R)) (domain : list (string * (R * R)))
         (I : string -> R * R) (e : string -> R) iter,
  valid g -> psyms (gp g) = map dsym V -> (Z.of_nat (get_order g) < 4294967296)%Z ->
  (forall t, In t (pterms (gp g)) -> (list_sum (fst t) <= 62)%nat) ->
  NoDup (map fst domain) -> NoDup (map fst exp_points) ->
  (forall s, In s V -> In (s, I s) domain /\ In (s, e s) exp_points) ->
  (forall l, Permutation (iter l) l) ->
  exists lo hi, get_bounds iter g exp_points domain = Ok (lo, hi) /\
  forall rho, inside (map dsym V) (map snd (iter (relative_box V I e))) rho -> lo <= value g rho <= hi.
Proof. exact enclose_any. Qed.
Print Assumptions C35_any_iteration_order_partial.
(** Any iteration order will do for one variable ... *)
Theorem C35_one_variable_partial :
  forall (g : gdual R) (V : list string) (exp_points : list (string * R)) (domain : list (string * (R * R)))
         (I : string -> R * R) (e : string -> R) iter,
  valid g -> psyms (gp g) = map dsym V -> (Z.of_nat (get_order g) < 4294967296)%Z ->
  (forall t, In t (pterms (gp g)) -> (list_sum (fst t) <= 62)%nat) ->
  NoDup (map fst domain) -> NoDup (map fst exp_points) ->
  (forall s, In s V -> In (s, I s) domain /\ In (s, e s) exp_points) ->
  (forall l, Permutation (iter l) l) ->
  (length V <= 1)%nat ->
  exists lo hi, get_bounds iter g exp_points domain = Ok (lo, hi) /\
  forall pt rho, (forall s, In s V -> fst (I s) <= pt s <= snd (I s)) -> (forall s, In s V -> rho (dsym s) = pt s - e s) ->
    lo <= value g rho <= hi.
Proof. exact enclose_one. Qed.
Print Assumptions C35_one_variable_partial.
(** ... or when the intervals around the expansion point are the same. *)
Theorem C35_equal_intervals_partial :
  forall (g : gdual R) (V : list string) (exp_points : list (string * R)) (domain : list (string * (R * R)))
         (I : string -> R * R) (e : string -> R) iter,
  valid g -> psyms (gp g) = map dsym V -> (Z.of_nat (get_order g) < 4294967296)%Z ->
  (forall t, In t (pterms (gp g)) -> (list_sum (fst t) <= 62)%nat) ->
  NoDup (map fst domain) -> NoDup (map fst exp_points) ->
  (forall s, In s V -> In (s, I s) domain /\ In (s, e s) exp_points) ->
  (forall l, Permutation (iter l) l) ->
  (forall s t, In s V -> In t V -> fst (I s) - e s = fst (I t) - e t /\ snd (I s) - e s = snd (I t) - e t) ->
  exists lo hi, get_bounds iter g exp_points domain = Ok (lo, hi) /\
  forall pt rho, (forall s, In s V -> fst (I s) <= pt s <= snd (I s)) -> (forall s, In s V -> rho (dsym s) = pt s - e s) ->
    lo <= value g rho <= hi.
Proof. exact enclose_equal. Qed.
Print Assumptions C35_equal_intervals_partial.
(** In general the iteration order matters: the code pairs the k-th variable of
    the polynomial with the k-th interval met by the iteration. *)
Theorem C35_iteration_order_refuted :
  exists (g : gdual R) V domain exp_points iter pt lo hi,
  valid g /\ psyms (gp g) = map dsym V /\ (forall l, Permutation (iter l) l) /\
  get_bounds iter g exp_points domain = Ok (lo, hi) /\
  (forall s, In s V -> exists a b, In (s, (a, b)) domain /\ In (s, 0) exp_points /\ a <= pt (dsym s) <= b) /\
  ~ value g pt <= hi.
Proof. exact reversed_refuted. Qed.
Print Assumptions C35_iteration_order_refuted.
(** Nor do the bounds hold at degree 63, where the 64-bit binomial coefficients
    overflow: 2 x^28 - x^29 - x^63 on [0,1], any iteration order. *)
Theorem C35_degree_63_refuted :
  forall iter : list (string * (R * R)) -> list (string * (R * R)), (forall l, Permutation (iter l) l) ->
  exists (g : gdual R) V domain exp_points pt lo hi,
  valid g /\ psyms (gp g) = map dsym V /\ get_order g = 63%nat /\
  get_bounds iter g exp_points domain = Ok (lo, hi) /\
  (forall s, In s V -> exists a b, In (s, (a, b)) domain /\ In (s, 0%R) exp_points /\ (a <= pt (dsym s) <= b)%R) /\
  ~ (value g pt <= hi)%R.
Proof. exact degree_63_wrong. Qed.
Print Assumptions C35_degree_63_refuted.
(** x + 2y on [0,1] x [0,3]. *)
Example C35_case : valid lin2 /\ psyms (gp lin2) = map dsym ["x"; "y"] /\ (Z.of_nat (get_order lin2) < 4294967296)%Z /\
  (forall t, In t (pterms (gp lin2)) -> (list_sum (fst t) <= 62)%nat) /\ NoDup (map fst dom2) /\ NoDup (map fst ex2) /\
  (forall s, In s ["x"; "y"] -> In (s, I2 s) dom2 /\ In (s, 0) ex2) /\ (forall s, In s ["x"; "y"] -> fst (I2 s) <= snd (I2 s)) /\
  (forall t i, In t (pterms (gp lin2)) -> (nth i (fst t) 0 <= 1)%nat) /\ length (pterms (gp lin2)) = 2%nat.
Proof. exact lin2_case. Qed.
(** 3x^2 + y on [-1,2] x [0,1]: the range [0,13] is enclosed in [-6,13]. *)
Example C35_computed :
  get_bounds (fun l => l) (gadd (gmul_sg (q 3) (gmul mx mx)) my) [("x", q 0); ("y", q 0)]
    [("x", (- q 1, q 2)%Qc); ("y", (q 0, q 1))] = Ok (- q 6, q 13)%Qc.
Proof. exact bounds_computed. Qed.

(** ** C36 *)
(** The values at the corners of the box are entries of the Bernstein patch, of
    which the bounds are the extremes. *)
Theorem C36_corners :
  forall (g : gdual R) (V : list string) (exp_points : list (string * R)) (domain : list (string * (R * R)))
         (I : string -> R * R) (e : string -> R) iter,
  valid g -> psyms (gp g) = map dsym V -> (Z.of_nat (get_order g) < 4294967296)%Z ->
  (forall t, In t (pterms (gp g)) -> (list_sum (fst t) <= 62)%nat) ->
  NoDup (map fst domain) -> NoDup (map fst exp_points) ->
  (forall s, In s V -> In (s, I s) domain /\ In (s, e s) exp_points) ->
  (forall l, Permutation (iter l) l) ->
  forall coeffs exps, get_poly g = Ok (coeffs, exps) -> exps <> [] ->
  exists M, get_titi_bernstein_patch_ndim_generalbox coeffs exps (iter (relative_box V I e)) = Ok M /\
    get_bounds iter g exp_points domain = Ok (min_of (concat M), max_of (concat M)) /\
    forall (c : nat -> bool) rho,
      (forall d, (d < length V)%nat -> rho (nth d (map dsym V) EmptyString)
         = let J := snd (nth d (iter (relative_box V I e)) (EmptyString, (0, 0))) in if c d then snd J else fst J) ->
      In (value g rho) (concat M).
Proof. exact corners. Qed.
Print Assumptions C36_corners.
(** Degree at most one in each variable: the bounds are values. *)
Theorem C36_attained :
  forall (g : gdual R) (V : list string) (exp_points : list (string * R)) (domain : list (string * (R * R)))
         (I : string -> R * R) (e : string -> R) iter,
  valid g -> psyms (gp g) = map dsym V -> (Z.of_nat (get_order g) < 4294967296)%Z ->
  (forall t, In t (pterms (gp g)) -> (list_sum (fst t) <= 62)%nat) ->
  NoDup (map fst domain) -> NoDup (map fst exp_points) ->
  (forall s, In s V -> In (s, I s) domain /\ In (s, e s) exp_points) ->
  (forall l, Permutation (iter l) l) ->
  (forall t i, In t (pterms (gp g)) -> (nth i (fst t) 0 <= 1)%nat) ->
  (forall s, In s V -> fst (I s) <= snd (I s)) ->
  exists lo hi rho rho', get_bounds iter g exp_points domain = Ok (lo, hi) /\
    inside (map dsym V) (map snd (iter (relative_box V I e))) rho /\
    inside (map dsym V) (map snd (iter (relative_box V I e))) rho' /\
    value g rho = lo /\ value g rho' = hi.
Proof. exact linear_exact. Qed.
Print Assumptions C36_attained.
Example C36_case : exists (coeffs : list R) exps, get_poly lin2 = Ok (coeffs, exps) /\ exps <> [].
Proof. exact corner_case. Qed.
