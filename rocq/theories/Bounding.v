(** * Model of include/audi/taylor_model_bounding.hpp, of the matrix helpers of
      taylor_model_utilities.hpp and of [get_bounds] (taylor_model.hpp)

    [double] is the coefficient type [K]; an interval is a pair.  [std::vector]
    is [list]; reading out of its range (undefined behaviour) gives a default
    value and writing out of its range is ignored.  [int] and [size_t] degrees
    and indices are naturals: their overflow, which needs more than 2^31
    coefficients, is not modelled, and negative degrees neither.  The 64-bit
    arithmetic of [binomial] is modelled with its wrap-around.

    An unordered_map is an association list.  The order in which the C++ code
    iterates over it is unspecified: it is the parameter [iter] of
    [get_bounds], a function that permutes the list. *)

From Coq Require Import String List Arith Bool ZArith.
From Verif Require Import Ops Syms Poly Gdual Functions.
Import ListNotations.

Definition wrap64 (z : Z) : Z := (z mod 18446744073709551616)%Z.

(** taylor_model_bounding.hpp:337-349 *)
Definition binomial64 (n k : Z) : Z :=
  if (k <? 0)%Z || (n <? k)%Z then 0%Z
  else if (k =? 0)%Z || (k =? n)%Z then 1%Z
  else
    let k := if (n - k <? k)%Z then (n - k)%Z else k in
    fold_left (fun res i => (wrap64 (res * (n - (k - i))) / i)%Z) (map Z.of_nat (seq 1 (Z.to_nat k))) 1%Z.

(** taylor_model_bounding.hpp:369-378 *)
Definition binom_product (n k : list Z) : res Z :=
  if negb (Nat.eqb (length n) (length k)) then Throw RuntimeError
  else Ok (fold_left (fun result i => wrap64 (result * binomial64 (nth i n 0%Z) (nth i k 0%Z)))
                     (seq 0 (length n)) 1%Z).

(** taylor_model_bounding.hpp:67-92 *)
Definition generate_combinations (limits : list nat) (cap_sum_indices : bool) : list (list nat) :=
  match limits with
  | [] => []
  | _ =>
      let cap := fold_right Nat.max 0 limits in
      fold_left (fun result limit =>
                   flat_map (fun comb =>
                     filter (fun copy => (Nat.leb (list_sum copy) cap && cap_sum_indices) || negb cap_sum_indices)
                            (map (fun i => comb ++ [i]) (seq 0 (S limit)))) result)
                limits [[]]
  end.

(** taylor_model_bounding.hpp:572-578 *)
Definition shift_indices {A} (indices : list A) : list A :=
  match indices with [] => [] | x :: l => l ++ [x] end.

(** taylor_model_bounding.hpp:200-228 *)
Definition get_max_degrees (exponents : list (list nat)) (ndim : nat) : res (list nat) :=
  if Nat.ltb 1 ndim then
    let cols := length (nth 0 exponents []) in
    fold_left (fun acc row =>
                 md <- acc;;
                 if negb (Nat.eqb (length row) cols) then Throw InvalidArgument
                 else Ok (map (fun i => Nat.max (nth i md 0) (nth i row 0)) (seq 0 cols)))
              exponents (Ok (repeat 0 cols))
  else if Nat.eqb ndim 1 then Ok [fold_left (fun m row => fold_left Nat.max row m) exponents 0]
  else Ok [0].

Section Bounding.
  Context {K : Type} {o : Ops K}.
  Local Open Scope K_scope.
  Notation matrix := (list (list K)).

  (** taylor_model_bounding.hpp:113-142 *)
  Definition get_poly (tpol : gdual K) : res (list K * list key) :=
    let ndim := get_symbol_set_size tpol in
    let combs :=
      if Nat.eqb ndim 1 then map (fun i => [i]) (seq 0 (S (gdegree tpol)))
      else if Nat.ltb 1 ndim then generate_combinations (repeat (gdegree tpol) ndim) true
      else [] in
    fold_left (fun acc exps =>
                 ce <- acc;;
                 cf <- find_cf tpol exps;;
                 Ok (if negb (cf =? 0) then (fst ce ++ [cf], snd ce ++ [exps]) else ce))
              combs (Ok ([], [])).

  (** taylor_model_bounding.hpp:159-178 *)
  Definition get_ndim (coeffs : list K) (exps : list key) : res nat :=
    if Nat.eqb (length coeffs) 0 || Nat.eqb (length exps) 0 then Ok 0%nat
    else if negb (Nat.eqb (length coeffs) (length exps)) then Throw InvalidArgument
    else
      let ndim := length (nth 0 exps []) in
      if forallb (fun row => Nat.eqb (length row) ndim) exps then Ok ndim else Throw InvalidArgument.

  (** taylor_model_bounding.hpp:245-254 *)
  Fixpoint get_coefficient (comb : key) (coeffs : list K) (exps : list key) : K :=
    match exps with
    | [] => 0
    | e :: exps' =>
        if list_eq_dec Nat.eq_dec e comb then nth 0 coeffs 0
        else get_coefficient comb (tl coeffs) exps'
    end.

  (** Writing into a matrix: A[i][j] = v. *)
  Fixpoint set_nth {A} (i : nat) (v : A) (l : list A) : list A :=
    match l, i with
    | [], _ => []
    | _ :: l', O => v :: l'
    | x :: l', S i' => x :: set_nth i' v l'
    end.
  Definition mset (A : matrix) (i j : nat) (v : K) : matrix := set_nth i (set_nth j v (nth i A [])) A.
  Definition mget (A : matrix) (i j : nat) : K := nth j (nth i A []) 0.
  Definition zeros (rows cols : nat) : matrix := repeat (repeat 0 cols) rows.

  (** taylor_model_bounding.hpp:298-309 column index of a combination *)
  Definition column_index (ndim : nat) (max_degrees comb : list nat) : nat :=
    fst (fold_left (fun '(j_val, stride) q =>
                      ((j_val + nth q comb 0 * stride)%nat, (stride * (nth q max_degrees 0 + 1))%nat))
                   (seq 1 (ndim - 1)) (0%nat, 1%nat)).
  (** taylor_model_bounding.hpp:277-319 *)
  Definition get_a_matrix_vec (coeffs : list K) (exps : list key) : res matrix :=
    ndim <- get_ndim coeffs exps;;
    max_degrees <- get_max_degrees exps ndim;;
    let l_star := fold_left (fun l i => (l * (nth i max_degrees 0 + 1))%nat) (seq 1 (ndim - 1)) 1%nat in
    let A := zeros (nth 0 max_degrees 0%nat + 1) l_star in
    Ok (fold_left (fun A comb => mset A (nth 0 comb 0%nat) (column_index ndim max_degrees comb)
                                      (get_coefficient comb coeffs exps))
                  (generate_combinations max_degrees false) A).

  (** taylor_model_utilities.hpp:55-71 *)
  Definition matmul (A B : matrix) : matrix :=
    let p := length (nth 0 A []) in
    map (fun i => map (fun j => fold_left (fun c k => c + mget A i k * mget B k j) (seq 0 p) 0)
                      (seq 0 (length (nth 0 B []))))
        (seq 0 (length A)).
  (** taylor_model_utilities.hpp:83-92 *)
  Definition transpose (M : matrix) : matrix :=
    map (fun j => map (fun i => mget M i j) (seq 0 (length M))) (seq 0 (length (nth 0 M []))).

  (** taylor_model_bounding.hpp:397-413 *)
  Definition get_d_acc_matrix (max_degrees : list nat) (dim : nat) : res matrix :=
    if Nat.leb (length max_degrees) dim then Throw OutOfRange
    else
      let n := nth dim max_degrees 0%nat in
      Ok (fold_left (fun d k => mset d k k (1 / kofZ (binomial64 (Z.of_nat n) (Z.of_nat k))))
                    (seq 0 (S n)) (zeros (n + 1) (n + 1))).
  (** taylor_model_bounding.hpp:436-448; std::pow(t, k) is the power *)
  Definition get_d_matrix (max_degrees : list nat) (dim : nat) (t : K) : matrix :=
    let n := nth dim max_degrees 0%nat in
    fold_left (fun d k => mset d k k (kpow t k)) (seq 1 n) (mset (zeros (n + 1) (n + 1)) 0 0 1).
  (** taylor_model_bounding.hpp:470-483 *)
  Definition get_lower_pascal_matrix (max_degrees : list nat) (dim : nat) : matrix :=
    let n := nth dim max_degrees 0%nat in
    fold_left (fun P i => fold_left (fun P j => mset P i j (kofZ (binomial64 (Z.of_nat i) (Z.of_nat j))))
                                    (seq 0 (S i)) P)
              (seq 0 (S n)) (zeros (n + 1) (n + 1)).

  (** taylor_model_bounding.hpp:494-503: [domain] in iteration order *)
  Definition build_dim_to_var_map (domain : list (string * (K * K))) : list (string * (K * K)) := domain.

  (** taylor_model_bounding.hpp:532-558 *)
  Definition get_q_matrix (max_degrees : list nat) (domain : list (string * (K * K))) (dim : nat) : res matrix :=
    if Nat.leb (length max_degrees) dim then Throw OutOfRange
    else match nth_error (build_dim_to_var_map domain) dim with
         | None => Throw RuntimeError
         | Some (_, (a, b)) =>
             if a =? 0 then Ok (get_d_matrix max_degrees dim b)
             else
               let t1 := (b - a) / a in
               let D2 := get_d_matrix max_degrees dim t1 in
               let P := get_lower_pascal_matrix max_degrees dim in
               let D1 := get_d_matrix max_degrees dim a in
               Ok (matmul (matmul D2 (transpose P)) D1)
         end.

  (** taylor_model_bounding.hpp:595-639 *)
  Definition get_cycled_2d_array_vec (arr : matrix) (max_degrees : list nat) (dim : nat) : matrix :=
    let num_rows := length arr in
    let num_cols := length (nth 0 arr []) in
    let ndim := length max_degrees in
    if Nat.eqb ndim 1 then arr
    else
      let next_dim := ((dim + 1) mod ndim)%nat in
      let d1 := (nth next_dim max_degrees 0 + 1)%nat in
      let new_cols := fold_left (fun c m => if Nat.eqb m next_dim then c else (c * (nth m max_degrees 0 + 1))%nat)
                                (seq 0 ndim) 1%nat in
      let stride := fold_left (fun c m => if negb (Nat.eqb m (dim mod ndim)) && negb (Nat.eqb m next_dim)
                                          then (c * (nth m max_degrees 0 + 1))%nat else c)
                              (seq 0 ndim) 1%nat in
      fold_left (fun c i =>
        fold_left (fun c j => mset c (j mod d1)%nat (j / d1 + i * stride)%nat (mget arr i j))
                  (seq 0 num_cols) c)
        (seq 0 num_rows) (zeros d1 new_cols).

  (** taylor_model_bounding.hpp:660-701: the loop over the dimensions; the
      bookkeeping of [shape_nd] has no effect *)
  Definition get_titi_base_lambda_generalbox (coeffs : list K) (exps : list key)
      (domain : list (string * (K * K))) : res matrix :=
    ndim <- get_ndim coeffs exps;;
    A <- get_a_matrix_vec coeffs exps;;
    max_degrees <- get_max_degrees exps ndim;;
    fold_left (fun acc dim =>
                 L <- acc;;
                 D_acc <- get_d_acc_matrix max_degrees dim;;
                 Q <- get_q_matrix max_degrees domain dim;;
                 Ok (get_cycled_2d_array_vec (matmul (matmul D_acc Q) L) max_degrees dim))
              (seq 0 ndim) (Ok A).
  (** taylor_model_bounding.hpp:719-758 *)
  Definition get_titi_bernstein_patch_ndim_generalbox (coeffs : list K) (exps : list key)
      (domain : list (string * (K * K))) : res matrix :=
    ndim <- get_ndim coeffs exps;;
    L <- get_titi_base_lambda_generalbox coeffs exps domain;;
    max_degrees <- get_max_degrees exps ndim;;
    Ok (fold_left (fun L dim => get_cycled_2d_array_vec (matmul (get_lower_pascal_matrix max_degrees dim) L) max_degrees dim)
                  (seq 0 ndim) L).

  (** unordered_map::at *)
  Fixpoint at_key {V} (m : list (string * V)) (s : string) : res V :=
    match m with
    | [] => Throw OutOfRange
    | (t, v) :: m' => if String.eqb t s then Ok v else at_key m' s
    end.

  (** std::minmax_element *)
  Definition min_of (l : list K) : K := fold_left (fun m x => if x <? m then x else m) (tl l) (nth 0 l 0).
  Definition max_of (l : list K) : K := fold_left (fun m x => if x <? m then m else x) (tl l) (nth 0 l 0).

  (** taylor_model.hpp:336-343 *)
  Definition flatten (m : matrix) : list K := concat m.

  (** taylor_model.hpp:377-383: the domain relative to the expansion points *)
  Definition shifted_domain (tpol : gdual K) (exp_points : list (string * K)) (domain : list (string * (K * K)))
      : res (list (string * (K * K))) :=
    fold_left (fun acc v =>
                 l <- acc;;
                 I <- at_key domain v;;
                 e <- at_key exp_points v;;
                 Ok (l ++ [(v, (fst I - e, snd I - e))]))
              (get_symbol_set tpol) (Ok []).

  (** taylor_model.hpp:353-405 *)
  Definition get_bounds (iter : list (string * (K * K)) -> list (string * (K * K)))
      (tpol : gdual K) (exp_points : list (string * K)) (domain : list (string * (K * K))) : res (K * K) :=
    ce <- get_poly tpol;;
    ndim <- get_ndim (fst ce) (snd ce);;
    if Nat.leb 1 ndim then
      domain_shifted <- shifted_domain tpol exp_points domain;;
      bern_patch <- get_titi_bernstein_patch_ndim_generalbox (fst ce) (snd ce) (iter domain_shifted);;
      let flat := flatten bern_patch in
      Ok (min_of flat, max_of flat)
    else Ok (constant_cf tpol, constant_cf tpol).
End Bounding.
