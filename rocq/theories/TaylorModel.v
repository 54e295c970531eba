(** * Model of include/audi/taylor_model.hpp

    [double] is the coefficient type [K]; intervals and their arithmetic are
    those of Interval.v.  An unordered_map is an association list with distinct
    keys ([dfind] looks a key up); its iteration order only matters in
    [get_bounds], see Bounding.v, whose parameter [iter] is a parameter of the
    whole section.  Expansion points and orders are exact (no rounding);
    [static_cast<int>(k + 1)] is [k + 1].  Printing is not modelled. *)

From Coq Require Import String List Arith Bool ZArith.
From Verif Require Import Ops Syms Poly Gdual Functions Interval.
From Verif Require Bounding.
Import ListNotations.
Local Open Scope string_scope.
Local Open Scope list_scope.

Section Maps.
  Context {V : Type}.
  Definition has (s : string) (m : list (string * V)) : bool := match dfind s m with Some _ => true | None => false end.
  (** unordered_map::insert, emplace: no effect when the key is present *)
  Definition insert (s : string) (v : V) (m : list (string * V)) : list (string * V) :=
    if has s m then m else m ++ [(s, v)].
  (** unordered_map::operator[] read for a key that may be missing *)
  Definition get_or (d : V) (s : string) (m : list (string * V)) : V := match dfind s m with Some v => v | None => d end.

  (** taylor_model.hpp:428-456; [veq] is the overload of interval_equal for the
      type of the values *)
  Definition get_common_map (veq : V -> V -> bool) (a b : list (string * V)) : res (list (string * V)) :=
    let all_keys := map fst a ++ filter (fun s => negb (has s a)) (map fst b) in
    fold_left (fun acc key =>
                 result <- acc;;
                 match dfind key a, dfind key b with
                 | Some x, Some y => if veq x y then Ok (insert key x result) else Throw RuntimeError
                 | Some x, None => Ok (insert key x result)
                 | None, Some y => Ok (insert key y result)
                 | None, None => Ok result
                 end) all_keys (Ok []).

  (** taylor_model.hpp:477-494 *)
  Definition trim_map (symbol_set : list string) (a : list (string * V)) : res (list (string * V)) :=
    fold_left (fun acc symb =>
                 result <- acc;;
                 match dfind symb a with
                 | Some v => Ok (insert symb v result)
                 | None => Throw OtherException
                 end) symbol_set (Ok []).
End Maps.

Section TaylorModel.
  Context {K : Type} {o : Ops K}.
  Local Open Scope K_scope.
  Notation ival := (K * K)%type.
  Variable iter : list (string * ival) -> list (string * ival).
  Notation get_bounds := (Bounding.get_bounds iter).

  (** taylor_model.hpp:90-102 *)
  Record taylor_model : Type := mkTM {
    m_tpol : gdual K; m_order : nat; m_ndim : nat; m_rem : ival;
    m_exp : list (string * K); m_domain : list (string * ival)
  }.

  (** taylor_model.hpp:104-134 *)
  Definition check_input_validity (t : taylor_model) : res unit :=
    if negb (forallb (fun s => has s (m_exp t)) (map fst (m_domain t))
             && forallb (fun s => has s (m_domain t)) (map fst (m_exp t))) then Throw InvalidArgument
    else if negb (forallb (fun kv => iin (get_or 0 (fst kv) (m_exp t)) (snd kv)) (m_domain t)) then Throw InvalidArgument
    else if negb (Nat.eqb (length (m_domain t)) (m_ndim t)) then Throw InvalidArgument
    else Ok tt.

  (** taylor_model.hpp:150; m_ndim is left uninitialised *)
  Definition tm_default (garbage : nat) : taylor_model := mkTM (gconst 0) 0 garbage (0, 0) [] [].
  (** taylor_model.hpp:154-166 *)
  Definition tm_make (tpol : gdual K) (rem_bound : ival) (exp_point : list (string * K)) (domain : list (string * ival))
      : res taylor_model :=
    let t := mkTM tpol (get_order tpol) (get_symbol_set_size tpol) rem_bound exp_point domain in
    _ <- check_input_validity t;; Ok t.
  (** taylor_model.hpp:169-177 *)
  Definition tm_const (constant : K) : taylor_model := mkTM (gconst constant) 0 0 (0, 0) [] [].
  (** taylor_model.hpp:181-205 *)
  Definition tm_identity : taylor_model := mkTM (gconst 1) 0 0 (0, 0) [] [].
  Definition tm_identity_with (rem : ival) (exp : list (string * K)) (domain : list (string * ival)) : taylor_model :=
    mkTM (gconst 1) 0 0 rem exp domain.

  (** taylor_model.hpp:245-268: the object after the call, and what the call
      did.  The members are assigned before the check. *)
  Definition checked (t : taylor_model) : taylor_model * res unit := (t, check_input_validity t).
  Definition set_tpol (tpol : gdual K) (t : taylor_model) : taylor_model * res unit :=
    checked (mkTM tpol (get_order tpol) (get_symbol_set_size tpol) (m_rem t) (m_exp t) (m_domain t)).
  Definition set_rem (rem : ival) (t : taylor_model) : taylor_model :=
    mkTM (m_tpol t) (m_order t) (m_ndim t) rem (m_exp t) (m_domain t).
  Definition set_exp (exp : list (string * K)) (t : taylor_model) : taylor_model * res unit :=
    checked (mkTM (m_tpol t) (m_order t) (m_ndim t) (m_rem t) exp (m_domain t)).
  Definition set_dom (dom : list (string * ival)) (t : taylor_model) : taylor_model * res unit :=
    checked (mkTM (m_tpol t) (m_order t) (m_ndim t) (m_rem t) (m_exp t) dom).
  (** taylor_model.hpp:270-297 *)
  Definition tm_extend_symbol_set (sym_vars : list string) (exp_point : list (string * K)) (domain : list (string * ival))
      (t : taylor_model) : taylor_model * res unit :=
    let '(t, r) :=
      fold_left (fun '(t, r) var =>
                   match r with
                   | Throw x => (t, Throw x)
                   | Ok _ =>
                       match dfind var exp_point with
                       | None => (t, Throw OtherException)
                       | Some e =>
                           let t := mkTM (m_tpol t) (m_order t) (m_ndim t) (m_rem t) (insert var e (m_exp t)) (m_domain t) in
                           match dfind var domain with
                           | None => (t, Throw OtherException)
                           | Some d => (mkTM (m_tpol t) (m_order t) (m_ndim t) (m_rem t) (m_exp t) (insert var d (m_domain t)), Ok tt)
                           end
                       end
                   end) sym_vars (t, Ok tt) in
    match r with
    | Throw x => (t, Throw x)
    | Ok _ =>
        match extend_symbol_set (map dsym sym_vars) (m_tpol t) with
        | Throw x => (t, Throw x)
        | Ok g => checked (mkTM g (m_order t) (get_symbol_set_size g) (m_rem t) (m_exp t) (m_domain t))
        end
    end.

  (** taylor_model.hpp:316-324 *)
  Definition get_increased_order (poly : gdual K) (new_order : nat) : res (gdual K) :=
    temp <- gvar 0 "temp" new_order;;
    Ok (gsubs temp "dtemp" poly).

  (** taylor_model.hpp:353-356 *)
  Definition tm_bounds (t : taylor_model) : res ival := get_bounds (m_tpol t) (m_exp t) (m_domain t).

  (** taylor_model.hpp:986-1025 [interval_equal] without tolerance argument, for
      double and for int_d: ten times the machine epsilon 2^-52 *)
  Definition tol10 : K := kofZ 10 / kofZ 4503599627370496.
  Definition scalar_equal (a b : K) : bool := kabs (a - b) <? tol10.
  Definition interval_equal (a b : ival) : bool := scalar_equal (fst a) (fst b) && scalar_equal (snd a) (snd b).

  Definition common_exp (d1 d2 : taylor_model) := get_common_map scalar_equal (m_exp d1) (m_exp d2).
  Definition common_domain (d1 d2 : taylor_model) := get_common_map interval_equal (m_domain d1) (m_domain d2).

  (** taylor_model.hpp:517-527 *)
  Definition tm_add (d1 d2 : taylor_model) : res taylor_model :=
    ce <- common_exp d1 d2;;
    cd <- common_domain d1 d2;;
    let new_tpol := gadd (m_tpol d1) (m_tpol d2) in
    ne <- trim_map (get_symbol_set new_tpol) ce;;
    nd <- trim_map (get_symbol_set new_tpol) cd;;
    tm_make new_tpol (iadd (m_rem d1) (m_rem d2)) ne nd.
  (** taylor_model.hpp:531-555: scalar + model, model + scalar, interval + model, model + interval *)
  Definition tm_add_sg (d1 : K) (d2 : taylor_model) := tm_make (gadd_sg d1 (m_tpol d2)) (m_rem d2) (m_exp d2) (m_domain d2).
  Definition tm_add_gs (d1 : taylor_model) (d2 : K) := tm_make (gadd_gs (m_tpol d1) d2) (m_rem d1) (m_exp d1) (m_domain d1).
  Definition tm_add_ig (d1 : ival) (d2 : taylor_model) := tm_make (m_tpol d2) (iadd d1 (m_rem d2)) (m_exp d2) (m_domain d2).
  Definition tm_add_gi (d1 : taylor_model) (d2 : ival) := tm_make (m_tpol d1) (iadd (m_rem d1) d2) (m_exp d1) (m_domain d1).

  (** taylor_model.hpp:577-587 *)
  Definition tm_sub (d1 d2 : taylor_model) : res taylor_model :=
    ce <- common_exp d1 d2;;
    cd <- common_domain d1 d2;;
    let new_tpol := gsub (m_tpol d1) (m_tpol d2) in
    ne <- trim_map (get_symbol_set new_tpol) ce;;
    nd <- trim_map (get_symbol_set new_tpol) cd;;
    tm_make new_tpol (isub (m_rem d1) (m_rem d2)) ne nd.
  (** taylor_model.hpp:591-615 *)
  Definition tm_sub_sg (d1 : K) (d2 : taylor_model) := tm_make (gsub_sg d1 (m_tpol d2)) (m_rem d2) (m_exp d2) (m_domain d2).
  Definition tm_sub_gs (d1 : taylor_model) (d2 : K) := tm_make (gsub_gs (m_tpol d1) d2) (m_rem d1) (m_exp d1) (m_domain d1).
  Definition tm_sub_ig (d1 : ival) (d2 : taylor_model) := tm_make (m_tpol d2) (isub d1 (m_rem d2)) (m_exp d2) (m_domain d2).
  Definition tm_sub_gi (d1 : taylor_model) (d2 : ival) := tm_make (m_tpol d1) (isub (m_rem d1) d2) (m_exp d1) (m_domain d1).
  (** taylor_model.hpp:895-898 *)
  Definition tm_neg (d : taylor_model) := tm_sub_sg 0 d.

  (** d1.m_tpol.get_order() + d2.m_tpol.get_order(), an unsigned int *)
  Definition uadd (a b : nat) : nat := Z.to_nat ((Z.of_nat a + Z.of_nat b) mod two32).
  (** taylor_model.hpp:667-670 *)
  Definition agreeable (product : gdual K) (degree : nat) : res (gdual K) :=
    fold_left (fun acc i => a <- acc;; t <- extract_terms product i;; Ok (gadd a t)) (seq 0 (S degree)) (Ok (gconst 0)).
  (** taylor_model.hpp:676-692; the tolerance is 10^-16 *)
  Definition tol_zero : K := 1 / kofZ 10000000000000000.
  Definition truncation_bounds (pol_e : gdual K) (ce : list (string * K)) (cd : list (string * ival)) : res ival :=
    if gis_zero pol_e tol_zero then Ok (0, 0)
    else
      let symbs_e := get_symbol_set pol_e in
      get_bounds pol_e (map (fun s => (s, get_or 0 s ce)) symbs_e) (map (fun s => (s, get_or (0, 0) s cd)) symbs_e).
  (** taylor_model.hpp:644-698 *)
  Definition tm_mul (d1 d2 : taylor_model) : res taylor_model :=
    zero <- gvar 0 "irrelevant" 0;;
    if geqb (m_tpol d1) zero || geqb (m_tpol d2) zero then Ok (tm_const 0)
    else
      ce <- common_exp d1 d2;;
      cd <- common_domain d1 d2;;
      let new_order := uadd (get_order (m_tpol d1)) (get_order (m_tpol d2)) in
      d1_ho <- get_increased_order (m_tpol d1) new_order;;
      d2_ho <- get_increased_order (m_tpol d2) new_order;;
      let polynomial_product := gmul d1_ho d2_ho in
      let agreeable_degree := Nat.max (get_order (m_tpol d1)) (get_order (m_tpol d2)) in
      agreeable_pol <- agreeable polynomial_product agreeable_degree;;
      ne <- trim_map (get_symbol_set agreeable_pol) ce;;
      nd <- trim_map (get_symbol_set agreeable_pol) cd;;
      let pol_e := gsub polynomial_product agreeable_pol in
      be <- truncation_bounds pol_e ce cd;;
      b1 <- tm_bounds d1;;
      b2 <- tm_bounds d2;;
      tm_make agreeable_pol
        (iadd (iadd (iadd be (imul b1 (m_rem d2))) (imul (m_rem d1) b2)) (imul (m_rem d1) (m_rem d2))) ne nd.
  (** taylor_model.hpp:702-730 *)
  Definition tm_mul_sg (d1 : K) (d2 : taylor_model) :=
    tm_make (gmul_sg d1 (m_tpol d2)) (imul (ipt d1) (m_rem d2)) (m_exp d2) (m_domain d2).
  Definition tm_mul_gs (d1 : taylor_model) (d2 : K) :=
    tm_make (gmul_gs (m_tpol d1) d2) (imul (m_rem d1) (ipt d2)) (m_exp d1) (m_domain d1).
  Definition tm_mul_ig (d1 : ival) (d2 : taylor_model) : res taylor_model :=
    tm_one <- tm_make (gconst 1) d1 (m_exp d2) (m_domain d2);;
    tm_mul tm_one d2.
  Definition tm_mul_gi (d1 : taylor_model) (d2 : ival) : res taylor_model :=
    gd_one <- gvar 1 "x" 0;;
    tm_one <- tm_make gd_one d2 (m_exp d1) (m_domain d1);;
    tm_mul d1 tm_one.

  (** taylor_model.hpp:767-787 (and the same first lines in the functions of
      taylor_model_functions.hpp) *)
  Definition f_bar (t : taylor_model) : gdual K := gsub_gs (m_tpol t) (constant_cf (m_tpol t)).
  Definition f_bar_remainder_bounds (t : taylor_model) : res ival :=
    f_bar_bounds <- get_bounds (f_bar t) (m_exp t) (m_domain t);;
    Ok (iadd f_bar_bounds (m_rem t)).
  Definition unit_interval : ival := (0, 1).
  Definition tm_div_sg (d1 : K) (d2 : taylor_model) : res taylor_model :=
    b <- tm_bounds d2;;
    if zero_in (iadd b (m_rem d2)) then Throw RuntimeError
    else
      let const_term := constant_cf (m_tpol d2) in
      F <- f_bar_remainder_bounds d2;;
      let k := get_order (m_tpol d2) in
      Fc <- idiv F (ipt const_term);;
      lead <- idiv (imul (ipt (kpow (- (1)) (k + 1))) (ipow F (k + 1))) (ipt (kpow const_term (k + 2)));;
      tail <- idiv (ipt 1) (ipow (iadd (ipt 1) (imul Fc unit_interval)) (k + 2));;
      tm_make (gdiv_sg d1 (m_tpol d2)) (imul lead tail) (m_exp d2) (m_domain d2).
  (** taylor_model.hpp:761-764 *)
  Definition tm_div (d1 d2 : taylor_model) : res taylor_model :=
    r <- tm_div_sg 1 d2;; tm_mul d1 r.
  (** taylor_model.hpp:791-812 *)
  Definition tm_div_gs (d1 : taylor_model) (d2 : K) : res taylor_model :=
    rem <- idiv (m_rem d1) (ipt d2);;
    tm_make (gdiv_gs (m_tpol d1) d2) rem (m_exp d1) (m_domain d1).
  Definition tm_div_ig (d1 : ival) (d2 : taylor_model) : res taylor_model :=
    tm_one <- tm_make (gconst 1) d1 (m_exp d2) (m_domain d2);;
    tm_mul tm_one d2.
  Definition tm_div_gi (d1 : taylor_model) (d2 : ival) : res taylor_model :=
    gd_one <- gvar 1 "x" 0;;
    tm_one <- tm_make gd_one d2 (m_exp d1) (m_domain d1);;
    tm_mul d1 tm_one.

  (** taylor_model.hpp:1039-1049 and 1066-1080, without tolerance argument *)
  Definition map_interval_equal (a b : list (string * ival)) : bool :=
    Nat.eqb (length a) (length b)
    && forallb (fun kv => match dfind (fst kv) b with Some v => interval_equal (snd kv) v | None => false end) a.
  Definition map_equal (a b : list (string * K)) : bool :=
    Nat.eqb (length a) (length b)
    && forallb (fun kv => match dfind (fst kv) b with Some v => snd kv =? v | None => false end) a.
  (** taylor_model.hpp:1116-1135 *)
  Definition tm_eqb (a b : taylor_model) : bool :=
    geqb (m_tpol a) (m_tpol b) && interval_equal (m_rem a) (m_rem b) && map_equal (m_exp a) (m_exp b)
    && map_interval_equal (m_domain a) (m_domain b).
  Definition tm_neqb (a b : taylor_model) : bool :=
    gneqb (m_tpol a) (m_tpol b) || negb (interval_equal (m_rem a) (m_rem b)) || negb (map_equal (m_exp a) (m_exp b))
    || negb (map_interval_equal (m_domain a) (m_domain b)).
End TaylorModel.
Arguments taylor_model K : clear implicits.
