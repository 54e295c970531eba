(** * Model of the class [audi::gdual] (include/audi/gdual.hpp)

    The coefficient type [Cf] is any type with operations [Ops].  C++
    exceptions are the distinct outcome [Throw]. *)

From Coq Require Import String Ascii List Arith Bool ZArith.
From Verif Require Import Ops Syms Poly.
Import ListNotations.

(** Outcome of a call that may throw. *)
Inductive exn : Type := InvalidArgument | OutOfRange | RuntimeError | OtherException.
Inductive res (A : Type) : Type :=
| Ok (a : A)
| Throw (e : exn).
Arguments Ok {A} a.
Arguments Throw {A} e.

Definition rbind {A B} (r : res A) (f : A -> res B) : res B :=
  match r with Ok a => f a | Throw e => Throw e end.
Notation "x <- r ;; s" := (rbind r (fun x => s))
  (at level 61, r at next level, right associativity).

(** [unsigned int] is 32 bits wide. *)
Definition two32 : Z := 4294967296.
Definition two31 : Z := 2147483648.

(** [static_cast<int>(unsigned)] (two's complement). *)
Definition as_int (n : nat) : Z :=
  let z := Z.of_nat n in if Z.ltb z two31 then z else (z - two32)%Z.

Definition dsym (s : string) : string := String "d"%char s.
(** [std::string(s).erase(0, 1)]: removes the first character. *)
Definition undsym (s : string) : string :=
  match s with EmptyString => EmptyString | String _ r => r end.

(** gdual.hpp:141-146 [check_var_name]; [name.at(0)] throws out_of_range on
    the empty string. *)
Definition check_var_name (name : string) : res unit :=
  match name with
  | EmptyString => Throw OutOfRange
  | String c _ => if Ascii.eqb c "d"%char then Throw InvalidArgument else Ok tt
  end.
(** gdual.hpp:148-153 [check_var_name_has_d] *)
Definition check_var_name_has_d (name : string) : res unit :=
  match name with
  | EmptyString => Throw OutOfRange
  | String c _ => if Ascii.eqb c "d"%char then Ok tt else Throw InvalidArgument
  end.

Section Gdual.
  Context {K : Type} {o : Ops K}.
  Local Open Scope K_scope.

  (** gdual.hpp:267-268: the two data members. *)
  Record gdual : Type := mkG { gp : poly K; gord : nat }.

  (** gdual.hpp:134-139 [check_order]: order >= UINT_MAX - 10 is rejected. *)
  Definition check_order (order : nat) : res unit :=
    if Z.leb (two32 - 1 - 10) (Z.of_nat order) then Throw InvalidArgument else Ok tt.

  (** gdual.hpp:276 default constructor. *)
  Definition gdefault : gdual := mkG (pconst 0) 0.
  (** gdual.hpp:284-288 [gdual(value)]: [m_p(); m_p += Cf(value)]. *)
  Definition gconst (v : K) : gdual := mkG (padd pzero (pconst v)) 0.
  (** gdual.hpp:159-162 private constructor [gdual(value, order)]. *)
  Definition gconst_ord (v : K) (order : nat) : gdual := mkG (pconst v) order.

  (** gdual.hpp:333-336, 344-352 *)
  Definition get_symbol_set_size (g : gdual) : nat := length (psyms (gp g)).
  Definition get_symbol_set (g : gdual) : list string := map undsym (psyms (gp g)).

  Fixpoint check_all_d (l : list string) : res unit :=
    match l with
    | [] => Ok tt
    | s :: l' => _ <- check_var_name_has_d s;; check_all_d l'
    end.

  (** gdual.hpp:368-374 [extend_symbol_set]; obake::add_symbols merges the
      given set into the symbol set of the polynomial. *)
  Definition padd_symbols (l : list string) (p : poly K) : poly K :=
    pext (sunion (psyms p) (sset l)) p.
  Definition extend_symbol_set (l : list string) (g : gdual) : res gdual :=
    _ <- check_all_d l;; Ok (mkG (padd_symbols l (gp g)) (gord g)).

  (** gdual.hpp:295-306 [gdual(value, symbol, order)] (and 308-320, the
      initializer_list variant, identical). *)
  Definition gvar (v : K) (symbol : string) (order : nat) : res gdual :=
    _ <- check_order order;;
    _ <- check_var_name symbol;;
    g <- (if Nat.eqb order 0
          then extend_symbol_set [dsym symbol] (mkG pzero order)
          else Ok (mkG (pvar (dsym symbol)) order));;
    Ok (mkG (padd (gp g) (pconst v)) (gord g)).

  (** gdual.hpp:165-180 [add] *)
  Definition gadd (d1 d2 : gdual) : gdual :=
    mkG (padd (gp d1) (gp d2)) (Nat.max (gord d1) (gord d2)).
  Definition gadd_sg (d1 : K) (d2 : gdual) : gdual := mkG (padd (pconst d1) (gp d2)) (gord d2).
  Definition gadd_gs (d1 : gdual) (d2 : K) : gdual := mkG (padd (pconst d2) (gp d1)) (gord d1).

  (** gdual.hpp:183-198 [sub] *)
  Definition gsub (d1 d2 : gdual) : gdual :=
    mkG (psub (gp d1) (gp d2)) (Nat.max (gord d1) (gord d2)).
  Definition gsub_sg (d1 : K) (d2 : gdual) : gdual := mkG (psub (pconst d1) (gp d2)) (gord d2).
  Definition gsub_gs (d1 : gdual) (d2 : K) : gdual := mkG (psub (gp d1) (pconst d2)) (gord d1).

  (** gdual.hpp:857-866 unary operators *)
  Definition gneg (d : gdual) : gdual := mkG (pneg (gp d)) (gord d).
  Definition gpos (d : gdual) : gdual := d.

  (** gdual.hpp:201-217 [mul] *)
  Definition gmul (d1 d2 : gdual) : gdual :=
    let order := Nat.max (gord d1) (gord d2) in
    mkG (ptmul order (gp d1) (gp d2)) order.
  Definition gmul_sg (d1 : K) (d2 : gdual) : gdual := gmul (gconst_ord d1 (gord d2)) d2.
  Definition gmul_gs (d1 : gdual) (d2 : K) : gdual := gmul d1 (gconst_ord d2 (gord d1)).

  (** gdual.hpp:260-265 [div(gdual, T)] *)
  Definition gdiv_gs (d1 : gdual) (d2 : K) : gdual := gmul_gs d1 (1 / d2).

  (** gdual.hpp:562-609 [find_cf] (container and initializer_list variants).
      The degree is accumulated in an [unsigned int].  Exponents are
      naturals here: negative exponents, which obake's packed monomials
      reject, are not modelled. *)
  Definition find_cf (g : gdual) (c : key) : res K :=
    if Z.ltb (Z.of_nat (gord g)) (Z.of_nat (kdeg c) mod two32) then Throw InvalidArgument
    else if negb (Nat.eqb (length c) (get_symbol_set_size g)) then Throw InvalidArgument
    else match pfind c (gp g) with Some v => Ok v | None => Ok 0 end.

  (** gdual.hpp:702-706 [constant_cf].  The call to [find_cf] never throws
      (proved: [constant_cf_never_throws]). *)
  Definition constant_cf (g : gdual) : K :=
    match find_cf g (repeat 0%nat (get_symbol_set_size g)) with
    | Ok v => v
    | Throw _ => 0
    end.

  (** gdual.hpp:222-237 [div(gdual, gdual)] up to the last line: the loop
      computing the reciprocal of [d2 / p0].  State: (retval, fatt, phat). *)
  Definition grecip_loop (d2 : gdual) : gdual :=
    let p0 := constant_cf d2 in
    let phat := gdiv_gs (gsub_gs d2 p0) p0 in
    let tmp := phat in
    let retval := gsub (gconst 1) phat in
    let '(retval, _, _) :=
      fold_left (fun '(retval, fatt, phat) (_ : nat) =>
                   let fatt := (- (1)) * fatt in
                   let phat := gmul phat tmp in
                   let retval := gadd retval (gmul_sg fatt phat) in
                   (retval, fatt, phat))
                (seq 2 (gord d2 - 1)) (retval, - (1), phat) in
    retval.
  (** gdual.hpp:220-237 and 240-257 [div] *)
  Definition gdiv (d1 d2 : gdual) : gdual :=
    gdiv_gs (gmul d1 (grecip_loop d2)) (constant_cf d2).
  Definition gdiv_sg (d1 : K) (d2 : gdual) : gdual :=
    gdiv_gs (gmul_sg d1 (grecip_loop d2)) (constant_cf d2).

  (** gdual.hpp:393-400 [integrate]; obake::truncate_degree receives
      [static_cast<int>(m_order)]. *)
  Definition ptruncateZ (m : Z) (p : poly K) : poly K :=
    pfilter (fun t => Z.leb (Z.of_nat (kdeg (fst t))) m) p.
  Definition gintegrate (g : gdual) (var_name : string) : res gdual :=
    _ <- check_var_name var_name;;
    Ok (mkG (ptruncateZ (as_int (gord g)) (pintegrate (dsym var_name) (gp g))) (gord g)).

  (** gdual.hpp:416-422 [partial] *)
  Definition gpartial (g : gdual) (var_name : string) : res gdual :=
    _ <- check_var_name var_name;;
    Ok (mkG (pdiff (dsym var_name) (gp g)) (gord g)).

  (** gdual.hpp:431-436 [subs(sym, value)] *)
  Definition gsubs_val (g : gdual) (sym : string) (v : K) : gdual :=
    mkG (psubs_val sym v (gp g)) (gord g).

  (** gdual.hpp:453-459 [subs(sym, gdual)] *)
  Definition gsubs (g : gdual) (sym : string) (v : gdual) : gdual :=
    mkG (ptrim (ptruncate (gord g) (psubs_poly sym (gp v) (gp g)))) (gord g).

  (** gdual.hpp:469-479 [trim(epsilon)] *)
  Definition gtrim (g : gdual) (eps : K) : res gdual :=
    if eps <? 0 then Throw InvalidArgument
    else Ok (mkG (pfilter (fun t => negb (kabs (snd t) <? eps)) (gp g)) (gord g)).

  (** gdual.hpp:492-502 [extract_terms(order)]: the returned gdual has
      truncation order [order]. *)
  Definition extract_terms (g : gdual) (order : nat) : res gdual :=
    if Nat.ltb (gord g) order then Throw InvalidArgument
    else Ok (mkG (pfilter (fun t => Nat.eqb (kdeg (fst t)) order) (gp g)) order).

  (** gdual.hpp:512-515 [evaluate(dict)]: obake::evaluate throws
      std::invalid_argument when a symbol of the polynomial has no value. *)
  Fixpoint dfind {A} (s : string) (l : list (string * A)) : option A :=
    match l with
    | [] => None
    | (x, a) :: l' => if String.eqb x s then Some a else dfind s l'
    end.
  Definition gevaluate (g : gdual) (dict : list (string * K)) : res K :=
    if forallb (fun s => match dfind s dict with Some _ => true | None => false end)
               (psyms (gp g))
    then Ok (peval (gp g) (fun s => match dfind s dict with Some v => v | None => 0 end))
    else Throw InvalidArgument.

  (** gdual.hpp:525-528, 536-539 *)
  Definition gdegree (g : gdual) : nat := pdegree (gp g).
  Definition get_order (g : gdual) : nat := gord g.

  (** boost::math::factorial<double>(n), exact as long as it is
      representable. *)
  Fixpoint kfact (n : nat) : K :=
    match n with O => 1 | S m => kofnat (S m) * kfact m end.

  (** gdual.hpp:627-662 [get_derivative] (container and initializer_list).
      [boost::math::factorial<double>] throws [std::overflow_error] when the
      factorial is not a finite double, i.e. above 170
      ([max_factorial<double>::value]); it is called before [find_cf]. *)
  Definition factorial_overflows (e : nat) : bool := Z.ltb 170 (Z.of_nat e).
  Definition get_derivative (g : gdual) (c : key) : res K :=
    if existsb factorial_overflows c then Throw OtherException
    else
      let cumfact := fold_left (fun a e => a * kfact e) c 1 in
      v <- find_cf g c;; Ok (v * cumfact).

  (** gdual.hpp:681-693 [get_derivative(dict)].  The unordered_map is a list
      of entries in iteration order. *)
  Fixpoint index_of (s : string) (l : list string) : nat :=
    match l with
    | [] => 0
    | x :: l' => if String.eqb x s then 0 else S (index_of s l')
    end.
  Fixpoint set_nth (n : nat) (v : nat) (l : key) : key :=
    match l, n with
    | [], _ => []
    | _ :: l', O => v :: l'
    | x :: l', S n' => x :: set_nth n' v l'
    end.
  Fixpoint dict_coeff (ss : list string) (dict : list (string * nat)) (coeff : key) : option key :=
    match dict with
    | [] => Some coeff
    | (s, e) :: d' =>
        let idx := index_of s ss in
        if Nat.eqb idx (length ss) then None else dict_coeff ss d' (set_nth idx e coeff)
    end.
  Definition get_derivative_dict (g : gdual) (dict : list (string * nat)) : res K :=
    let ss := psyms (gp g) in
    match dict_coeff ss dict (repeat 0%nat (length ss)) with
    | None => Ok 0
    | Some coeff => get_derivative g coeff
    end.

  (** gdual.hpp:713-722 [is_zero(tol)] *)
  Definition gis_zero (g : gdual) (tol : K) : bool :=
    forallb (fun t => negb (tol <? kabs (snd t))) (pterms (gp g)).

  (** gdual.hpp:774-820 comparisons *)
  Definition geqb (d1 d2 : gdual) : bool := peqb (gp d1) (gp d2).
  Definition gneqb (d1 d2 : gdual) : bool := negb (geqb d1 d2).
  Definition gltb (d1 d2 : gdual) : bool := constant_cf d1 <? constant_cf d2.
  Definition ggtb (d1 d2 : gdual) : bool := constant_cf d2 <? constant_cf d1.
End Gdual.
Arguments gdual K : clear implicits.
