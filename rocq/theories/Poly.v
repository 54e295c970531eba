(** * Reference model of the obake polynomials used by audi

    audi stores [m_p : obake::polynomial<Monomial, Cf>]
    (include/audi/gdual.hpp:109, 267).  obake itself is an external library
    that is not part of /repo: the definitions of this file are the reference
    semantics of the obake entry points audi calls.  They are the trusted
    contract of that library (DESIGN.md section 4).

    A polynomial is a sorted symbol set plus a table of
    (exponent vector, coefficient) pairs with distinct keys and no zero
    coefficient.  obake keeps the table in a hash map; here it is a list
    whose order is irrelevant for every theorem.  Exponents are unbounded
    ([nat]); the 64-bit packing of [d_packed_monomial] is not modelled. *)

From Coq Require Import String List Arith Bool ZArith.
From Verif Require Import Ops Syms.
Import ListNotations.

Section Poly.
  Context {K : Type} {o : Ops K}.
  Local Open Scope K_scope.

  Definition term : Type := (key * K)%type.

  Record poly : Type := mkPoly { psyms : list string; pterms : list term }.

  (** Insert-or-accumulate, removing the term when the sum is zero
      (obake::detail::series_add_term). *)
  Fixpoint add_term (k : key) (c : K) (l : list term) : list term :=
    match l with
    | [] => if c =? 0 then [] else [(k, c)]
    | (k', c') :: l' =>
        if key_eqb k' k
        then (let s := c' + c in if s =? 0 then l' else (k', s) :: l')
        else (k', c') :: add_term k c l'
    end.

  Definition add_terms (ts acc : list term) : list term :=
    fold_left (fun a t => add_term (fst t) (snd t) a) ts acc.

  (** obake::add_symbols, for [W] containing the symbols of [p]. *)
  Definition pext (W : list string) (p : poly) : poly :=
    mkPoly W (map (fun t => (rekey (psyms p) W (fst t), snd t)) (pterms p)).

  Definition pzero : poly := mkPoly [] [].
  (** Construction of a polynomial from a coefficient: [p_type(Cf(v))]. *)
  Definition pconst (c : K) : poly := mkPoly [] (add_term [] c []).
  (** obake::make_polynomials<p_type>(s)[0]: the polynomial [s]. *)
  Definition pvar (s : string) : poly := mkPoly [s] (add_term [1%nat] 1 []).

  (** Binary + : merge the symbol sets, then accumulate the terms. *)
  Definition padd (p q : poly) : poly :=
    let W := sunion (psyms p) (psyms q) in
    mkPoly W (add_terms (pterms (pext W q)) (pterms (pext W p))).

  (** Unary - *)
  Definition pneg (p : poly) : poly :=
    mkPoly (psyms p) (map (fun t => (fst t, - snd t)) (pterms p)).

  (** Binary - : c' - c is computed as c' + (-c) (identical in IEEE
      arithmetic). *)
  Definition psub (p q : poly) : poly := padd p (pneg q).

  (** Product restricted to the term pairs whose total degree satisfies [ok]. *)
  Definition pmul_if (ok : nat -> bool) (p q : poly) : poly :=
    let W := sunion (psyms p) (psyms q) in
    mkPoly W
      (fold_left
         (fun acc t1 =>
            fold_left
              (fun acc t2 =>
                 if ok (kdeg (fst t1) + kdeg (fst t2))%nat
                 then add_term (kplus (fst t1) (fst t2)) (snd t1 * snd t2) acc
                 else acc)
              (pterms (pext W q)) acc)
         (pterms (pext W p)) []).

  (** obake::truncated_mul(p, q, m) *)
  Definition ptmul (m : nat) (p q : poly) : poly := pmul_if (fun d => Nat.leb d m) p q.
  (** obake polynomial product *)
  Definition pmul (p q : poly) : poly := pmul_if (fun _ => true) p q.

  (** obake::pow(p, n) for a natural exponent. *)
  Fixpoint ppow (p : poly) (n : nat) : poly :=
    match n with O => pconst 1 | S n' => pmul p (ppow p n') end.

  (** obake::diff(p, s).  For a symbol that does not occur the result is the zero
      polynomial.  The coefficients are constants (obake::diff of a
      coefficient is 0). *)
  Definition pdiff (s : string) (p : poly) : poly :=
    mkPoly (psyms p)
      (fold_left
         (fun acc t =>
            match expo (psyms p) (fst t) s with
            | O => acc
            | S e => add_term (kset (psyms p) (fst t) s e) (snd t * kofnat (S e)) acc
            end)
         (pterms p) []).

  (** obake::integrate(p, s): antiderivative without constant; the symbol is
      added if missing. *)
  Definition pintegrate (s : string) (p : poly) : poly :=
    let W := sinsert s (psyms p) in
    let q := pext W p in
    mkPoly W
      (fold_left
         (fun acc t =>
            let e := S (expo W (fst t) s) in
            add_term (kset W (fst t) s e) (snd t / kofnat e) acc)
         (pterms q) []).

  (** obake::subs(p, {s -> v}) with a coefficient value: every occurrence of
      [s] is evaluated; the symbol stays in the symbol set. *)
  Definition psubs_val (s : string) (v : K) (p : poly) : poly :=
    mkPoly (psyms p)
      (fold_left
         (fun acc t =>
            add_term (kset (psyms p) (fst t) s 0)
                     (snd t * kpow v (expo (psyms p) (fst t) s)) acc)
         (pterms p) []).

  (** obake::subs(p, {s -> q}) with a polynomial value. *)
  Definition psubs_poly (s : string) (q p : poly) : poly :=
    fold_left
      (fun acc t =>
         padd acc
           (pmul (mkPoly (psyms p) (add_term (kset (psyms p) (fst t) s 0) (snd t) []))
                 (ppow q (expo (psyms p) (fst t) s))))
      (pterms p) (mkPoly (sunion (psyms p) (psyms q)) []).

  (** obake::filter(p, f) and obake::truncate_degree(p, m). *)
  Definition pfilter (f : term -> bool) (p : poly) : poly :=
    mkPoly (psyms p) (filter f (pterms p)).
  Definition ptruncate (m : nat) (p : poly) : poly :=
    pfilter (fun t => Nat.leb (kdeg (fst t)) m) p.

  (** obake::trim(p): drop the symbols no term uses. *)
  Definition ptrim (p : poly) : poly :=
    let used s := existsb (fun t => negb (Nat.eqb (expo (psyms p) (fst t) s) 0)) (pterms p) in
    let W := filter used (psyms p) in
    mkPoly W (map (fun t => (rekey (psyms p) W (fst t), snd t)) (pterms p)).

  (** obake::degree(p); 0 for the zero polynomial. *)
  Definition pdegree (p : poly) : nat :=
    fold_right (fun t d => Nat.max (kdeg (fst t)) d) 0%nat (pterms p).

  (** [m_p.find(key)] *)
  Fixpoint tfind (k : key) (l : list term) : option K :=
    match l with
    | [] => None
    | (k', c) :: l' => if key_eqb k' k then Some c else tfind k l'
    end.
  Definition pfind (k : key) (p : poly) : option K := tfind k (pterms p).

  (** Value of a monomial under an assignment of the symbols. *)
  Fixpoint monoval (V : list string) (rho : string -> K) (k : key) : K :=
    match V, k with
    | v :: V', e :: k' => kpow (rho v) e * monoval V' rho k'
    | _, _ => 1
    end.

  (** obake::evaluate(p, map) when every symbol has a value. *)
  Definition peval (p : poly) (rho : string -> K) : K :=
    fold_right (fun t a => snd t * monoval (psyms p) rho (fst t) + a) 0 (pterms p).

  (** obake polynomial == : merge symbol sets, same number of terms, every
      term of the first found in the second with an equal coefficient. *)
  Definition peqb (p q : poly) : bool :=
    let W := sunion (psyms p) (psyms q) in
    let p' := pext W p in
    let q' := pext W q in
    Nat.eqb (length (pterms p')) (length (pterms q')) &&
    forallb (fun t => match pfind (fst t) q' with
                      | Some c => snd t =? c
                      | None => false
                      end) (pterms p').
End Poly.
Arguments poly K : clear implicits.
Arguments term K : clear implicits.
