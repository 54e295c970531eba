(** * Properties C19-C26: derivatives, calculus, evaluation, equality,
      construction

    The statements use the vocabulary of Spec.v.  Theorems without
    [FieldLaws] hold for every coefficient arithmetic, IEEE doubles
    included; those with [FieldLaws] hold for exact field arithmetic. *)

From Coq Require Import String Ascii List Arith Bool ZArith QArith Qcanon Sorting.Sorted.
From Verif Require Import Ops Syms Poly Gdual Functions Spec CoefFacts CoreProofs CalcProofs QuadAlg ValueProofs MiscProofs Samples CalcSamples.
Import ListNotations.
Open Scope nat_scope.
Open Scope string_scope.

(** ** C19 *)
(** Missing: exponents above 170 (refuted below). *)
Theorem C19_derivative_by_differentiation_partial :
  forall (K : Type) (o : Ops K) (fl : FieldLaws o) (g : gdual K) (k : list nat), valid g ->
  (Z.of_nat (get_order g) < 4294967296)%Z ->
  (forall s, In s (psyms (gp g)) -> exists r, s = dsym r /\ check_var_name r = Ok tt) ->
  length k = length (psyms (gp g)) -> list_sum k <= get_order g -> (forall e, In e k -> (Z.of_nat e <= 170)%Z) ->
  exists r, mixed_partial g (combine (get_symbol_set g) k) = Ok r /\ get_derivative g k = Ok (constant_cf r).
Proof. exact @derivative_partials. Qed.
Print Assumptions C19_derivative_by_differentiation_partial.
(** boost's factorial throws for the 171st derivative, which exists and is in
    the expansion. *)
Theorem C19_high_derivatives_refuted :
  exists (g r : gdual Qc) (k : list nat), reach g /\ length k = length (psyms (gp g)) /\ list_sum k <= get_order g /\
  (exists v, find_cf g k = Ok v) /\ mixed_partial g (combine (get_symbol_set g) k) = Ok r /\
  get_derivative g k = Throw OtherException.
Proof. exact high_derivative. Qed.
Print Assumptions C19_high_derivatives_refuted.
Example C19_case : valid xy /\ psyms (gp xy) = ["dx"; "dy"] /\ list_sum [2; 1] <= get_order xy /\
  match get_derivative xy [2; 1] with Ok v => keqb v k0 = false | Throw _ => False end.
Proof. split; [exact xy_valid|vm_compute; auto]. Qed.

(** ** C20 *)
(** The sum of the exponents is accumulated in 32 bits: the request is
    rejected exactly when documented as long as that sum does not wrap. *)
Theorem C20_find_cf :
  forall (K : Type) (o : Ops K) (g : gdual K) (c : list nat), valid g ->
  (Z.of_nat (list_sum c) < 4294967296)%Z ->
  find_cf g c =
  if Nat.ltb (get_order g) (list_sum c) || negb (Nat.eqb (length c) (length (psyms (gp g))))
  then Throw InvalidArgument
  else Ok (match stored g (psyms (gp g)) c with Some v => v | None => k0 end).
Proof. exact @find_cf_spec. Qed.
Print Assumptions C20_find_cf.
Theorem C20_find_cf_wraps_refuted :
  exists (g : gdual Qc) (c : list nat), reach g /\ length c = length (psyms (gp g)) /\
  get_order g < list_sum c /\ exists v, find_cf g c = Ok v.
Proof. exact find_cf_wrap. Qed.
Print Assumptions C20_find_cf_wraps_refuted.
Theorem C20_constant_cf_never_throws :
  forall (K : Type) (o : Ops K) (g : gdual K),
  find_cf g (repeat 0 (get_symbol_set_size g)) = Ok (constant_cf g).
Proof. exact @constant_cf_never_throws. Qed.
Print Assumptions C20_constant_cf_never_throws.
Theorem C20_get_derivative :
  forall (K : Type) (o : Ops K) (g : gdual K) (c : list nat),
  ((forall e, In e c -> (Z.of_nat e <= 170)%Z) -> get_derivative g c =
  match find_cf g c with
  | Ok v => Ok (kmul v (fold_left (fun a e => kmul a (kfact e)) c k1))
  | Throw x => Throw x
  end) /\
  ((exists e, In e c /\ (170 < Z.of_nat e)%Z) -> get_derivative g c = Throw OtherException).
Proof. exact @get_derivative_spec. Qed.
Print Assumptions C20_get_derivative.
Theorem C20_derivative_dict :
  forall (K : Type) (o : Ops K) (g : gdual K) (dict : list (string * nat)), valid g -> NoDup (map fst dict) ->
  get_derivative_dict g dict =
  if forallb (fun se => str_in (fst se) (psyms (gp g))) dict
  then get_derivative g (map (fun s => match dfind s dict with Some e => e | None => 0 end) (psyms (gp g)))
  else Ok k0.
Proof. exact @derivative_dict. Qed.
Print Assumptions C20_derivative_dict.
(** The documentation promises an exception for an unknown symbol. *)
Theorem C20_dict_unknown_throws_refuted :
  exists (g : gdual Qc) dict s, reach g /\ In s (map fst dict) /\ ~ In s (psyms (gp g)) /\
  get_derivative_dict g dict = Ok k0.
Proof. exact dict_unknown. Qed.
Print Assumptions C20_dict_unknown_throws_refuted.
Example C20_case : valid xy /\ find_cf xy [3; 1] = Throw InvalidArgument /\ find_cf xy [1] = Throw InvalidArgument /\
  (exists v, find_cf xy [1; 1] = Ok v /\ keqb v k0 = false) /\
  get_derivative_dict xy [("dy", 1); ("dx", 2)] = get_derivative xy [2; 1].
Proof. split; [exact xy_valid|]. split; [vm_compute; auto|]. split; [vm_compute; auto|]. split; [eexists; vm_compute; split; reflexivity|vm_compute; reflexivity]. Qed.

(** ** C21 *)
Theorem C21_partial_coef :
  forall (K : Type) (o : Ops K) (fl : FieldLaws o) (g : gdual K) s r W k, valid g -> gpartial g s = Ok r ->
  NoDup W -> length k = length W -> In (dsym s) W ->
  coef r W k = kmul (kofnat (S (expo W k (dsym s)))) (coef g W (incr W k (dsym s))).
Proof. exact @coef_partial_valid. Qed.
Print Assumptions C21_partial_coef.
Theorem C21_integrate_coef :
  forall (K : Type) (o : Ops K) (fl : FieldLaws o) (g : gdual K) s r W k, valid g -> gintegrate g s = Ok r ->
  (Z.of_nat (get_order g) < 2147483648)%Z -> NoDup W -> length k = length W -> In (dsym s) W ->
  coef r W (incr W k (dsym s)) =
    (if Nat.ltb (list_sum k) (get_order g) then kdiv (coef g W k) (kofnat (S (expo W k (dsym s)))) else k0) /\
  (expo W k (dsym s) = 0 -> coef r W k = k0).
Proof. exact @coef_integrate. Qed.
Print Assumptions C21_integrate_coef.
Theorem C21_partial_integrate :
  forall (K : Type) (o : Ops K) (fl : FieldLaws o) (g : gdual K) s i p W k, valid g ->
  (Z.of_nat (get_order g) < 2147483648)%Z -> gintegrate g s = Ok i -> gpartial i s = Ok p ->
  NoDup W -> length k = length W ->
  coef p W k = if Nat.ltb (list_sum k) (get_order g) then coef g W k else k0.
Proof. exact @partial_integrate. Qed.
Print Assumptions C21_partial_integrate.
Theorem C21_integrate_partial :
  forall (K : Type) (o : Ops K) (fl : FieldLaws o) (g : gdual K) s p i W k, valid g ->
  (Z.of_nat (get_order g) < 2147483648)%Z -> gpartial g s = Ok p -> gintegrate p s = Ok i ->
  NoDup W -> length k = length W -> In (dsym s) W ->
  coef i W k = if Nat.eqb (expo W k (dsym s)) 0 then k0 else coef g W k.
Proof. exact @integrate_partial. Qed.
Print Assumptions C21_integrate_partial.
(** [integrate] passes the order as a signed int: from 2^31 on every term is
    dropped. *)
Theorem C21_integrate_large_order_refuted :
  exists (g r p : gdual Qc) s, reach g /\ gintegrate g s = Ok r /\ gpartial r s = Ok p /\
  coef g ["dx"] [0] = k1 /\ list_sum [0] < get_order g /\ coef p ["dx"] [0] = k0.
Proof. exact integrate_large. Qed.
Print Assumptions C21_integrate_large_order_refuted.
Theorem C21_partial_linear :
  forall (K : Type) (o : Ops K) (fl : FieldLaws o) (a b : gdual K) v s ra rb, valid a -> valid b ->
  gpartial a s = Ok ra -> gpartial b s = Ok rb ->
  exists rs rv, gpartial (gadd a b) s = Ok rs /\ gpartial (gmul_sg v a) s = Ok rv /\
    geqb rs (gadd ra rb) = true /\ geqb rv (gmul_sg v ra) = true.
Proof. exact @partial_linear_ok. Qed.
Print Assumptions C21_partial_linear.
Theorem C21_integrate_linear_partial :
  forall (K : Type) (o : Ops K) (fl : FieldLaws o) (a b : gdual K) v s ra rb, valid a -> valid b ->
  get_order a = get_order b -> (Z.of_nat (get_order a) < 2147483648)%Z ->
  gintegrate a s = Ok ra -> gintegrate b s = Ok rb ->
  exists rs rv, gintegrate (gadd a b) s = Ok rs /\ gintegrate (gmul_sg v a) s = Ok rv /\
    geqb rs (gadd ra rb) = true /\ geqb rv (gmul_sg v ra) = true.
Proof. exact @integrate_linear_ok. Qed.
Print Assumptions C21_integrate_linear_partial.
(** With different orders the truncations differ. *)
Theorem C21_integrate_linear_refuted :
  exists (a b ra rb rs : gdual Qc) s, reach a /\ reach b /\
  gintegrate a s = Ok ra /\ gintegrate b s = Ok rb /\ gintegrate (gadd a b) s = Ok rs /\ geqb rs (gadd ra rb) = false.
Proof. exact integrate_mixed. Qed.
Print Assumptions C21_integrate_linear_refuted.
Theorem C21_partials_commute :
  forall (K : Type) (o : Ops K) (fl : FieldLaws o) (g : gdual K) s t rs rst, valid g ->
  gpartial g s = Ok rs -> gpartial rs t = Ok rst ->
  exists rt rts, gpartial g t = Ok rt /\ gpartial rt s = Ok rts /\ geqb rst rts = true.
Proof. exact @partial_comm_ok. Qed.
Print Assumptions C21_partials_commute.
Theorem C21_leibniz :
  forall (K : Type) (o : Ops K) (fl : FieldLaws o) (a b : gdual K) s ra rb rp n, valid a -> valid b ->
  S n <= Nat.max (get_order a) (get_order b) ->
  gpartial a s = Ok ra -> gpartial b s = Ok rb -> gpartial (gmul a b) s = Ok rp ->
  agree n rp (gadd (gmul ra b) (gmul a rb)).
Proof. exact @leibniz. Qed.
Print Assumptions C21_leibniz.
Theorem C21_names :
  forall (K : Type) (o : Ops K) (g : gdual K) s,
  (forall c x, s = String c x -> c <> "d"%char -> (exists r, gpartial g s = Ok r) /\ exists r, gintegrate g s = Ok r) /\
  (forall x, s = String "d" x -> gpartial g s = Throw InvalidArgument /\ gintegrate g s = Throw InvalidArgument) /\
  (s = EmptyString -> gpartial g s = Throw OutOfRange /\ gintegrate g s = Throw OutOfRange).
Proof. exact @calc_throws. Qed.
Print Assumptions C21_names.
Example C21_case : valid xy /\ (Z.of_nat (get_order xy) < 2147483648)%Z /\
  (exists i p, gintegrate xy "x" = Ok i /\ gpartial i "x" = Ok p /\ keqb (coef p ["dx"; "dy"] [1; 1]) k0 = false /\
               keqb (coef xy ["dx"; "dy"] [1; 2]) k0 = false /\ keqb (coef p ["dx"; "dy"] [1; 2]) k0 = true) /\
  exists r, gintegrate xy "z" = Ok r /\ psyms (gp r) = ["dx"; "dy"; "dz"].
Proof.
  split; [exact xy_valid|]. split; [vm_compute; auto|]. split.
  - exists (val (gintegrate xy "x")), (val (gpartial (val (gintegrate xy "x")) "x")). vm_compute. auto 6.
  - exists (val (gintegrate xy "z")). vm_compute. auto.
Qed.

(** ** C17 over any exact field
    (with real coefficients: Properties_Functions.v) *)
(** The quadrature of dg along f is the polynomial R whose partial
    derivatives are dg times those of f, for any number of variables. *)
Theorem C17_compose_any_field_partial :
  forall (K : Type) (o : Ops K) (fl : FieldLaws o) (f dg R r : gdual K), valid f -> valid dg -> valid R ->
  get_order dg = get_order f -> get_order R = get_order f -> (Z.of_nat (get_order f) < 2147483648)%Z ->
  (forall s, In s (psyms (gp f)) -> exists c t, s = dsym (String c t) /\ c <> "d"%char) ->
  incl (psyms (gp R)) (psyms (gp f)) ->
  (forall s p q, gpartial R s = Ok p -> gpartial f s = Ok q ->
     forall W k, NoDup W -> length k = length W -> list_sum k < get_order f -> coef p W k = coef (gmul dg q) W k) ->
  compose_from_derivative f dg (constant_cf R) = Ok r -> geqb r R = true.
Proof. exact @compose_gradient. Qed.
Print Assumptions C17_compose_any_field_partial.
(** For example the quadrature of 2 f is f * f. *)
Theorem C17_compose_square_partial :
  forall (K : Type) (o : Ops K) (fl : FieldLaws o) (f r : gdual K), valid f -> (Z.of_nat (get_order f) < 2147483648)%Z ->
  (forall s, In s (psyms (gp f)) -> exists c t, s = dsym (String c t) /\ c <> "d"%char) ->
  compose_from_derivative f (gadd f f) (constant_cf (gmul f f)) = Ok r -> geqb r (gmul f f) = true.
Proof. exact @compose_square. Qed.
Print Assumptions C17_compose_square_partial.
Example C17_any_field_case : valid xy /\ (Z.of_nat (get_order xy) < 2147483648)%Z /\
  (forall s, In s (psyms (gp xy)) -> exists c t, s = dsym (String c t) /\ c <> "d"%char) /\
  (exists r, compose_from_derivative xy (gadd xy xy) (constant_cf (gmul xy xy)) = Ok r /\
             keqb (coef r ["dx"; "dy"] [1; 1]) k0 = false) /\
  get_symbol_set xy = ["x"; "y"].
Proof.
  split; [exact xy_valid|]. split; [vm_compute; auto|]. split; [|split].
  - change (psyms (gp xy)) with ["dx"; "dy"]. intros s [<-|[<-|[]]]; (eexists; eexists; split; [reflexivity|discriminate]).
  - exists (val (compose_from_derivative xy (gadd xy xy) (constant_cf (gmul xy xy)))). vm_compute. auto.
  - reflexivity.
Qed.

(** ** C22 *)
Theorem C22_subs_value :
  forall (K : Type) (o : Ops K) (fl : FieldLaws o) (g : gdual K) s v rho, valid g ->
  value (gsubs_val g s v) rho = value g (update rho s v).
Proof. exact @value_subs_val. Qed.
Print Assumptions C22_subs_value.
Theorem C22_subs_value_free :
  forall (K : Type) (o : Ops K) (fl : FieldLaws o) (g : gdual K) s v W k, valid g ->
  NoDup W -> length k = length W -> expo W k s <> 0 -> coef (gsubs_val g s v) W k = k0.
Proof. exact @subs_val_free. Qed.
Print Assumptions C22_subs_value_free.
(** The result of [subs] is the truncation of the composed polynomial [c]. *)
Theorem C22_subs_composition :
  forall (K : Type) (o : Ops K) (fl : FieldLaws o) (g : gdual K) s (v : gdual K), valid g -> valid v ->
  exists c : gdual K, valid c /\
    (forall rho, value c rho = value g (update rho s (value v rho))) /\
    (forall W k, NoDup W -> length k = length W ->
       coef (gsubs g s v) W k = if Nat.leb (list_sum k) (get_order g) then coef c W k else k0).
Proof. exact @subs_spec. Qed.
Print Assumptions C22_subs_composition.
Theorem C22_subs_symbols :
  forall (K : Type) (o : Ops K) (fl : FieldLaws o) (g : gdual K) s (v : gdual K), valid g -> valid v ->
  In s (psyms (gp (gsubs g s v))) -> In s (psyms (gp v)).
Proof. exact @subs_symbols. Qed.
Print Assumptions C22_subs_symbols.
Example C22_case : valid xy /\ valid (x2 3) /\ keqb (coef (gsubs xy "dy" (x2 3)) ["dx"] [2]) k0 = false /\
  keqb (coef (gsubs xy "dy" (x2 3)) ["dx"] [2]) (coef xy ["dx"; "dy"] [2; 0]) = false.
Proof. split; [exact xy_valid|]. split; [exact x2_3_valid|vm_compute; auto]. Qed.

(** ** C23 *)
Theorem C23_evaluate :
  forall (K : Type) (o : Ops K) (g : gdual K) dict, valid g ->
  match gevaluate g dict with
  | Ok v => (forall s, In s (psyms (gp g)) -> exists x, dfind s dict = Some x) /\
            forall rho, (forall s x, dfind s dict = Some x -> rho s = x) -> v = value g rho
  | Throw e => e = InvalidArgument /\ exists s, In s (psyms (gp g)) /\ dfind s dict = None
  end.
Proof. exact @evaluate_spec. Qed.
Print Assumptions C23_evaluate.
Theorem C23_evaluate_arithmetic :
  forall (K : Type) (o : Ops K) (fl : FieldLaws o) (a b : gdual K) v dict va vb, valid a -> valid b ->
  gevaluate a dict = Ok va -> gevaluate b dict = Ok vb ->
  gevaluate (gadd a b) dict = Ok (kadd va vb) /\ gevaluate (gsub a b) dict = Ok (ksub va vb) /\
  gevaluate (gneg a) dict = Ok (kopp va) /\ gevaluate (gmul_sg v a) dict = Ok (kmul v va) /\
  (gdegree a + gdegree b <= Nat.max (get_order a) (get_order b) -> gevaluate (gmul a b) dict = Ok (kmul va vb)).
Proof. exact @evaluate_arith. Qed.
Print Assumptions C23_evaluate_arithmetic.
Theorem C23_evaluate_zero :
  forall (K : Type) (o : Ops K) (fl : FieldLaws o) (g : gdual K) dict, valid g ->
  (forall s, In s (psyms (gp g)) -> dfind s dict = Some k0) -> gevaluate g dict = Ok (constant_cf g).
Proof. exact @evaluate_zero. Qed.
Print Assumptions C23_evaluate_zero.
Example C23_case : valid xy /\ gevaluate xy [("dx", q 1)] = Throw InvalidArgument /\
  (exists v, gevaluate xy [("dx", q 1); ("dy", q 2)] = Ok v /\ keqb v k0 = false) /\
  gdegree (x2 3) + gdegree (y3 2) <= Nat.max (get_order (x2 3)) (get_order (y3 2)).
Proof. split; [exact xy_valid|]. split; [vm_compute; auto|]. split; [eexists; vm_compute; split; reflexivity|vm_compute; auto]. Qed.

(** ** C24 *)
Theorem C24_trim :
  forall (K : Type) (o : Ops K) (g : gdual K) eps W k, valid g -> NoDup W -> length k = length W ->
  match gtrim g eps with
  | Ok r => kltb eps k0 = false /\ valid r /\
            stored r W k = match stored g W k with
                           | Some c => if kltb (kabs c) eps then None else Some c
                           | None => None
                           end
  | Throw x => kltb eps k0 = true /\ x = InvalidArgument
  end.
Proof. exact @trim_spec. Qed.
Print Assumptions C24_trim.
Theorem C24_trim_idempotent :
  forall (K : Type) (o : Ops K) (g r : gdual K) eps, gtrim g eps = Ok r -> gtrim r eps = Ok r.
Proof. exact @trim_idem. Qed.
Print Assumptions C24_trim_idempotent.
Theorem C24_extract_terms :
  forall (K : Type) (o : Ops K) (g : gdual K) n W k, valid g -> NoDup W -> length k = length W ->
  match extract_terms g n with
  | Ok r => n <= get_order g /\ get_order r = n /\ valid r /\
            stored r W k = if Nat.eqb (list_sum k) n then stored g W k else None
  | Throw x => get_order g < n /\ x = InvalidArgument
  end.
Proof. exact @extract_spec. Qed.
Print Assumptions C24_extract_terms.
Theorem C24_extracts_sum :
  forall (K : Type) (o : Ops K) (fl : FieldLaws o) (g : gdual K), valid g -> exists s,
  fold_left (fun acc k => match acc, extract_terms g k with
                          | Ok a, Ok t => Ok (gadd a t) | Throw x, _ => Throw x | _, Throw x => Throw x end)
            (seq 0 (S (get_order g))) (Ok (gconst k0)) = Ok s /\ geqb s g = true.
Proof. exact @extract_sum_eq. Qed.
Print Assumptions C24_extracts_sum.
Theorem C24_is_zero :
  forall (K : Type) (o : Ops K) (g : gdual K) tol, valid g ->
  (gis_zero g tol = true <->
   forall W k c, NoDup W -> length k = length W -> stored g W k = Some c -> kltb tol (kabs c) = false).
Proof. exact @is_zero_spec. Qed.
Print Assumptions C24_is_zero.
Example C24_case : valid xy /\ gis_zero xy (q 2) = true /\ gis_zero xy (qf 1 2) = false /\
  (exists r, gtrim xy (qf 1 20) = Ok r /\ 0 < length (pterms (gp r)) < length (pterms (gp xy))) /\
  (exists r, extract_terms xy 2 = Ok r /\ length (pterms (gp r)) = 3) /\ extract_terms xy 4 = Throw InvalidArgument.
Proof.
  split; [exact xy_valid|]. split; [vm_compute; auto|]. split; [vm_compute; auto|]. split.
  - exists (val (gtrim xy (qf 1 20))). vm_compute. auto 12.
  - split; [exists (val (extract_terms xy 2)); vm_compute; auto|vm_compute; auto].
Qed.

(** ** C25 *)
Theorem C25_equivalence :
  forall (K : Type) (o : Ops K) (fl : FieldLaws o) (a b c : gdual K), valid a -> valid b -> valid c ->
  geqb a a = true /\ (geqb a b = true -> geqb b a = true) /\
  (geqb a b = true -> geqb b c = true -> geqb a c = true) /\ gneqb a b = negb (geqb a b).
Proof. exact @geqb_equiv. Qed.
Print Assumptions C25_equivalence.
(** Equality looks neither at the orders nor at unused symbols. *)
Theorem C25_same_coefficients :
  forall (K : Type) (o : Ops K) (fl : FieldLaws o) (a b : gdual K), valid a -> valid b ->
  (geqb a b = true <-> same_coefs a b).
Proof. exact @geqb_same. Qed.
Print Assumptions C25_same_coefficients.
Theorem C25_same_values :
  forall (K : Type) (o : Ops K) (fl : FieldLaws o) (a b : gdual K), valid a -> valid b ->
  (geqb a b = true <-> forall rho, value a rho = value b rho).
Proof. exact @value_eq_iff. Qed.
Print Assumptions C25_same_values.
Theorem C25_extend_symbol_set :
  forall (K : Type) (o : Ops K) (fl : FieldLaws o) l (g r : gdual K), valid g ->
  extend_symbol_set l g = Ok r -> geqb g r = true /\ geqb r g = true.
Proof. exact @extend_eq. Qed.
Print Assumptions C25_extend_symbol_set.
Theorem C25_congruence :
  forall (K : Type) (o : Ops K) (fl : FieldLaws o) (a b a' b' : gdual K), valid a -> valid b -> valid a' -> valid b' ->
  geqb a a' = true -> geqb b b' = true ->
  geqb (gadd a b) (gadd a' b') = true /\ geqb (gsub a b) (gsub a' b') = true /\
  (get_order a = get_order a' -> get_order b = get_order b' -> geqb (gmul a b) (gmul a' b') = true).
Proof. exact @geqb_ops. Qed.
Print Assumptions C25_congruence.
Theorem C25_ordering :
  forall (K : Type) (o : Ops K) (fl : FieldLaws o) (a b a' b' : gdual K), valid a -> valid b -> valid a' -> valid b' ->
  geqb a a' = true -> geqb b b' = true ->
  gltb a b = gltb a' b' /\ ggtb a b = ggtb a' b' /\ ggtb a b = gltb b a /\
  gltb a b = kltb (constant_cf a) (constant_cf b).
Proof. exact @order_congr. Qed.
Print Assumptions C25_ordering.
Example C25_case : valid (x2 3) /\ valid (x2 5) /\ geqb (x2 3) (x2 5) = true /\ geqb (x2 3) (y3 2) = false /\
  (exists r, extend_symbol_set ["dz"; "da"] (x2 3) = Ok r /\ psyms (gp r) = ["da"; "dx"; "dz"]) /\
  geqb (x2 3) (gsub (gadd (x2 3) (y3 2)) (y3 2)) = true /\ gltb (x2 3) (y3 2) = true.
Proof.
  split; [exact x2_3_valid|]. split; [apply (x2_valid 5 (q 2) "x"); vm_compute; reflexivity|].
  split; [vm_compute; auto|]. split; [vm_compute; auto|]. split; [eexists; vm_compute; split; reflexivity|vm_compute; auto].
Qed.

(** ** C26 *)
Theorem C26_constructor :
  forall (K : Type) (o : Ops K) (v : K) s n,
  match gvar v s n with
  | Ok g => (Z.of_nat n < 4294967285)%Z /\ (exists c r, s = String c r /\ c <> "d"%char) /\
            get_order g = n /\ get_symbol_set g = [s] /\ valid g
  | Throw InvalidArgument => (4294967285 <= Z.of_nat n)%Z \/ exists r, s = String "d" r
  | Throw OutOfRange => s = EmptyString
  | Throw _ => False
  end.
Proof. exact @gvar_spec. Qed.
Print Assumptions C26_constructor.
Theorem C26_constructor_value :
  forall (K : Type) (o : Ops K) (fl : FieldLaws o) (v : K) s n g rho, gvar v s n = Ok g ->
  value g rho = if Nat.eqb n 0 then v else kadd v (rho (dsym s)).
Proof. exact @gvar_value. Qed.
Print Assumptions C26_constructor_value.
Theorem C26_extend_symbol_set :
  forall (K : Type) (o : Ops K) l (g : gdual K), valid g ->
  match extend_symbol_set l g with
  | Ok r => (forall s, In s l -> exists x, s = String "d" x) /\ get_order r = get_order g /\ valid r /\
            (forall s, In s (psyms (gp r)) <-> In s (psyms (gp g)) \/ In s l) /\
            (forall W k, NoDup W -> length k = length W -> stored r W k = stored g W k)
  | Throw InvalidArgument => exists c x, In (String c x) l /\ c <> "d"%char
  | Throw OutOfRange => In EmptyString l
  | Throw _ => False
  end.
Proof. exact @extend_spec. Qed.
Print Assumptions C26_extend_symbol_set.
(** The check of the constructor bounds the order of everything reachable. *)
Theorem C26_order_bound :
  forall (K : Type) (o : Ops K) (e : Elem K),
  (forall c : K, keqb c k0 = false -> keqb (kopp c) k0 = false) ->
  forall g : gdual K, reach g -> (Z.of_nat (get_order g) < 4294967285)%Z.
Proof. exact @reach_order_bound. Qed.
Print Assumptions C26_order_bound.
Example C26_case : (exists g : gdual Qc, gvar (q 2) "x" 0 = Ok g /\ get_symbol_set g = ["x"] /\ length (pterms (gp g)) = 1) /\
  gvar (q 2) "dx" 3 = Throw InvalidArgument /\ gvar (q 2) "" 3 = Throw OutOfRange /\
  extend_symbol_set ["x"] (x2 3) = Throw InvalidArgument /\ reach xy.
Proof.
  split; [eexists; vm_compute; split; [reflexivity|auto]|]. split; [vm_compute; auto|]. split; [vm_compute; auto|].
  split; [vm_compute; auto|exact xy_reach].
Qed.
