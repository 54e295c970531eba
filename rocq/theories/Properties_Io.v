(** * Properties of the text output (C47) and of the Python conversions (C48)

    Models: Io.v, PyBind.v; vocabulary: SpecIo.v. *)
From Coq Require Import String Ascii List Arith Bool ZArith Lia QArith Qcanon Permutation.
From Verif Require Import Ops Syms SymsFacts Poly Gdual Interval TaylorModel Spec Serial Samples Io SpecIo IoProofs PyBind PyProofs.
Import ListNotations.
Open Scope nat_scope.
Open Scope string_scope.

(** ** C47 *)
(** Vectors: the elements separated by commas, at most five of them. *)
Theorem C47_vector_text : forall A (sh : A -> string) v, stream_vector sh v =
  "[" ++ joined ", " (map sh (firstn 5 v) ++ if Nat.leb (length v) 5 then [] else ["... ]"]) ++ if Nat.leb (length v) 5 then "]" else "".
Proof. exact @vector_text. Qed.
Print Assumptions C47_vector_text.
(** The text of a vectorized coefficient is that of its vector of components. *)
Theorem C47_vectorized_text : forall A (sh : A -> string) v, stream_vectorized sh v = match v with [] => None | _ => Some (stream_vector sh v) end.
Proof. exact @vectorized_text. Qed.
Print Assumptions C47_vectorized_text.
Theorem C47_map_text : forall A B (sh : A -> string) (shd : B -> string) m, stream_map sh shd m =
  "{" ++ joined ",  " (map (fun e => sh (fst e) ++ " : " ++ shd (snd e)) (firstn 5 m) ++ if Nat.leb (length m) 5 then [] else ["..."]) ++ "}".
Proof. exact @map_text. Qed.
Print Assumptions C47_map_text.
(** Expansion points and domains of Taylor models: every entry is printed. *)
Theorem C47_var_map_text : forall K (sh : K -> string) m d,
  stream_var_map sh m = "{" ++ joined ", " (map (fun e => fst e ++ ": " ++ sh (snd e)) m) ++ "}" /\
  stream_var_map_i sh d = "{" ++ joined ", " (map (fun e => fst e ++ ":[" ++ sh (fst (snd e)) ++ ", " ++ sh (snd (snd e)) ++ "]") d) ++ "}".
Proof. exact (fun K sh m d => conj (var_map_text sh m) (var_map_i_text sh d)). Qed.
Print Assumptions C47_var_map_text.
(** The text determines the vector up to its first five elements, and whether
    there are more. *)
Theorem C47_vector_readable : forall A (sh : A -> string) v w, (forall x, In x v -> plain (sh x)) -> (forall x, In x w -> plain (sh x)) ->
  stream_vector sh v = stream_vector sh w ->
  map sh (firstn 5 v) = map sh (firstn 5 w) /\ (length v <= 5 <-> length w <= 5).
Proof. exact @vector_read. Qed.
Print Assumptions C47_vector_readable.
Theorem C47_long_vectors_refuted : exists v w : list string, v <> w /\ (forall x, In x (v ++ w) -> plain x) /\
  stream_vector (fun s => s) v = stream_vector (fun s => s) w.
Proof.
  exists ["1"; "2"; "3"; "4"; "5"; "6"], ["1"; "2"; "3"; "4"; "5"; "7"]. split; [discriminate|]. split; [|reflexivity].
  intros x H. cbn in H. split; [intros ->; repeat (destruct H as [H|H]; [discriminate|]); auto|].
  intros i E. repeat (destruct H as [<-|H]; [destruct i as [|[|i]]; discriminate|]). destruct H.
Qed.
Print Assumptions C47_long_vectors_refuted.
(** Rows are accepted exactly when they have one text per header. *)
Theorem C47_table_rows : forall t row,
  (length row = length (t_headers t) -> exists t', add_row t row = Ok t' /\ t_headers t' = t_headers t /\ t_indent t' = t_indent t /\ t_rows t' = (t_rows t ++ [row])%list) /\
  (length row <> length (t_headers t) -> add_row t row = Throw InvalidArgument).
Proof. exact add_row_spec. Qed.
Print Assumptions C47_table_rows.
(** However a table was built, its output is the header line, a rule and the
    rows in order; all lines have the same length and in every line the text of
    column j is found complete at the place where the column starts. *)
Theorem C47_table_aligned : forall headers indent rows t, built headers indent rows t -> exists line rule,
  print_table t = joined "" (map (fun l => l ++ nl) (line headers :: rule :: map line rows)) /\
  String.length rule = column_start indent (headers :: rows) (length headers) /\
  forall r, In r (headers :: rows) ->
    length r = length headers /\ String.length (line r) = column_start indent (headers :: rows) (length headers) /\
    forall j, j < length headers -> substring (column_start indent (headers :: rows) j) (String.length (nth j r "")) (line r) = nth j r "".
Proof. exact table_ok. Qed.
Print Assumptions C47_table_aligned.
(** The five lines of a Taylor model. *)
Theorem C47_taylor_model_text : forall K shg sh (t : taylor_model K), stream_tm shg sh t = joined nl
  [ "Taylor Polynomial:"; shg (m_tpol t); "Remainder Bound: [" ++ sh (fst (m_rem t)) ++ ", " ++ sh (snd (m_rem t)) ++ "]";
    "Expansion Point: {" ++ joined ", " (map (fun e => fst e ++ ": " ++ sh (snd e)) (m_exp t)) ++ "}";
    "Domain: {" ++ joined ", " (map (fun e => fst e ++ ":[" ++ sh (fst (snd e)) ++ ", " ++ sh (snd (snd e)) ++ "]") (m_domain t)) ++ "}" ].
Proof. exact @tm_text. Qed.
Print Assumptions C47_taylor_model_text.
(** The text determines the texts of all parts, if numbers are written without
    [,], []] and [}], names without [:] and [}], the polynomial in one line. *)
Theorem C47_taylor_model_readable : forall K (sh : K -> string), (forall x, lacks "," (sh x)) -> (forall x, lacks "]" (sh x)) -> (forall x, lacks "}" (sh x)) ->
  forall shg (t t' : taylor_model K), (forall g : gdual K, lacks "010" (shg g)) ->
  (forall s, In s (map fst (m_exp t) ++ map fst (m_domain t) ++ map fst (m_exp t') ++ map fst (m_domain t'))%list -> lacks ":" s /\ lacks "}" s) ->
  stream_tm shg sh t = stream_tm shg sh t' ->
  shg (m_tpol t) = shg (m_tpol t') /\ sh (fst (m_rem t)) = sh (fst (m_rem t')) /\ sh (snd (m_rem t)) = sh (snd (m_rem t')) /\
  map (fun e => (fst e, sh (snd e))) (m_exp t) = map (fun e => (fst e, sh (snd e))) (m_exp t') /\
  map (fun e => (fst e, (sh (fst (snd e)), sh (snd (snd e))))) (m_domain t) = map (fun e => (fst e, (sh (fst (snd e)), sh (snd (snd e))))) (m_domain t').
Proof. exact @tm_read. Qed.
Print Assumptions C47_taylor_model_readable.
(** Without these conditions it does not. *)
Theorem C47_taylor_model_refuted : exists t t' : taylor_model bool, map fst (m_exp t) <> map fst (m_exp t') /\
  forall shg, stream_tm shg (fun b : bool => if b then "1" else "0") t = stream_tm shg (fun b : bool => if b then "1" else "0") t'.
Proof.
  set (g := mkG (mkPoly [] []) 1 : gdual bool). exists (mkTM g 1 1 (false, true) [("x", true); ("y", true)] []), (mkTM g 1 1 (false, true) [("x: 1, y", true)] []).
  split; [discriminate|]. intros shg. unfold stream_tm. cbn [m_tpol]. reflexivity.
Qed.
Print Assumptions C47_taylor_model_refuted.
Example C47_taylor_model_case :
  stream_tm (fun _ => "1 + x") (fun b : bool => if b then "1" else "0") (mkTM (mkG (mkPoly [] []) 1) 1 1 (false, true) [("x", true)] [("x", (false, true))]) =
  "Taylor Polynomial:" ++ nl ++ "1 + x" ++ nl ++ "Remainder Bound: [0, 1]" ++ nl ++ "Expansion Point: {x: 1}" ++ nl ++ "Domain: {x:[0, 1]}" /\
  (forall x : bool, lacks "," (if x then "1" else "0") /\ lacks "]" (if x then "1" else "0") /\ lacks "}" (if x then "1" else "0")) /\
  lacks ":" "x" /\ lacks "}" "x" /\ lacks "010" "1 + x".
Proof.
  split; [reflexivity|]. split; [intros []; repeat split; intros [|[|i]]; discriminate|]. split; [intros [|[|i]]; discriminate|]. split; [intros [|[|i]]; discriminate|].
  intros i. do 6 (destruct i as [|i]; [discriminate|]). discriminate.
Qed.
Example C47_case :
  stream_vector (fun s => s) ["1"; "2"; "3"] = "[1, 2, 3]" /\ plain "1" /\
  stream_vector (fun s => s) ["1"; "2"; "3"; "4"; "5"; "6"; "7"] = "[1, 2, 3, 4, 5, ... ]" /\
  stream_map (fun s => s) (fun s => s) [("a", "1"); ("b", "2")] = "{a : 1,  b : 2}" /\
  exists t, built ["ab"; "c"] " " [["x"; "yyy"]] t /\
    print_table t = " ab  c    " ++ nl ++ " ---------" ++ nl ++ " x   yyy  " ++ nl.
Proof.
  split; [reflexivity|]. split; [split; [discriminate|intros [|[|i]]; discriminate]|]. split; [reflexivity|]. split; [reflexivity|].
  destruct (add_row (table_new ["ab"; "c"] " ") ["x"; "yyy"]) as [t|e] eqn:E; [|discriminate].
  exists t. split.
  - apply (built_refused _ _ _ t ["too short"] InvalidArgument).
    + apply (built_row _ _ [] (table_new ["ab"; "c"] " ") ["x"; "yyy"]); [apply built_new|exact E].
    + injection E as <-. reflexivity.
  - injection E as <-. reflexivity.
Qed.

(** ** C48 *)
(** [evaluate] called from Python with a dictionary: whatever the order of its
    items, the value is that of the C++ call. *)
Theorem C48_evaluate : forall (K : Type) (oK : Ops K) (g : gdual K) (l l' : list (string * K)), NoDup (map fst l) -> Permutation l l' ->
  py_evaluate g (map (fun e => (PyStr (fst e), PyFloat (snd e))) l') = gevaluate g l.
Proof. exact @py_evaluate_ok. Qed.
Print Assumptions C48_evaluate.
(** The symbol map handed to obake has the items of the dictionary, in strictly
    increasing order of the keys (what adopt_sequence requires). *)
Theorem C48_symbol_map : forall (K : Type) (oK : Ops K) (l : list (string * K)), NoDup (map fst l) -> exists m,
  py_dict_to_obake_sm (map (fun e => (PyStr (fst e), PyFloat (snd e))) l) = Ok m /\ ssorted (map fst m) /\ Permutation l m.
Proof. exact @sm_ok. Qed.
Print Assumptions C48_symbol_map.
(** Vectorized coefficients become lists and lists of numbers become vectorized
    coefficients, and nothing else does. *)
Theorem C48_vectorized_round_trip : forall (K : Type) (oK : Ops K) (v : list K), load_vectorized (cast_vectorized v) = Ok (Some v).
Proof. exact @load_cast. Qed.
Print Assumptions C48_vectorized_round_trip.
Theorem C48_vectorized_accepts : forall (K : Type) (oK : Ops K) (src : pyobj K) c,
  load_vectorized src = Ok (Some c) <-> exists s, src = PyList s /\ Forall2 (fun o x => cast_double o = Ok x) s c.
Proof. exact @load_iff. Qed.
Print Assumptions C48_vectorized_accepts.
(** The empty list is accepted, though no constructor accepts it: coefficients
    without components exist in Python. *)
Theorem C48_empty_list_refuted : exists (src : pyobj Qc) c, load_vectorized src = Ok (Some c) /\ forall c', new_vectorized c' <> Ok c.
Proof. exists (PyList []), []. split; [reflexivity|]. intros [|x c']; discriminate. Qed.
Print Assumptions C48_empty_list_refuted.
(** Pickling a gdual and unpickling it gives it back; a state of another size is
    refused. *)
Theorem C48_pickle : forall (K : Type) (oK : Ops K) (g : gdual K), exists o, getstate g = Ok (PyTuple [o]) /\ setstate [o] = Ok g.
Proof. exact @pickle_trip. Qed.
Print Assumptions C48_pickle.
Theorem C48_pickle_size : forall (K : Type) (oK : Ops K) (t : list (pyobj K)), length t <> 1 -> setstate t = Throw RuntimeError.
Proof. exact @setstate_size. Qed.
Print Assumptions C48_pickle_size.
Example C48_case :
  match py_evaluate xy [(PyStr "dy", PyFloat (Q2Qc 2)); (PyStr "dx", PyFloat (Q2Qc 3))], gevaluate xy [("dx", Q2Qc 3); ("dy", Q2Qc 2)] with
  | Ok a, Ok b => if Qc_eq_dec a b then negb (if Qc_eq_dec a (Q2Qc 0) then true else false) else false
  | _, _ => false
  end = true /\
  load_vectorized (PyList [PyFloat (Q2Qc 1); PyInt 2]) <> Ok None.
Proof. split; [vm_compute; reflexivity|discriminate]. Qed.
