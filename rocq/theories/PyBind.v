(** * Model of the conversions done by the Python bindings

    pyaudi/common_utils.hpp and pyaudi/expose_gdual.hpp.  A Python object is
    given by the part of it that the bindings inspect.  A dictionary is the
    list of its items in iteration order; Python keeps its keys distinct. *)
From Coq Require Import String List Arith Bool ZArith.
From Verif Require Import Ops Syms Poly Gdual Serial.
Import ListNotations.
Local Notation "p <- a ;; b" := (rbind a (fun p => b)) (at level 61, a at next level, right associativity).

Section Py.
  Context {K : Type} {oK : Ops K}.
  Inductive pyobj : Type :=
    | PyFloat (x : K)
    | PyInt (z : Z)
    | PyStr (s : string)
    | PyList (l : list pyobj)
    | PyTuple (l : list pyobj)
    | PyBytes (state : list (token K))    (* the text of an archive *)
    | PyOther.

  (** pybind11 [cast<double>] and [cast<std::string>]; a failure throws
      pybind11::cast_error, a std::runtime_error.  Objects with __float__ are
      not modelled; an integer is converted exactly. *)
  Definition cast_double (o : pyobj) : res K :=
    match o with PyFloat x => Ok x | PyInt z => Ok (kofZ z) | _ => Throw RuntimeError end.
  Definition cast_string (o : pyobj) : res string :=
    match o with PyStr s => Ok s | _ => Throw RuntimeError end.

  (** std::sort by key; with distinct keys the result does not depend on the
      algorithm ([sorted_unique] in PyProofs.v). *)
  Fixpoint insert_item {V} (e : string * V) (l : list (string * V)) : list (string * V) :=
    match l with
    | [] => [e]
    | x :: l' => match String.compare (fst e) (fst x) with Gt => x :: insert_item e l' | _ => e :: l end
    end.
  Definition sort_items {V} (l : list (string * V)) : list (string * V) := fold_right insert_item [] l.

  (** common_utils.hpp:40-56 [py_dict_to_obake_sm<double>] *)
  Fixpoint cast_items (d : list (pyobj * pyobj)) : res (list (string * K)) :=
    match d with
    | [] => Ok []
    | (k, v) :: d' => s <- cast_string k;; x <- cast_double v;; r <- cast_items d';; Ok ((s, x) :: r)
    end.
  Definition py_dict_to_obake_sm (d : list (pyobj * pyobj)) : res (list (string * K)) :=
    seq <- cast_items d;; Ok (sort_items seq).
  (** expose_gdual.hpp:142-147 [evaluate] of a gdual<double> *)
  Definition py_evaluate (g : gdual K) (d : list (pyobj * pyobj)) : res K :=
    m <- py_dict_to_obake_sm d;; gevaluate g m.

  (** common_utils.hpp:80-89 [type_caster<vectorized<double>>::load]:
      [Ok None] is the return value false. *)
  Fixpoint cast_elements (l : list pyobj) : res (list K) :=
    match l with
    | [] => Ok []
    | o :: l' => x <- cast_double o;; r <- cast_elements l';; Ok (x :: r)
    end.
  Definition load_vectorized (src : pyobj) : res (option (list K)) :=
    match src with PyList s => c <- cast_elements s;; Ok (Some c) | _ => Ok None end.
  (** common_utils.hpp:98-105 [type_caster<vectorized<double>>::cast] *)
  Definition cast_vectorized (src : list K) : pyobj := PyList (map PyFloat src).
  (** vectorized.hpp:66-93: the constructors of a vectorized, as the
      components they are given; the default constructor gives [0] and the
      constructor from a number one component. *)
  Definition new_vectorized (c : list K) : res (list K) := match c with [] => Throw InvalidArgument | _ => Ok c end.

  (** expose_gdual.hpp:83-100 [__getstate__] and [__setstate__] *)
  Definition getstate (p : gdual K) : res pyobj :=
    s <- amp_gdual amp_scalar k0 (Saving []) p;;
    match fst s with Saving out => Ok (PyTuple [PyBytes out]) | Loading _ => Throw OtherException end.
  Definition setstate (t : list pyobj) : res (gdual K) :=
    match t with
    | [PyBytes w] => s <- amp_gdual amp_scalar k0 (Loading w) (gconst k0);; Ok (snd s)
    | [_] => Throw RuntimeError
    | _ => Throw RuntimeError
    end.
End Py.
Arguments pyobj K : clear implicits.
