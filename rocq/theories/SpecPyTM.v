(** * Vocabulary of the properties of Python expressions over Taylor models (C52) *)
From Coq Require Import String Reals List ZArith Bool.
From Verif Require Import Ops Syms Poly Gdual Functions Spec ElemR SpecTaylor TaylorModel SpecTM PyFun SpecPy PyTM.
Import ListNotations.
Open Scope R_scope.
Local Open Scope string_scope.

(** O(|x|^(n+1)): the expansion of order [n] is zero. *)
Definition flat (n : nat) (f : (string -> R) -> R) : Prop :=
  exists C d, 0 < d /\ 0 <= C /\ forall x r, small x r -> r <= d -> Rabs (f x) <= C * r ^ S n.

Section Kinds.
  Variable tm : string -> bool.            (* the names that hold Taylor models *)

  (** What the names hold: Taylor models or floats. *)
  Definition models_hold (env : string -> tval R) (M : string -> taylor_model R) (point : string -> R) : Prop :=
    forall s, env s = if tm s then TModel (M s) else TNum (VFloat (point s)).

  (** No subexpression with a Taylor model in it has the expansion zero, as a
      function of the displacement [x] when the names have the values [y x];
      the exponents of Taylor models are integers or halves, not zero. *)
  Fixpoint proper (n : nat) (y : (string -> R) -> string -> R) (e : pyexpr R) : Prop :=
    (is_number tm e = false -> ~ flat n (fun x => py_real e (y x))) /\
    match e with
    | EInt _ | EFloat _ | EName _ => True
    | EBin op a b => proper n y a /\ proper n y b /\
        match op with
        | BPow => is_number tm a = false -> exists z : Z, z <> 0%Z /\ py_real b (y center) = IZR z / 2
        | _ => True
        end
    | ENeg a | EPos a | ECall _ a | EMethod _ a => proper n y a
    end.

  (** Sums of Taylor models and multiples of them by numbers. *)
  Fixpoint affine (e : pyexpr R) : Prop :=
    match e with
    | EInt _ | EFloat _ | EName _ => True
    | EBin op a b => affine a /\ affine b /\
        match op with
        | BAdd | BSub => True
        | BMul => is_number tm a = true \/ is_number tm b = true
        | BDiv => is_number tm b = true
        | BPow => is_number tm a = true /\ is_number tm b = true
        end
    | ENeg a => affine a
    | EPos a | ECall _ a => affine a /\ is_number tm a = true
    | EMethod _ _ => False
    end.
  (** Neither -A nor number - A for a Taylor model A. *)
  Fixpoint no_negation (e : pyexpr R) : Prop :=
    match e with
    | EInt _ | EFloat _ | EName _ => True
    | EBin op a b => no_negation a /\ no_negation b /\
        match op with BSub => is_number tm a = false \/ is_number tm b = true | _ => True end
    | ENeg a => no_negation a /\ is_number tm a = true
    | EPos a | ECall _ a | EMethod _ a => no_negation a
    end.
  (** The values of the names at a point, when the Taylor models stand for the
      functions [F]. *)
  Definition values (F : string -> point -> R) (c : string -> R) (x : point) : string -> R :=
    fun s => if tm s then F s x else c s.
End Kinds.

Definition symmetric (t : taylor_model R) : Prop := fst (m_rem t) = - snd (m_rem t).
(** The model is expanded at [c] and its variables range over [J]. *)
Definition about (c : string -> R) (J : string -> R * R) (t : taylor_model R) : Prop :=
  (forall s v, In (s, v) (m_exp t) -> v = c s) /\ (forall s I, In (s, I) (m_domain t) -> I = J s).

(** Numbers of equal value, equal gduals, equal Taylor models. *)
Definition same_t (v w : tval R) : Prop :=
  match v, w with TNum a, TNum b => same_value a b | TModel t, TModel u => t = u | TInterval i, TInterval j => i = j | _, _ => False end.
Definition not_int (v : tval R) : Prop := forall z, v <> TNum (VInt z).

(** ** Types

    Which combinations have a meaning in Python.  Taylor models and intervals
    do not mix with gduals; only numbers are exponents of Taylor models;
    numbers have no methods, intervals nothing but the operators with Taylor
    models. *)
Inductive kind : Type := KNumber | KGdual | KModel | KInterval.
Definition kind_of {A : Type} (v : tval A) : kind :=
  match v with TNum (VGdual _) => KGdual | TNum _ => KNumber | TModel _ => KModel | TInterval _ => KInterval end.
Definition model_functions : list string :=
  ["exp"; "log"; "sqrt"; "sin"; "cos"; "tan"; "asin"; "acos"; "atan"; "sinh"; "cosh"; "tanh"; "asinh"; "acosh"; "atanh"; "abs"].
Definition listed (s : string) (l : list string) : bool := existsb (String.eqb s) l.
Definition bin_type (op : pybin) (a b : kind) : option kind :=
  match a, b with
  | KNumber, KNumber => Some KNumber
  | KNumber, KGdual | KGdual, KNumber | KGdual, KGdual => Some KGdual
  | KModel, KNumber => Some KModel
  | KNumber, KModel | KModel, KModel | KModel, KInterval | KInterval, KModel =>
      match op with BPow => None | _ => Some KModel end
  | _, _ => None
  end.
Definition fun_type (s : string) (a : kind) : option kind :=
  match a with
  | KNumber | KGdual => if listed s (map fst math_table) then Some a else None
  | KModel => if listed s model_functions then Some KModel else None
  | KInterval => None
  end.
Fixpoint type_of {A : Type} (names : string -> kind) (e : pyexpr A) : option kind :=
  match e with
  | EInt _ | EFloat _ => Some KNumber
  | EName s => Some (names s)
  | EBin op a b => match type_of names a, type_of names b with Some k, Some l => bin_type op k l | _, _ => None end
  | ENeg a => match type_of names a with Some KInterval => None | k => k end
  | EPos a => match type_of names a with Some KInterval | Some KModel => None | k => k end
  | ECall f a => match type_of names a with Some k => fun_type f k | None => None end
  | EMethod f a => match type_of names a with Some KNumber => None | Some k => fun_type (plain_name f) k | None => None end
  end.
