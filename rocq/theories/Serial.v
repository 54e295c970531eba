(** * Model of the serialization of gduals (boost::serialization)

    An archive being written or being read is a list of tokens.  [ar & x]
    appends the tokens of [x] when saving and replaces [x] by what it reads when
    loading; reading the wrong token throws (boost::archive::archive_exception).
    The text or binary encoding of a token is not modelled: numbers are written
    and read back exactly.  The members of obake's polynomial are taken to be
    the symbol set and the list of terms, in this order; obake rebuilds its hash
    table on loading, the order of the terms is not observable through audi. *)
From Coq Require Import String List Arith Bool ZArith.
From Verif Require Import Ops Syms Poly Gdual.
Import ListNotations.

Local Notation "' p <- a ;; b" := (rbind a (fun p => b)) (at level 61, p pattern, a at next level, right associativity).

Section Serial.
  Context {S : Type}.
  Inductive token : Type := Tnat (n : nat) | Tstr (s : string) | Tcf (c : S).
  Inductive archive : Type := Saving (out : list token) | Loading (input : list token).
  (** [ar & x]: the archive and the object afterwards *)
  Definition amp (A : Type) : Type := archive -> A -> res (archive * A).

  Definition amp_nat : amp nat := fun ar n =>
    match ar with
    | Saving out => Ok (Saving (out ++ [Tnat n]), n)
    | Loading (Tnat m :: l) => Ok (Loading l, m)
    | Loading _ => Throw OtherException
    end.
  Definition amp_str : amp string := fun ar s =>
    match ar with
    | Saving out => Ok (Saving (out ++ [Tstr s]), s)
    | Loading (Tstr t :: l) => Ok (Loading l, t)
    | Loading _ => Throw OtherException
    end.
  Definition amp_scalar : amp S := fun ar c =>
    match ar with
    | Saving out => Ok (Saving (out ++ [Tcf c]), c)
    | Loading (Tcf d :: l) => Ok (Loading l, d)
    | Loading _ => Throw OtherException
    end.
  Section Containers.
    Context {A : Type} (f : amp A).
    Fixpoint amp_all (ar : archive) (l : list A) : res (archive * list A) :=
      match l with
      | [] => Ok (ar, [])
      | x :: l => '(ar, x) <- f ar x;; '(ar, l) <- amp_all ar l;; Ok (ar, x :: l)
      end.
    (** std::vector, std::set and maps: the size, then the elements; loading
        resizes to default elements first *)
    Definition amp_list (default : A) : amp (list A) := fun ar l =>
      '(ar, n) <- amp_nat ar (length l);;
      amp_all ar (match ar with Saving _ => l | Loading _ => repeat default n end).
  End Containers.
  (** vectorized.hpp:238-242 *)
  Definition amp_vectorized (zero : S) : amp (list S) := amp_list amp_scalar zero.

  Section GD.
    Context {K : Type} (cf : amp K) (zero : K).
    Definition amp_term : amp (key * K) := fun ar t =>
      '(ar, k) <- amp_list amp_nat 0 ar (fst t);; '(ar, c) <- cf ar (snd t);; Ok (ar, (k, c)).
    Definition amp_poly : amp (poly K) := fun ar p =>
      '(ar, s) <- amp_list amp_str EmptyString ar (psyms p);;
      '(ar, t) <- amp_list amp_term ([], zero) ar (pterms p);;
      Ok (ar, mkPoly s t).
    (** gdual.hpp:995-1001 *)
    Definition amp_gdual : amp (gdual K) := fun ar g =>
      '(ar, p) <- amp_poly ar (gp g);;
      '(ar, n) <- amp_nat ar (gord g);;
      Ok (ar, mkG p n).
  End GD.
End Serial.
Arguments token S : clear implicits.
Arguments archive S : clear implicits.
Arguments amp S A : clear implicits.

(** What saving writes is read back exactly, whatever follows it in the archive
    and whatever was in the object loaded into. *)
Definition round_trips {S A} (f : amp S A) : Prop :=
  forall x, exists w : list (token S),
    (forall out, f (Saving out) x = Ok (Saving (out ++ w), x)) /\
    (forall y rest, f (Loading (w ++ rest)) y = Ok (Loading rest, x)).

Section Proofs.
  Context {S : Type}.
  Lemma nat_trip : round_trips (@amp_nat S).
  Proof. intros n. exists [Tnat n]. split; auto. Qed.
  Lemma str_trip : round_trips (@amp_str S).
  Proof. intros n. exists [Tstr n]. split; auto. Qed.
  Lemma scalar_trip : round_trips (@amp_scalar S).
  Proof. intros n. exists [Tcf n]. split; auto. Qed.
  Lemma all_trip {A} (f : amp S A) l : round_trips f -> exists w : list (token S),
    (forall out, amp_all f (Saving out) l = Ok (Saving (out ++ w), l)) /\
    (forall y rest, length y = length l -> amp_all f (Loading (w ++ rest)) y = Ok (Loading rest, l)).
  Proof.
    intros Hf. induction l as [|x l (w & Iw & Ir)].
    - exists []. split; [intros; rewrite app_nil_r; auto|]. intros [|a y] rest; [auto|discriminate].
    - destruct (Hf x) as (v & Hw & Hr). exists (v ++ w). split.
      + intros out. cbn [amp_all]. rewrite Hw. cbn [rbind]. rewrite Iw. cbn [rbind]. rewrite app_assoc. auto.
      + intros [|a y] rest E; [discriminate|]. cbn [amp_all]. rewrite <- app_assoc, Hr. cbn [rbind]. rewrite Ir by (injection E; auto). auto.
  Qed.
  Lemma list_trip {A} (f : amp S A) d : round_trips f -> round_trips (amp_list f d).
  Proof.
    intros Hf l. destruct (all_trip f l Hf) as (w & Hw & Hr). exists (Tnat (length l) :: w). split.
    - intros out. unfold amp_list. cbn [amp_nat rbind]. rewrite Hw, <- app_assoc. auto.
    - intros y rest. unfold amp_list. cbn [app amp_nat rbind]. apply Hr. apply repeat_length.
  Qed.
  Lemma gdual_trip {K} (cf : amp S K) zero : round_trips cf -> round_trips (amp_gdual cf zero).
  Proof.
    intros Hc. assert (Ht : round_trips (amp_term cf)).
    { intros [k c]. destruct (list_trip amp_nat 0 nat_trip k) as (w & Hw & Hr). destruct (Hc c) as (v & Vw & Vr). exists (w ++ v). split.
      - intros out. unfold amp_term. cbn [fst snd]. rewrite Hw. cbn [rbind]. rewrite Vw, <- app_assoc. auto.
      - intros y rest. unfold amp_term. rewrite <- app_assoc, Hr. cbn [rbind]. rewrite Vr. auto. }
    assert (Hp : round_trips (amp_poly cf zero)).
    { intros [s t]. destruct (list_trip amp_str EmptyString str_trip s) as (w & Hw & Hr). destruct (list_trip (amp_term cf) ([], zero) Ht t) as (v & Vw & Vr). exists (w ++ v). split.
      - intros out. unfold amp_poly. cbn [psyms pterms]. rewrite Hw. cbn [rbind]. rewrite Vw, <- app_assoc. auto.
      - intros y rest. unfold amp_poly. rewrite <- app_assoc, Hr. cbn [rbind]. rewrite Vr. auto. }
    intros [p n]. destruct (Hp p) as (w & Hw & Hr). exists (w ++ [Tnat n]). split.
    - intros out. unfold amp_gdual. cbn [gp gord]. rewrite Hw. cbn [rbind amp_nat]. rewrite <- app_assoc. auto.
    - intros y rest. unfold amp_gdual. rewrite <- app_assoc, Hr. auto.
  Qed.
  Lemma session_trip {A} (f : amp S A) (xs olds : list A) : round_trips f -> length olds = length xs ->
    exists w, amp_all f (Saving []) xs = Ok (Saving w, xs) /\ amp_all f (Loading w) olds = Ok (Loading [], xs).
  Proof.
    intros Hf L. destruct (all_trip f xs Hf) as (w & Hw & Hr). exists w. split; [exact (Hw [])|]. rewrite <- (app_nil_r w). apply Hr. auto.
  Qed.
End Proofs.

Lemma gdual_session {S} (zero : S) (gs olds : list (gdual S)) : length olds = length gs ->
  exists w, amp_all (amp_gdual amp_scalar zero) (Saving []) gs = Ok (Saving w, gs) /\
            amp_all (amp_gdual amp_scalar zero) (Loading w) olds = Ok (Loading [], gs).
Proof. apply session_trip. apply gdual_trip, scalar_trip. Qed.
Lemma vectorized_session {S} (zero : S) (gs olds : list (gdual (list S))) : length olds = length gs ->
  exists w, amp_all (amp_gdual (amp_vectorized zero) [zero]) (Saving []) gs = Ok (Saving w, gs) /\
            amp_all (amp_gdual (amp_vectorized zero) [zero]) (Loading w) olds = Ok (Loading [], gs).
Proof. apply session_trip. apply gdual_trip. apply list_trip, scalar_trip. Qed.
