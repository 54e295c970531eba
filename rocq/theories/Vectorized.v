(** * Model of the coefficient type [audi::vectorized]
    (include/audi/vectorized.hpp, include/audi/detail/overloads_vectorized.hpp)

    A [vectorized<T>] is its container [m_c], a list.  Operators are total
    functions on lists; those of the form [a op= b] return the value of [a]
    after the call together with the exception thrown, if any.

    Not modelled: [obake::fma3] on two numbers is [ret + x * y] (no fused
    rounding); the stream operator; [byte_size]. *)

From Coq Require Import List Arith Bool ZArith Eqdep_dec.
From Verif Require Import Ops Syms Poly Gdual Functions.
Import ListNotations.

Section Raw.
  Context {K : Type} {o : Ops K}.
  Local Open Scope K_scope.

  (** vectorized.hpp:65-72 default constructor and constructor from a number *)
  Definition vdefault : list K := [0].
  Definition vnum (x : K) : list K := [x].
  (** vectorized.hpp:74-93 constructors from std::vector / initializer_list *)
  Definition vmake (c : list K) : res (list K) :=
    if Nat.eqb (length c) 0 then Throw InvalidArgument else Ok c.

  (** std::transform with two input ranges: stops with the first range; the
      calls below have ranges of the same length. *)
  Fixpoint transform2 (f : K -> K -> K) (a b : list K) : list K :=
    match a, b with
    | x :: a', y :: b' => f x y :: transform2 f a' b'
    | _, _ => []
    end.

  (** Result of a mutating call: new value of the object and exception. *)
  Definition outcome : Type := (list K * option exn)%type.

  (** vectorized.hpp:95-112, 113-130, 131-148, 149-166: the four compound
      operators share this shape.  [f1 x s] is the lambda used when the right
      operand is the number s, [f2 s x] the one used when *this is the number
      s and x runs over the right operand. *)
  Definition compound (f : K -> K -> K) (f1 : K -> K -> K) (f2 : K -> K -> K)
      (a d1 : list K) : outcome :=
    if Nat.eqb (length d1) (length a) then (transform2 f a d1, None)
    else if Nat.eqb (length d1) 1 then (map (fun x => f1 x (nth 0 d1 0)) a, None)
    else if Nat.eqb (length a) 1 then (map (fun x => f2 (nth 0 a 0) x) d1, None)
    else (a, Some InvalidArgument).
  (** vectorized.hpp:95-112 (note [x + scalar] when *this is a number) *)
  Definition vadd_assign := compound kadd kadd (fun s x => x + s).
  (** vectorized.hpp:113-130 *)
  Definition vsub_assign := compound ksub ksub ksub.
  (** vectorized.hpp:131-148 *)
  Definition vmul_assign := compound kmul kmul kmul.
  (** vectorized.hpp:149-166 *)
  Definition vdiv_assign := compound kdiv kdiv kdiv.
  (** vectorized.hpp:167-172 [operator/=(T1)] *)
  Definition vdiv_assign_num (a : list K) (d : K) : list K := map (fun x => x / d) a.
  (** vectorized.hpp:263-338 binary operators: the left operand is taken by
      value, then [d1 op= d2]; numbers are converted with [vnum]. *)
  Definition by_value (r : outcome) : res (list K) :=
    match r with (a, None) => Ok a | (_, Some x) => Throw x end.
  Definition vadd (a b : list K) := by_value (vadd_assign a b).
  Definition vsub (a b : list K) := by_value (vsub_assign a b).
  Definition vmul (a b : list K) := by_value (vmul_assign a b).
  Definition vdiv (a b : list K) := by_value (vdiv_assign a b).
  (** vectorized.hpp:173-178 unary minus (and 444-450 [negate]) *)
  Definition vopp (a : list K) : list K := map kopp a.
  (** vectorized.hpp:179-185 [operator[]] (the index is in range) *)
  Definition at_ (a : list K) (i : nat) : K :=
    if Nat.eqb (length a) 1 then nth 0 a 0 else nth i a 0.
  (** vectorized.hpp:222-229 [resize(n, val)] (std::vector::resize) *)
  Definition vresize (n : nat) (val : K) (a : list K) : list K :=
    firstn n a ++ repeat val (n - length a).
  (** vectorized.hpp:230-233 [set_value] (the index is in range) *)
  Fixpoint set_value (i : nat) (v : K) (a : list K) : list K :=
    match a, i with
    | [], _ => []
    | _ :: a', O => v :: a'
    | x :: a', S i' => x :: set_value i' v a'
    end.

  (** [operator==] of two std::vector of equal size *)
  Fixpoint list_eqb (a b : list K) : bool :=
    match a, b with
    | [], [] => true
    | x :: a', y :: b' => (x =? y) && list_eqb a' b'
    | _, _ => false
    end.
  (** [operator<] of std::vector: std::lexicographical_compare *)
  Fixpoint list_ltb (a b : list K) : bool :=
    match a, b with
    | _, [] => false
    | [], _ :: _ => true
    | x :: a', y :: b' => if x <? y then true else if y <? x then false else list_ltb a' b'
    end.

  (** vectorized.hpp:341-365; [x == y] on numbers *)
  Definition veqb (a b : list K) : bool :=
    if Nat.eqb (length a) (length b) then list_eqb a b
    else if Nat.eqb (length a) 1 then forallb (fun x => x =? at_ a 0) b
    else if Nat.eqb (length b) 1 then forallb (fun x => x =? at_ b 0) a
    else false.
  (** vectorized.hpp:367-371 *)
  Definition vneqb (a b : list K) : bool := negb (veqb a b).
  (** vectorized.hpp:373-396; [x > y] on numbers is [y < x], and [a > b] on
      std::vector is [b < a] *)
  Definition vgtb (a b : list K) : bool :=
    if Nat.eqb (length a) (length b) then list_ltb b a
    else if Nat.eqb (length a) 1 then forallb (fun x => x <? at_ a 0) b
    else if Nat.eqb (length b) 1 then forallb (fun x => at_ b 0 <? x) a
    else false.
  (** vectorized.hpp:398-421 *)
  Definition vltb (a b : list K) : bool :=
    if Nat.eqb (length a) (length b) then list_ltb a b
    else if Nat.eqb (length a) 1 then forallb (fun x => at_ a 0 <? x) b
    else if Nat.eqb (length b) 1 then forallb (fun x => x <? at_ b 0) a
    else false.
  (** vectorized.hpp:424-428 [is_zero] *)
  Definition vis_zero (a : list K) : bool := forallb (fun x => x =? 0) a.

  (** vectorized.hpp:458-552 [fma3(ret, x, y)]: the loops run over the size of
      [ret] after the possible resize, writing [ret[i] += x[i] * y[i]] with
      [x[i]], [y[i]] possibly broadcast.  When none of the sizes is 1 and they
      are not all equal, no branch is taken. *)
  Fixpoint fma_loop (ret : list K) (fx fy : nat -> K) (i : nat) : list K :=
    match ret with
    | [] => []
    | r :: ret' => (r + fx i * fy i) :: fma_loop ret' fx fy (S i)
    end.
  Definition vfma3 (ret x y : list K) : outcome :=
    let xs := length x in let ys := length y in let rs := length ret in
    if Nat.eqb xs ys && Nat.eqb xs rs then (fma_loop ret (at_ x) (at_ y) 0, None)
    else if Nat.eqb rs 1 then
      if Nat.eqb xs 1 then (fma_loop (vresize ys (at_ ret 0) ret) (fun _ => at_ x 0) (at_ y) 0, None)
      else if Nat.eqb ys 1 then (fma_loop (vresize xs (at_ ret 0) ret) (at_ x) (fun _ => at_ y 0) 0, None)
      else if Nat.eqb ys xs then (fma_loop (vresize xs (at_ ret 0) ret) (at_ x) (at_ y) 0, None)
      else (ret, Some InvalidArgument)
    else if Nat.eqb xs 1 then
      if Nat.eqb ys 1 then (fma_loop ret (fun _ => at_ x 0) (fun _ => at_ y 0) 0, None)
      else if Nat.eqb ys rs then (fma_loop ret (fun _ => at_ x 0) (at_ y) 0, None)
      else (ret, Some InvalidArgument)
    else if Nat.eqb ys 1 then
      if Nat.eqb rs xs then (fma_loop ret (at_ x) (fun _ => at_ y 0) 0, None)
      else (ret, Some InvalidArgument)
    else (ret, None).

  (** functions.hpp:905-911: the loop body of the vectorized abs, for one
      coefficient [c] and the constant coefficient [p0].  [c[i]] is
      [operator[]]. *)
  Definition flip (p0 c : list K) : list K :=
    let c := if Nat.eqb (length c) 1 then vresize (length p0) (at_ c 0) c else c in
    fold_left (fun c i => if at_ p0 i <? 0 then set_value i (- at_ c i) c else c)
              (seq 0 (length p0)) c.
End Raw.

(** ** gdual<vectorized>

    The coefficients of a computation with N components have size 1 or N.
    [vec K N] is the type of such coefficients.  On it no operator throws
    ([vec_never_throws]) and the results have size 1 or N, so that they are
    the coefficient operations of the class [Ops] and the model of gdual.hpp
    and functions.hpp applies to them unchanged. *)
Definition sized {K} (N : nat) (l : list K) : bool := Nat.eqb (length l) 1 || Nat.eqb (length l) N.
Record vec (K : Type) (N : nat) : Type := mkVec { vl : list K; vl_sized : sized N vl = true }.
Arguments mkVec {K N} vl vl_sized.
Arguments vl {K N} v.
Arguments vl_sized {K N} v.

Section Vec.
  Context {K : Type} {o : Ops K} {N : nat}.
  Local Open Scope K_scope.

  Lemma sized_cases (l : list K) : sized N l = true -> length l = 1%nat \/ length l = N.
  Proof. unfold sized. intros H. apply orb_true_iff in H. destruct H as [H|H]; apply Nat.eqb_eq in H; auto. Qed.
  Lemma sized_intro (l : list K) : length l = 1%nat \/ length l = N -> sized N l = true.
  Proof. unfold sized. intros [H|H]; rewrite H, Nat.eqb_refl; auto with bool. Qed.
  Lemma transform2_length (f : K -> K -> K) a b : length a = length b -> length (transform2 f a b) = length a.
  Proof. revert b; induction a as [|x a IH]; intros [|y b] H; simpl in *; try discriminate; auto. Qed.
  Lemma compound_sized f f1 f2 (a b : vec K N) : sized N (fst (compound f f1 f2 (vl a) (vl b))) = true.
  Proof.
    apply sized_intro. destruct a as [a Ha], b as [b Hb]. cbn [vl].
    apply sized_cases in Ha. apply sized_cases in Hb. unfold compound.
    destruct (Nat.eqb_spec (length b) (length a)) as [E|E]; cbn [fst].
    { rewrite transform2_length; auto. }
    destruct (Nat.eqb_spec (length b) 1); cbn [fst]; [rewrite map_length; auto|].
    destruct (Nat.eqb_spec (length a) 1); cbn [fst]; [rewrite map_length; auto|auto].
  Qed.
  Lemma map_sized (f : K -> K) (a : vec K N) : sized N (map f (vl a)) = true.
  Proof. destruct a as [a Ha]. unfold sized in *. cbn [vl]. rewrite map_length. exact Ha. Qed.

  Definition vec_compound f f1 f2 (a b : vec K N) : vec K N :=
    mkVec (fst (compound f f1 f2 (vl a) (vl b))) (compound_sized f f1 f2 a b).
  Definition vec_map (f : K -> K) (a : vec K N) : vec K N := mkVec (map f (vl a)) (map_sized f a).
  (** vectorized.hpp:68-72: a number *)
  Definition vec_num (x : K) : vec K N := mkVec [x] eq_refl.

  #[global] Instance OpsVec : Ops (vec K N) := {|
    k0 := vec_num 0;
    k1 := vec_num 1;
    kadd := vec_compound kadd kadd (fun s x => x + s);
    ksub := vec_compound ksub ksub ksub;
    kmul := vec_compound kmul kmul kmul;
    kdiv := vec_compound kdiv kdiv kdiv;
    kopp := vec_map kopp;
    keqb := fun a b => veqb (vl a) (vl b);
    kltb := fun a b => vltb (vl a) (vl b);
    kabs := vec_map kabs;
    kofZ := fun z => vec_num (kofZ z)
  |}.

  (** overloads_vectorized.hpp:35-83.  [pow(double, vectorized)] and
      [pow(vectorized, double)] are the cases of [e_pow] with a number on one
      side; [static_cast<int>] is only applied to numbers. *)
  #[global] Instance ElemVec {e : Elem K} : Elem (vec K N) := {|
    e_exp := vec_map e_exp; e_log := vec_map e_log; e_sqrt := vec_map e_sqrt; e_cbrt := vec_map e_cbrt;
    e_sin := vec_map e_sin; e_cos := vec_map e_cos; e_tan := vec_map e_tan;
    e_sinh := vec_map e_sinh; e_cosh := vec_map e_cosh; e_tanh := vec_map e_tanh;
    e_asin := vec_map e_asin; e_acos := vec_map e_acos; e_atan := vec_map e_atan;
    e_asinh := vec_map e_asinh; e_acosh := vec_map e_acosh; e_atanh := vec_map e_atanh;
    e_erf := vec_map e_erf;
    e_pow := vec_compound e_pow e_pow e_pow;
    e_toint := fun a => e_toint (nth 0 (vl a) 0);
    e_pi := vec_num e_pi;
    e_bern := fun k => vec_num (e_bern k)
  |}.

  Lemma set_value_length i (v : K) a : length (set_value i v a) = length a.
  Proof. revert i; induction a as [|x a IH]; intros [|i]; simpl; auto. Qed.
  Lemma vresize_length n (v : K) a : length (vresize n v a) = n.
  Proof.
    unfold vresize. rewrite app_length, firstn_length, repeat_length.
    destruct (Nat.le_ge_cases n (length a)) as [H|H].
    - rewrite Nat.min_l, (proj2 (Nat.sub_0_le _ _)) by exact H. apply Nat.add_0_r.
    - rewrite Nat.min_r by exact H. rewrite Nat.add_comm. apply Nat.sub_add. exact H.
  Qed.
  Lemma flip_length (p0 c : list K) :
    length (flip p0 c) = if Nat.eqb (length c) 1 then length p0 else length c.
  Proof.
    unfold flip. set (c1 := if Nat.eqb (length c) 1 then _ else _).
    transitivity (length c1).
    - clearbody c1. revert c1. generalize (seq 0 (length p0)) as l. intros l. induction l as [|i l IH]; intros c1; simpl; auto.
      rewrite IH. destruct (at_ p0 i <? 0); auto. apply set_value_length.
    - subst c1. destruct (Nat.eqb (length c) 1); auto. apply vresize_length.
  Qed.
  Lemma flip_sized (p0 c : vec K N) : sized N (flip (vl p0) (vl c)) = true.
  Proof.
    apply sized_intro. rewrite flip_length. destruct p0 as [p Hp], c as [c Hc]. cbn [vl].
    apply sized_cases in Hp. apply sized_cases in Hc. destruct (Nat.eqb_spec (length c) 1); auto.
  Qed.
  (** functions.hpp:899-916 the vectorized abs.  Every coefficient is changed
      in place, the term table keeps its keys. *)
  Definition gabs_vec (d : gdual (vec K N)) : gdual (vec K N) :=
    let p0 := constant_cf d in
    mkG (mkPoly (psyms (gp d))
           (map (fun t => (fst t, mkVec (flip (vl p0) (vl (snd t))) (flip_sized p0 (snd t)))) (pterms (gp d))))
        (gord d).
End Vec.
