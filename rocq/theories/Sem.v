(** * Formal polynomials: the semantic ring

    Proof infrastructure (no model code).  A formal polynomial is a list of
    (coefficient, (degree, exponents)); two of them are equal when every
    linear functional on monomials takes the same value on both, and equal
    "up to order n" when every functional that vanishes above degree n
    does. *)

From Coq Require Import String List Arith Bool Lia ZArith Setoid Morphisms Ring Field FunctionalExtensionality.
From Verif Require Import Ops.
Import ListNotations.

Definition mon := string -> nat.
Definition mon0 : mon := fun _ => 0.
Definition monadd (a b : mon) : mon := fun s => a s + b s.
Definition mon1 (s : string) : mon := fun t => if String.eqb s t then 1 else 0.

(** Degrees kept by an equality: all of them ([None]) or those up to [n]. *)
Definition keep (tr : option nat) (d : nat) : Prop :=
  match tr with None => True | Some n => d <= n end.

Lemma keep_dec tr d : {keep tr d} + {~ keep tr d}.
Proof. destruct tr as [n|]; simpl; [apply le_dec|left; exact I]. Qed.

Section Sem.
  Context {K : Type} {o : Ops K} {fl : FieldLaws o}.
  Local Open Scope K_scope.
  Add Field Kfield : (fl_field (K:=K)).

  Definition sp := list (K * (nat * mon)).

  Definition Lf (l : sp) (F : nat -> mon -> K) : K :=
    fold_right (fun t a => fst t * F (fst (snd t)) (snd (snd t)) + a) 0 l.

  Definition scon (c : K) : sp := [(c, (0%nat, mon0))].
  Definition s0 : sp := [].
  Definition s1 : sp := scon 1.
  Definition svar (s : string) : sp := [(1, (1%nat, mon1 s))].
  Definition sadd (l l' : sp) : sp := l ++ l'.
  Definition sopp (l : sp) : sp := map (fun t => (- fst t, snd t)) l.
  Definition ssub (l l' : sp) : sp := sadd l (sopp l').
  Definition smul (l l' : sp) : sp :=
    flat_map (fun t => map (fun t' => (fst t * fst t',
                 ((fst (snd t) + fst (snd t'))%nat, monadd (snd (snd t)) (snd (snd t'))))) l') l.
  Arguments smul : simpl never.
  Arguments sadd : simpl never.
  Arguments sopp : simpl never.
  Arguments ssub : simpl never.
  Arguments scon : simpl never.
  Arguments s1 : simpl never.
  Fixpoint spow (l : sp) (n : nat) : sp :=
    match n with O => s1 | S m => smul l (spow l m) end.

  Lemma Lf_cons t l F : Lf (t :: l) F = fst t * F (fst (snd t)) (snd (snd t)) + Lf l F.
  Proof. reflexivity. Qed.
  Lemma Lf_nil F : Lf [] F = 0.
  Proof. reflexivity. Qed.
  Lemma Lf_s0 F : Lf s0 F = 0.
  Proof. reflexivity. Qed.
  Lemma Lf_app l l' F : Lf (l ++ l') F = Lf l F + Lf l' F.
  Proof. induction l; simpl; [ring|rewrite IHl; ring]. Qed.
  Lemma Lf_sadd l l' F : Lf (sadd l l') F = Lf l F + Lf l' F.
  Proof. apply Lf_app. Qed.
  Lemma Lf_sopp l F : Lf (sopp l) F = - Lf l F.
  Proof. unfold sopp. induction l; simpl; [ring|rewrite IHl; ring]. Qed.
  Lemma Lf_ssub l l' F : Lf (ssub l l') F = Lf l F - Lf l' F.
  Proof. unfold ssub. rewrite Lf_sadd, Lf_sopp. ring. Qed.
  Lemma Lf_scon c F : Lf (scon c) F = c * F 0%nat mon0.
  Proof. unfold scon; simpl. ring. Qed.
  Lemma Lf_ext l F G : (forall t, In t l -> F (fst (snd t)) (snd (snd t)) = G (fst (snd t)) (snd (snd t))) ->
    Lf l F = Lf l G.
  Proof.
    intros H. induction l as [|t l IH]; simpl; auto.
    rewrite H by (left; auto). rewrite IH; auto. intros; apply H; right; auto.
  Qed.
  Lemma Lf_ext_all l F G : (forall d m, F d m = G d m) -> Lf l F = Lf l G.
  Proof. intros H. apply Lf_ext. auto. Qed.
  Lemma Lf_zero l F : (forall d m, F d m = 0) -> Lf l F = 0.
  Proof. intros H. induction l; simpl; auto. rewrite H, IHl. ring. Qed.
  Lemma Lf_plus l F G : Lf l (fun d m => F d m + G d m) = Lf l F + Lf l G.
  Proof. induction l; simpl; [ring|rewrite IHl; ring]. Qed.
  Lemma Lf_scale l c F : Lf l (fun d m => c * F d m) = c * Lf l F.
  Proof. induction l; simpl; [ring|rewrite IHl; ring]. Qed.
  Lemma Lf_scale_r l c F : Lf l (fun d m => F d m * c) = Lf l F * c.
  Proof. induction l; simpl; [ring|rewrite IHl; ring]. Qed.

  Lemma Lf_smul l l' F :
    Lf (smul l l') F = Lf l (fun d m => Lf l' (fun d' m' => F (d + d')%nat (monadd m m'))).
  Proof.
    unfold smul. induction l as [|t l IH]; simpl; auto.
    rewrite Lf_app, IH. f_equal. clear IH.
    induction l' as [|t' l' IH]; simpl; [ring|]. rewrite IH. ring.
  Qed.

  (** Exchange of two functionals. *)
  Lemma Lf_swap l l' (G : nat -> mon -> nat -> mon -> K) :
    Lf l (fun d m => Lf l' (fun d' m' => G d m d' m')) =
    Lf l' (fun d' m' => Lf l (fun d m => G d m d' m')).
  Proof.
    induction l as [|t l IH]; simpl.
    - symmetry. apply Lf_zero. auto.
    - rewrite IH. rewrite Lf_plus, Lf_scale. reflexivity.
  Qed.

  (** Equality up to the kept degrees. *)
  Record seqv (tr : option nat) (l l' : sp) : Prop := mkSeqv {
    seqv_elim : forall F, (forall d m, ~ keep tr d -> F d m = 0) -> Lf l F = Lf l' F }.
  Arguments mkSeqv {tr l l'}.
  Arguments seqv_elim {tr l l'}.

  #[global] Instance seqv_equiv tr : Equivalence (seqv tr).
  Proof.
    split.
    - intros l. constructor. intros F _. reflexivity.
    - intros l l' [H]. constructor. intros F HF. symmetry. auto.
    - intros a b c [H1] [H2]. constructor. intros F HF. rewrite H1; auto.
  Qed.

  Lemma seqv_full tr l l' : seqv None l l' -> seqv tr l l'.
  Proof. intros [H]. constructor. intros F _. apply H. simpl. tauto. Qed.

  Lemma seqv_le n m l l' : (n <= m)%nat -> seqv (Some m) l l' -> seqv (Some n) l l'.
  Proof. intros Hnm [H]. constructor. intros F HF. apply H. simpl in *. intros. apply HF. lia. Qed.

  #[global] Instance sadd_proper tr : Proper (seqv tr ==> seqv tr ==> seqv tr) sadd.
  Proof. intros a b [H] c d [H']. constructor. intros F HF. rewrite !Lf_sadd, H, H'; auto. Qed.
  #[global] Instance sopp_proper tr : Proper (seqv tr ==> seqv tr) sopp.
  Proof. intros a b [H]. constructor. intros F HF. rewrite !Lf_sopp, H; auto. Qed.
  #[global] Instance ssub_proper tr : Proper (seqv tr ==> seqv tr ==> seqv tr) ssub.
  Proof. intros a b [H] c d [H']. constructor. intros F HF. rewrite !Lf_ssub, H, H'; auto. Qed.

  Lemma keep_plus_l tr a b : keep tr (a + b) -> keep tr a.
  Proof. destruct tr; simpl; auto. lia. Qed.
  Lemma keep_plus_r tr a b : keep tr (a + b) -> keep tr b.
  Proof. destruct tr; simpl; auto. lia. Qed.

  #[global] Instance smul_proper tr : Proper (seqv tr ==> seqv tr ==> seqv tr) smul.
  Proof.
    intros a b [H] c d [H']. constructor. intros F HF. rewrite !Lf_smul.
    rewrite H.
    - apply Lf_ext_all. intros e m. apply H'. intros e' m' Hk. apply HF. intros Hk'.
      apply Hk. eapply keep_plus_r; eauto.
    - intros e m Hk. apply Lf_zero. intros e' m'. apply HF. intros Hk'. apply Hk.
      eapply keep_plus_l; eauto.
  Qed.
  #[global] Instance spow_proper tr : Proper (seqv tr ==> eq ==> seqv tr) spow.
  Proof.
    intros a b H n ? <-. induction n; simpl; [reflexivity|]. apply smul_proper; auto.
  Qed.
  #[global] Instance scon_proper tr : Proper (eq ==> seqv tr) scon.
  Proof. intros a b ->. reflexivity. Qed.

  Lemma monadd_0_l m : monadd mon0 m = m.
  Proof. reflexivity. Qed.
  Lemma monadd_0_r m : monadd m mon0 = m.
  Proof. extensionality s. unfold monadd, mon0. lia. Qed.
  Lemma monadd_comm a b : monadd a b = monadd b a.
  Proof. extensionality s. unfold monadd. lia. Qed.
  Lemma monadd_assoc a b c : monadd a (monadd b c) = monadd (monadd a b) c.
  Proof. extensionality s. unfold monadd. lia. Qed.

  Lemma smul_1_l tr l : seqv tr (smul s1 l) l.
  Proof.
    constructor. intros F _. rewrite Lf_smul. unfold s1. rewrite Lf_scon. simpl.
    rewrite (Lf_ext_all l _ F); [ring|]. intros. reflexivity.
  Qed.
  Lemma smul_comm tr l l' : seqv tr (smul l l') (smul l' l).
  Proof.
    constructor. intros F _. rewrite !Lf_smul. rewrite Lf_swap.
    apply Lf_ext_all. intros d m. apply Lf_ext_all. intros d' m'.
    rewrite Nat.add_comm, monadd_comm. reflexivity.
  Qed.
  Lemma smul_assoc tr a b c : seqv tr (smul a (smul b c)) (smul (smul a b) c).
  Proof.
    constructor. intros F _. rewrite !Lf_smul. apply Lf_ext_all. intros d m. rewrite Lf_smul.
    apply Lf_ext_all. intros d' m'. apply Lf_ext_all. intros d'' m''.
    rewrite Nat.add_assoc, monadd_assoc. reflexivity.
  Qed.
  Lemma smul_sadd_l tr a b c : seqv tr (smul (sadd a b) c) (sadd (smul a c) (smul b c)).
  Proof. constructor. intros F _. rewrite Lf_sadd, !Lf_smul, Lf_sadd. reflexivity. Qed.

  Lemma sp_ring_theory tr : ring_theory s0 s1 sadd smul ssub sopp (seqv tr).
  Proof.
    constructor.
    - intros l. constructor. intros F _. reflexivity.
    - intros a b. constructor. intros F _. rewrite !Lf_sadd. ring.
    - intros a b c. constructor. intros F _. rewrite !Lf_sadd. ring.
    - apply smul_1_l.
    - apply smul_comm.
    - apply smul_assoc.
    - apply smul_sadd_l.
    - intros a b. reflexivity.
    - intros a. constructor. intros F _. rewrite Lf_sadd, Lf_sopp. simpl. ring.
  Qed.

  Lemma sp_ring_ext tr : ring_eq_ext sadd smul sopp (seqv tr).
  Proof.
    constructor.
    - apply sadd_proper.
    - apply smul_proper.
    - apply sopp_proper.
  Qed.

  Section RingTac.
    Variable tr : option nat.
    Add Ring spring : (sp_ring_theory tr) (setoid (seqv_equiv tr) (sp_ring_ext tr)).

    Lemma spow_S l n : seqv tr (spow l (S n)) (smul (spow l n) l).
    Proof. simpl. ring. Qed.
    Lemma spow_1 l : seqv tr (spow l 1) l.
    Proof. simpl. ring. Qed.
    Lemma spow_add l n m : seqv tr (spow l (n + m)) (smul (spow l n) (spow l m)).
    Proof. induction n; simpl; [ring|]. rewrite IHn. ring. Qed.
    Lemma spow_mul l l' n : seqv tr (spow (smul l l') n) (smul (spow l n) (spow l' n)).
    Proof. induction n; simpl; [ring|]. rewrite IHn. ring. Qed.
    Lemma spow_pow l n m : seqv tr (spow (spow l n) m) (spow l (n * m)).
    Proof.
      induction m; simpl.
      - rewrite Nat.mul_0_r. reflexivity.
      - rewrite IHm, <- spow_add. replace (n * S m)%nat with (n + n * m)%nat by lia. reflexivity.
    Qed.

    Lemma scon_add a b : seqv tr (scon (a + b)) (sadd (scon a) (scon b)).
    Proof. constructor. intros F _. rewrite Lf_sadd, !Lf_scon. ring. Qed.
    Lemma scon_sub a b : seqv tr (scon (a - b)) (ssub (scon a) (scon b)).
    Proof. constructor. intros F _. rewrite Lf_ssub, !Lf_scon. ring. Qed.
    Lemma scon_opp a : seqv tr (scon (- a)) (sopp (scon a)).
    Proof. constructor. intros F _. rewrite Lf_sopp, !Lf_scon. ring. Qed.
    Lemma scon_mul a b : seqv tr (scon (a * b)) (smul (scon a) (scon b)).
    Proof. constructor. intros F _. rewrite Lf_smul, !Lf_scon. rewrite monadd_0_l. simpl. ring. Qed.
    Lemma scon_0 : seqv tr (scon 0) s0.
    Proof. constructor. intros F _. rewrite Lf_scon. simpl. ring. Qed.
    Lemma scon_1 : seqv tr (scon 1) s1.
    Proof. reflexivity. Qed.
    Lemma scon_pow a n : seqv tr (scon (kpow a n)) (spow (scon a) n).
    Proof. induction n; simpl; [reflexivity|]. rewrite scon_mul, IHn. reflexivity. Qed.
    Lemma scon_inv a : a <> 0 -> seqv tr (smul (scon a) (scon (1 / a))) s1.
    Proof.
      intros Ha. rewrite <- scon_mul. unfold s1. replace (a * (1 / a)) with 1; [reflexivity|].
      field. exact Ha.
    Qed.
    Lemma Lf_smul_scon c l F : Lf (smul (scon c) l) F = c * Lf l F.
    Proof.
      rewrite Lf_smul, Lf_scon. f_equal.
    Qed.
  End RingTac.

  (** ** Order of vanishing *)
  Definition vanish (k : nat) (l : sp) : Prop :=
    forall F, (forall d m, (k <= d)%nat -> F d m = 0) -> Lf l F = 0.

  Lemma vanish_seqv n l : vanish (S n) l <-> seqv (Some n) l s0.
  Proof.
    split; [intros H; constructor; intros F HF|intros [H] F HF]; simpl in *.
    - apply H. intros. apply HF. lia.
    - apply H. intros. apply HF. lia.
  Qed.
  Lemma vanish_0 l : vanish 0 l.
  Proof. intros F HF. apply Lf_zero. intros. apply HF. lia. Qed.
  Lemma vanish_le k k' l : (k <= k')%nat -> vanish k' l -> vanish k l.
  Proof. intros Hk H F HF. apply H. intros. apply HF. lia. Qed.
  Lemma vanish_mul a b l l' : vanish a l -> vanish b l' -> vanish (a + b)%nat (smul l l').
  Proof.
    intros H H' F HF. rewrite Lf_smul. apply H. intros d m Hd. apply H'. intros d' m' Hd'.
    apply HF. lia.
  Qed.
  Lemma vanish_pow k l n : vanish k l -> vanish (n * k)%nat (spow l n).
  Proof. intros H. induction n; simpl; [apply vanish_0|]. apply vanish_mul; auto. Qed.
  Lemma vanish_pow1 l n : vanish 1 l -> vanish n (spow l n).
  Proof. intros H. apply (vanish_pow 1 l n) in H. rewrite Nat.mul_1_r in H. exact H. Qed.
  Lemma vanish_add k l l' : vanish k l -> vanish k l' -> vanish k (sadd l l').
  Proof. intros H H' F HF. rewrite Lf_sadd, H, H'; auto. ring. Qed.
  Lemma vanish_opp k l : vanish k l -> vanish k (sopp l).
  Proof. intros H F HF. rewrite Lf_sopp, H; auto. ring. Qed.
  Lemma vanish_sub k l l' : vanish k l -> vanish k l' -> vanish k (ssub l l').
  Proof. intros. apply vanish_add; auto using vanish_opp. Qed.
  Lemma vanish_s0 k : vanish k s0.
  Proof. intros F HF. reflexivity. Qed.
  Lemma vanish_svar s : vanish 1 (svar s).
  Proof. intros F HF. unfold svar; simpl. rewrite HF by lia. ring. Qed.
  Lemma vanish_eqv tr k l l' : seqv tr l l' -> (forall d, (d < k)%nat -> keep tr d) -> vanish k l -> vanish k l'.
  Proof.
    intros [E] Hk H F HF. rewrite <- E; auto. intros d m Hd. apply HF.
    destruct (le_lt_dec k d); auto. exfalso; auto.
  Qed.
  Lemma vanish_scale k c l : vanish k l -> vanish k (smul (scon c) l).
  Proof. intros H. change k with (0 + k)%nat. apply vanish_mul; auto using vanish_0. Qed.
  Lemma vanish_mul_l k l l' : vanish k l -> vanish k (smul l l').
  Proof. intros H. rewrite <- (Nat.add_0_r k). apply vanish_mul; auto using vanish_0. Qed.

  (** Precision gain: multiplying by a factor of order [k] adds [k] to the
      accuracy of an equality. *)
  Lemma seqv_mul_vanish n k a b l : seqv (Some n) a b -> vanish k l ->
    seqv (Some (n + k)%nat) (smul a l) (smul b l).
  Proof.
    intros [H] Hl. assert (Hv : vanish (S n) (ssub a b)).
    { apply vanish_seqv. constructor. intros F HF. rewrite Lf_ssub, H; auto. simpl. ring. }
    assert (Hm := vanish_mul _ _ _ _ Hv Hl). simpl in Hm. apply vanish_seqv in Hm.
    constructor. intros F HF. destruct Hm as [Hm]. specialize (Hm F HF). simpl in Hm. rewrite Lf_smul, Lf_ssub in Hm.
    rewrite !Lf_smul. apply (f_equal (fun x => x + Lf b (fun d m => Lf l (fun d' m' => F (d + d')%nat (monadd m m'))))) in Hm.
    ring_simplify in Hm. exact Hm.
  Qed.

  (** Constant coefficient as a functional. *)
  Definition Fconst : nat -> mon -> K := fun d _ => match d with O => 1 | _ => 0 end.
  Definition scc (l : sp) : K := Lf l Fconst.

  (** A polynomial all of whose degree-0 monomials are the trivial one. *)
  Definition okdeg (l : sp) : Prop :=
    forall t, In t l -> fst (snd t) = 0%nat -> snd (snd t) = mon0.

  Lemma vanish_minus_cc l : okdeg l -> vanish 1 (ssub l (scon (scc l))).
  Proof.
    intros Hok F HF. rewrite Lf_ssub, Lf_scon. unfold scc.
    assert (E : Lf l F = Lf l Fconst * F 0%nat mon0).
    { rewrite <- Lf_scale_r. apply Lf_ext. intros t Ht. unfold Fconst.
      destruct (fst (snd t)) as [|d] eqn:Ed.
      - rewrite (Hok t Ht Ed). ring.
      - rewrite HF by lia. ring. }
    rewrite E. ring.
  Qed.

  Lemma scc_eqv tr l l' : seqv tr l l' -> scc l = scc l'.
  Proof.
    intros [H]. unfold scc. apply H. intros [|d] m Hk; auto. exfalso. apply Hk. destruct tr; simpl; auto. lia.
  Qed.
  Lemma scc_scon c : scc (scon c) = c.
  Proof. unfold scc. rewrite Lf_scon. simpl. ring. Qed.
  Lemma scc_add a b : scc (sadd a b) = scc a + scc b.
  Proof. apply Lf_sadd. Qed.
  Lemma scc_sub a b : scc (ssub a b) = scc a - scc b.
  Proof. apply Lf_ssub. Qed.
  Lemma scc_opp a : scc (sopp a) = - scc a.
  Proof. apply Lf_sopp. Qed.
  Lemma scc_mul a b : scc (smul a b) = scc a * scc b.
  Proof.
    unfold scc. rewrite Lf_smul, <- Lf_scale_r. apply Lf_ext_all. intros [|d] m; simpl.
    - rewrite (Lf_ext_all b _ Fconst); [ring|]. reflexivity.
    - rewrite Lf_zero; [ring|]. reflexivity.
  Qed.
  Lemma scc_pow a n : scc (spow a n) = kpow (scc a) n.
  Proof.
    induction n; simpl.
    - exact (scc_scon 1).
    - rewrite scc_mul, IHn. reflexivity.
  Qed.
  Lemma scc_vanish l : vanish 1 l -> scc l = 0.
  Proof. intros H. apply H. intros [|d] m Hd; auto. lia. Qed.
End Sem.
Arguments sp K : clear implicits.
#[global] Arguments smul : simpl never.
#[global] Arguments sadd : simpl never.
#[global] Arguments sopp : simpl never.
#[global] Arguments ssub : simpl never.
#[global] Arguments scon : simpl never.
#[global] Arguments s1 : simpl never.
#[global] Arguments svar : simpl never.
Arguments mkSeqv {K o tr l l'}.
Arguments seqv_elim {K o tr l l'}.

(** ** Structure-preserving maps between coefficient types

    [Hom oA oK h]: [h] commutes with the arithmetic.  The identity is one
    over an exact field, and so are the components of a [vectorized]
    coefficient. *)
Class Hom {A K : Type} (oA : Ops A) (oK : Ops K) (h : A -> K) : Prop := mkHom {
  hom_0 : h k0 = k0;
  hom_1 : h k1 = k1;
  hom_add : forall a b, h (kadd a b) = kadd (h a) (h b);
  hom_sub : forall a b, h (ksub a b) = ksub (h a) (h b);
  hom_mul : forall a b, h (kmul a b) = kmul (h a) (h b);
  hom_opp : forall a, h (kopp a) = kopp (h a);
  hom_div : forall a b, h (kdiv a b) = kdiv (h a) (h b);
  hom_ofZ : forall z, h (kofZ z) = kofZ z;
  hom_abs : forall a, h (kabs a) = kabs (h a);
  hom_zero : forall a, keqb a k0 = true -> h a = k0
}.

#[global] Instance Hom_id {K} (o : Ops K) {fl : FieldLaws o} : Hom o o (fun x => x).
Proof. constructor; auto. intros a H. apply fl_eqb in H. exact H. Qed.
#[global] Arguments hom_0 {A K oA oK} h {Hom}.
#[global] Arguments hom_1 {A K oA oK} h {Hom}.
#[global] Arguments hom_add {A K oA oK} h {Hom}.
#[global] Arguments hom_sub {A K oA oK} h {Hom}.
#[global] Arguments hom_mul {A K oA oK} h {Hom}.
#[global] Arguments hom_opp {A K oA oK} h {Hom}.
#[global] Arguments hom_div {A K oA oK} h {Hom}.
#[global] Arguments hom_ofZ {A K oA oK} h {Hom}.
#[global] Arguments hom_abs {A K oA oK} h {Hom}.
#[global] Arguments hom_zero {A K oA oK} h {Hom}.
