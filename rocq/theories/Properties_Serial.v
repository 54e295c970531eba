(** * Properties of the serialization (C46)

    Model: Serial.v.  [amp_all f ar xs] is [ar & x] for the objects [xs] one
    after the other; [Saving out] is an output archive that contains [out] and
    [Loading input] an input archive with [input] left to read. *)

From Coq Require Import String List Arith Bool ZArith QArith Qcanon.
From Verif Require Import Ops Syms Poly Gdual Spec Serial Samples.
Import ListNotations.
Open Scope nat_scope.

(** ** C46 *)
(** gduals saved one after the other to an archive are read back, whatever the
    objects loaded into held before: the same symbol sets, terms and orders. *)
Theorem C46_round_trip_partial :
  forall (S : Type) (zero : S) (gs olds : list (gdual S)), length olds = length gs ->
  exists w, amp_all (amp_gdual amp_scalar zero) (Saving []) gs = Ok (Saving w, gs) /\
            amp_all (amp_gdual amp_scalar zero) (Loading w) olds = Ok (Loading [], gs).
Proof. exact @gdual_session. Qed.
Print Assumptions C46_round_trip_partial.
Theorem C46_vectorized_partial :
  forall (S : Type) (zero : S) (gs olds : list (gdual (list S))), length olds = length gs ->
  exists w, amp_all (amp_gdual (amp_vectorized zero) [zero]) (Saving []) gs = Ok (Saving w, gs) /\
            amp_all (amp_gdual (amp_vectorized zero) [zero]) (Loading w) olds = Ok (Loading [], gs).
Proof. exact @vectorized_session. Qed.
Print Assumptions C46_vectorized_partial.
Example C46_case :
  length [gconst 0%Qc; xy] = length [xy; gconst 1%Qc] /\ pterms (gp xy) <> [] /\
  match amp_all (amp_gdual amp_scalar 0%Qc) (Saving []) [xy; gconst 1%Qc] with Ok (Saving w, _) => 10 <? length w | _ => false end = true.
Proof. split; [reflexivity|]. split; [vm_compute; discriminate|vm_compute; reflexivity]. Qed.
