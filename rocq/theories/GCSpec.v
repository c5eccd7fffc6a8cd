(* Specification vocabulary for C40. *)
From Verif Require Import Base.

(* the colour rule: the least of 0, ..., deg-1 that is not taken; deg+1 when all are *)
Definition first_free (deg : nat) (taken : nat -> Prop) (c : nat) : Prop :=
  (c < deg /\ ~ taken c /\ forall i, i < c -> taken i) \/
  (deg = 0 /\ c = 0) \/
  (0 < deg /\ (forall i, i < deg -> taken i) /\ c = deg + 1).
