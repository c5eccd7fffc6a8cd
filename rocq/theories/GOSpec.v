(* Specification vocabulary for C62. *)
From Verif Require Import Base KCSpec.

(* every non-empty vertex set has a vertex with at most d edges into the set: there is no (d+1)-core *)
Definition degenerate (n : nat) (outn : nat -> list nat) (d : nat) : Prop :=
  forall S, core n outn (Datatypes.S d) S -> forall v, S v = false.
(* the edges of v to vertices of greater rank *)
Definition later (outn : nat -> list nat) (rank : nat -> nat) (v : nat) : nat :=
  length (filter (fun w => rank v <? rank w) (outn v)).
