(* Specification vocabulary for C41. *)
From Verif Require Import Base.

(* no two different adjacent vertices are in S, and every vertex outside S has a neighbour in S *)
Definition maximal_independent (n : nat) (outn : nat -> list nat) (S : nat -> bool) : Prop :=
  (forall u v, u < n -> In v (outn u) -> u <> v -> S u = true -> S v = true -> False) /\
  (forall v, v < n -> S v = false -> exists u, In u (outn v) /\ u <> v /\ S u = true).
(* what adding the vertices greedily in the order given by rank yields *)
Definition greedy_set (n : nat) (outn : nat -> list nat) (rank : nat -> nat) (S : nat -> bool) : Prop :=
  forall v, v < n -> (S v = true <-> forall u, In u (outn v) -> rank u < rank v -> S u = false).
