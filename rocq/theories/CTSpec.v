(* Specification vocabulary for C47 and C54. *)
From Verif Require Import Base GBModel UFSpec.

(* the edges of a graph given by neighbour lists, as pairs *)
Definition pairs (n : nat) (outn : nat -> list nat) : list (nat * nat) :=
  flat_map (fun u => map (fun v => (u, v)) (outn u)) (seq 0 n).
(* an undirected graph on [0, n): every edge is listed at both ends *)
Definition undirected (n : nat) (outn : nat -> list nat) : Prop :=
  forall u v, u < n -> In v (outn u) -> v < n /\ In u (outn v).
(* pairs as edges without weight *)
Definition unweighted (l : list (nat * nat)) : list (edge unit) := map (fun e => (fst e, snd e, tt)) l.
