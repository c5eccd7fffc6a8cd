(* Specification vocabulary for C48. *)
From Verif Require Import Base GBModel ISSpec.

Definition adj {W} (G : csr W) (u v : nat) : Prop := In v (map fst (neighbors G u)).
(* an undirected graph with sorted neighbour lists without repetitions *)
Definition simple {W} (G : csr W) : Prop :=
  forall u, u < gn G -> increasing (map fst (neighbors G u)) /\ forall v, adj G u v -> v < gn G /\ adj G v u.
(* three pairwise adjacent vertices, in increasing order *)
Definition triangle {W} (G : csr W) (t : nat * nat * nat) : Prop :=
  let '(a, b, c) := t in a < b < c /\ c < gn G /\ adj G a b /\ adj G b c /\ adj G a c.
Definition sort3 (t : nat * nat * nat) : nat * nat * nat :=
  let '(a, b, c) := t in
  let lo := Nat.min a (Nat.min b c) in
  let hi := Nat.max a (Nat.max b c) in
  (lo, (a + b + c) - lo - hi, hi).
