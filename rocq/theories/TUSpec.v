(* Specification vocabulary for C86. *)
From Coq Require Import NArith Sorted.
From Verif Require Import Base GBModel.

(* the edges of the graph in the order of its arrays *)
Definition edges_of {W} (G : csr W) : list (nat * nat) := flat_map (fun u => map (fun x => (u, fst x)) (neighbors G u)) (seq 0 (gn G)).
(* vertex ids fit into 32 bits *)
Definition small_ids {W} (G : csr W) : Prop := (N.of_nat (gn G) <= 2 ^ 32)%N.
Definition lists_sorted {W} (G : csr W) : Prop := forall v, v < gn G -> StronglySorted le (map fst (neighbors G v)).
Definition lex_le (a b : nat * nat) : Prop := fst a < fst b \/ (fst a = fst b /\ snd a <= snd b).
