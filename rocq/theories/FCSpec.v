(* Specification vocabulary for C68. *)
From Coq Require Import ZArith.
From Verif Require Import Base GBModel TCSpec.
Local Open Scope nat_scope.

(* an undirected graph without parallel edges and self loops; the neighbour lists may be in any order *)
Definition plain_graph {W} (G : csr W) : Prop :=
  forall u, u < gn G -> NoDup (map fst (neighbors G u)) /\ ~ adj G u u /\ forall v, adj G u v -> v < gn G /\ adj G v u.
(* a cycle of five different vertices, listed from its smallest vertex in the direction of the smaller
   of the two neighbours of that vertex *)
Definition five_cycle {W} (G : csr W) (t : nat * nat * nat * nat * nat) : Prop :=
  let '(a, b, c, d, e) := t in
  a < gn G /\ NoDup [a; b; c; d; e] /\
  adj G a b /\ adj G b c /\ adj G c d /\ adj G d e /\ adj G e a /\
  (a < b /\ a < c /\ a < d /\ a < e) /\ b < e.
(* k is the number of five-cycles of G *)
Definition number_of_five_cycles {W} (G : csr W) (k : nat) : Prop :=
  exists cs, NoDup cs /\ (forall t, In t cs <-> five_cycle G t) /\ length cs = k.

(* different vertices have different ranks *)
Definition distinct_ranks (n : nat) (rank : list nat) : Prop :=
  forall u v, u < n -> v < n -> nth u rank 0 = nth v rank 0 -> u = v.
(* s is what a program with a state between its calls has left after any number of calls that returned,
   each on a graph that is not larger than the one before; the last one had at least n vertices *)
Inductive after_calls {S} (run : csr unit -> list nat -> S -> option (Z * S) -> Prop) (init : S) : nat -> S -> Prop :=
| no_call n : after_calls run init n init
| call n G rank s c s' : after_calls run init (gn G) s -> plain_graph G -> distinct_ranks (gn G) rank ->
    run G rank s (Some (c, s')) -> n <= gn G -> after_calls run init n s'.
