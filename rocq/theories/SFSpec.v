(* Specification vocabulary for C31-C34. *)
From Coq Require Import Permutation.
From Verif Require Import Base GBModel SFModel.

(* a re-ordering of the stores (or calls) of a parallel loop *)
Definition reorders {A} (sh : list A -> list A) : Prop := forall l, Permutation (sh l) l.

(* positions js ordered by key, positions with the same key in their original order *)
Definition by_key (key : nat -> nat) (K : nat) (js : list nat) : list nat :=
  flat_map (fun k => filter (fun j => key j =? k) js) (seq 0 K).
(* the number of positions with a smaller key *)
Definition before (key : nat -> nat) (js : list nat) (k : nat) : nat := length (filter (fun j => key j <? k) js).
(* block i of positions 0 .. n-1, blocks of size bs *)
Definition block (n bs i : nat) : list nat := filter (fun j => j / bs =? i) (seq 0 n).

(* the adjacency lists lie inside the array and do not overlap.  They need not be contiguous:
   earlier filtering may have left gaps *)
Definition regions_ok {W} (G : csr W) : Prop :=
  length (goff G) = gn G /\ length (gdeg G) = gn G /\
  (forall v, v < gn G -> nth v (goff G) 0 + nth v (gdeg G) 0 <= length (gngh G)) /\
  (forall u v, u < gn G -> v < gn G -> u <> v ->
     nth u (goff G) 0 + nth u (gdeg G) 0 <= nth v (goff G) 0 \/ nth v (goff G) 0 + nth v (gdeg G) 0 <= nth u (goff G) 0).
(* the edges (v, u, w) with the given property, by source and then in list order *)
Definition edges_where {W} (q : nat -> nat * W -> bool) (G : csr W) : list (edge W) :=
  flat_map (fun v => map (fun x => (v, fst x, snd x)) (filter (q v) (neighbors G v))) (seq 0 (gn G)).
Definition total_degree {W} (G : csr W) : nat := list_sum (map (fun v => length (neighbors G v)) (seq 0 (gn G))).
(* an order of the blocks of v's adjacency list, blocks of size fb *)
Definition good_order {W} (fb : nat) (G : csr W) (v : nat) (order : list nat) : Prop :=
  Permutation order (seq 0 (num_blocks (length (neighbors G v)) fb)).
