(* Specification vocabulary for C26, C27 and C49. *)
From Coq Require Import Sorted.
From Verif Require Import Base GBModel.

(* a graph whose vertices' neighbour ranges lie inside the neighbour array and whose edge
   count is the total degree *)
Definition wf_graph {W} (G : csr W) : Prop :=
  (forall v, v < gn G -> nth v (goff G) 0 + nth v (gdeg G) 0 <= length (gngh G)) /\
  gm G = list_sum (map (fun v => nth v (gdeg G) 0) (seq 0 (gn G))).

(* all targets are vertices *)
Definition targets_below {W} (G : csr W) : Prop :=
  forall v u w, v < gn G -> In (u, w) (neighbors G v) -> u < gn G.

(* what an integer sort on the target guarantees *)
Definition sorts_by_target {W} (sort : list (edge W) -> list (edge W)) : Prop :=
  forall l, Permutation l (sort l) /\ StronglySorted (fun a b => src a <= src b) (sort l).

(* the edges into v: (source, weight), one entry for each edge *)
Definition edges_into {W} (G : csr W) (v : nat) : list (nat * W) :=
  flat_map (fun u => map (fun x => (u, snd x)) (filter (fun x => fst x =? v) (neighbors G u))) (seq 0 (gn G)).
