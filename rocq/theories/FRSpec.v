(* Specification vocabulary for C43, C47: spanning forests.  An edge is (u, v, weight). *)
From Coq Require Import ZArith Permutation.
From Verif Require Import Base GBModel UFSpec.

Definition ends {W} (T : list (edge W)) : list (nat * nat) := map (fun e => (src e, dst e)) T.
(* no edge of T has its ends connected by the other edges of T *)
Definition forest {W} (T : list (edge W)) : Prop :=
  forall l1 e l2, T = l1 ++ e :: l2 -> ~ connected (ends (l1 ++ l2)) (src e) (dst e).
Definition spanning_forest {W} (E T : list (edge W)) : Prop :=
  incl T E /\ forest T /\ forall u v, connected (ends E) u v -> connected (ends T) u v.
Definition weight (T : list (edge Z)) : Z := fold_right Z.add 0%Z (map (fun e => wgh e) T).
Definition minimum_spanning_forest (E T : list (edge Z)) : Prop :=
  spanning_forest E T /\ forall T', spanning_forest E T' -> (weight T <= weight T')%Z.
(* the edges of a graph, each in both directions if the graph is symmetric *)
Definition graph_edges {W} (G : csr W) : list (edge W) :=
  flat_map (fun u => map (fun x => (u, fst x, snd x)) (neighbors G u)) (seq 0 (gn G)).
