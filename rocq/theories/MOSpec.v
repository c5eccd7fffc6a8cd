(* Specification vocabulary for C73: modularity of a clustering, in exact rational arithmetic.  A graph is given by
   the list of (neighbour, weight) of every vertex; a clustering lists the cluster of every vertex, mx for none. *)
From Verif Require Import Base.
From Coq Require Import QArith Qcanon Sorted.
Local Open Scope nat_scope.

Definition qsum (l : list Qc) : Qc := fold_right Qcplus 0%Qc l.
Definition wgraph := nat -> list (nat * Qc).
(* weight between u and v *)
Definition wt (g : wgraph) (u v : nat) : Qc := qsum (map snd (filter (fun e => fst e =? v) (g u))).
(* weighted degree of u, and the sum of all degrees *)
Definition wdeg (n : nat) (g : wgraph) (u : nat) : Qc := qsum (map (wt g u) (seq 0 n)).
Definition wtotal (n : nat) (g : wgraph) : Qc := qsum (map (wdeg n g) (seq 0 n)).
(* u and v are in the same cluster; a vertex in no cluster is alone *)
Definition together (mx : nat) (cl : list nat) (u v : nat) : bool :=
  (u =? v) || ((nth u cl mx =? nth v cl mx) && negb (nth u cl mx =? mx)).
(* the sum over the pairs in the same cluster of the weight minus the one expected from the degrees *)
Definition modularity_of (mx : nat) (cl : list nat) (g : wgraph) : Qc :=
  let n := length cl in let m := wtotal n g in
  qsum (map (fun u => qsum (map (fun v => if together mx cl u v then (wt g u v / m - (wdeg n g u / m) * (wdeg n g v / m))%Qc else 0%Qc) (seq 0 n))) (seq 0 n)).

(* an unweighted graph is one with weight 1 on every edge *)
Definition unit_weights (adj : nat -> list nat) : wgraph := fun u => map (fun v => (v, 1%Qc)) (adj u).

(* the values of the elements with key k, added up in any order by a commutative monoid *)
Definition reduced {A V} (op : V -> V -> V) (id : V) (key : A -> nat) (value : A -> V) (l : list A) (k : nat) : V :=
  fold_right op id (map value (filter (fun a => key a =? k) l)).
(* order lists the positions of keys by increasing key, equal keys in any order *)
Definition sorts (keys : list nat) (order : list nat) : Prop :=
  Permutation (seq 0 (length keys)) order /\ StronglySorted (fun i j => nth i keys 0 <= nth j keys 0) order.
