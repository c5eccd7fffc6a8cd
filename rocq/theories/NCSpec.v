(* Specification vocabulary for C84: counting the edges from a set of vertices. *)
From Coq Require Import Sorted Permutation.
From Verif Require Import Base NCModel.

(* the number of edges from the vertices of vs to u *)
Definition edges_from (nghs : nat -> list nat) (vs : list nat) (u : nat) : nat :=
  list_sum (map (fun v => count_occ Nat.eq_dec (nghs v) u) vs).
(* the number of edges from u to the vertices of vs *)
Definition edges_to (nghs : nat -> list nat) (vs : list nat) (u : nat) : nat :=
  list_sum (map (fun v => count_occ Nat.eq_dec (nghs u) v) vs).
(* calls has, for every vertex with a positive count that satisfies cond, one call, with the count *)
Definition one_call_each (count : nat -> nat) (cond : nat -> bool) (calls : list (nat * nat)) : Prop :=
  NoDup (map fst calls) /\ forall u c, In (u, c) calls <-> cond u = true /\ c = count u /\ 0 < c.
Definition undirected (n : nat) (nghs : nat -> list nat) : Prop :=
  forall u v, u < n -> v < n -> count_occ Nat.eq_dec (nghs u) v = count_occ Nat.eq_dec (nghs v) u.
(* the lists of neighbours are those of a graph on the vertices 0 .. n-1 *)
Definition on_vertices (n : nat) (nghs : nat -> list nat) : Prop := forall v u, In u (nghs v) -> u < n.
Definition vertex_set (n : nat) (vs : list nat) : Prop := NoDup vs /\ forall v, In v vs -> v < n.
(* apply_f returns, if anything, data for the vertex it was called with *)
Definition keeps_vertex (f : nat * nat -> option (nat * nat)) : Prop := forall p q, f p = Some q -> fst q = fst p.
(* what the parameters of a histogram of keys satisfy: bucket numbers are in range, the orders are
   orders of all blocks and buckets, and on large inputs the sample is a sorted sample of the keys *)
Definition good_params (h : hist_params) (keys : list nat) : Prop :=
  (forall k, h_light h k < h_nb h) /\ 2 * h_nb h <= h_width h /\ 0 < h_seqthr h /\ 0 < h_csnb h /\
  Permutation (h_csorder h) (seq 0 (h_csnb h)) /\ Permutation (h_o3 h) (seq 0 (h_nb h)) /\ Permutation (h_o5 h) (seq 0 (h_nb h)) /\
  (h_medthr h <= length keys -> StronglySorted le (h_sample h) /\ incl (h_sample h) keys /\ length (h_sample h) = 2 * h_nb h).
