(* The simple implementation of SCAN: benchmarks/SCAN/Naive/scan.h, scan_helpers.h and scan_helpers.cc, and
   gbbs/helpers/undirected_edge.{h,cc}.

   adj u = the neighbours of u, n = the number of vertices.  Similarities are Z: only their order matters,
   and cos s a b stands for (float) (s / (sqrt(a) * sqrt(b))).  In tables and lookups Some x is a number
   and None a NaN.  Tables are those of
   HTModel, filled under any schedule.  edgeMap is modelled by its outcome in push and in pull direction
   (C17, C18): the functor writes nothing, so the order of its calls does not matter.
   None = an access outside an array or a lookup that does not end. *)
From Verif Require Import Base SIModel HTModel HTSpec.
From Coq Require Import ZArith Cantor.
Local Open Scope nat_scope.

(* t' is the table t after the concurrent calls of insert have returned *)
Definition fills {V} (hash : nat -> nat) (e0 : V) (t : table V) (calls : list (nat * V)) (t' : table V) : Prop :=
  exists sched, let s := exec e0 (fun _ v => v) None calls sched (start hash t calls) in finished s /\ t' = tab s.

(* undirected_edge.cc:19-20 UndirectedEdge, an ordered pair, as a key *)
Definition edge_key (u v : nat) : nat := to_nat (min u v, max u v).

Section Similarities.
  Variable hash_v hash_e : nat -> nat.
  Variable cos : nat -> nat -> nat -> Z.
  Variable n : nat.
  Variable adj : nat -> list nat.
  (* sparse_table.h:60-68; 1.1 * _m truncated *)
  Definition table_for (V : Type) (e0 : V) (m : nat) : table V := new_table e0 (sparse_table_size (11 * m / 10)).
  (* scan_helpers.h:61-73: what is inserted in the table of a vertex *)
  Definition adjacency_calls (u : nat) : list (nat * unit) := map (fun v => (v, tt)) (adj u).
  Definition fills_adjacency (adjacency : nat -> table unit) : Prop :=
    forall u, u < n -> fills hash_v tt (table_for tt (length (adj u))) (adjacency_calls u) (adjacency u).
  Variable adjacency : nat -> table unit.
  (* scan_helpers.h:78-94: the sum of is_shared_neighbor over the vertex of smaller degree *)
  Definition num_shared (u v : nat) : option nat :=
    let u_degree_is_smaller := length (adj u) <? length (adj v) in
    let smaller := if u_degree_is_smaller then u else v in
    let larger := if u_degree_is_smaller then v else u in
    option_map (fun l => list_sum (map Nat.b2n l))
      (all_some (map (fun x => contains hash_v tt (adjacency larger) x (length (adjacency larger))) (adj smaller))).
  (* scan_helpers.h:75-103: what is inserted for the edge (u, v) *)
  Definition edge_call (u v : nat) : option (list (nat * option Z)) :=
    if u <? v then
      option_map (fun s => [(edge_key u v, Some (cos (s + 2) (length (adj u) + 1) (length (adj v) + 1)))]) (num_shared u v)
    else Some [].
  Definition similarity_calls : option (list (nat * option Z)) :=
    option_map (@concat _) (all_some (flat_map (fun u => map (edge_call u) (adj u)) (seq 0 n))).
  (* scan_helpers.h:50-105 ComputeStructuralSimilarities *)
  Definition fills_similarities (m : nat) (similarities : table (option Z)) : Prop :=
    exists calls, similarity_calls = Some calls /\ fills hash_e (Some 0%Z) (table_for (Some 0%Z) m) calls similarities.
End Similarities.

(* scan.h:47-51 and scan_helpers.cc:20-23: similarities.find({u, v}, NaN) >= epsilon *)
Definition is_similar (hash_e : nat -> nat) (similarities : table (option Z)) (eps : Z) (u v : nat) : option bool :=
  option_map (fun r => match r with Some s => (eps <=? s)%Z | None => false end)
    (find hash_e (Some 0%Z) similarities (edge_key u v) (length similarities) None).

(* a vertexSubset, sparse (with repetitions) or dense *)
Inductive frontier := Sparse (l : list nat) | Dense (d : list bool).
Definition members (f : frontier) : list nat :=
  match f with Sparse l => l | Dense d => filter (fun v => nth v d false) (seq 0 (length d)) end.
Definition is_empty (f : frontier) : bool := match members f with [] => true | _ => false end.
(* vertex_subset.h:466-477 vertexFilter *)
Definition vertex_filter (p : nat -> bool) (f : frontier) : frontier :=
  match f with
  | Sparse l => Sparse (filter p l)
  | Dense d => Dense (map (fun v => nth v d false && p v) (seq 0 (length d)))
  end.

Section Cluster.
  Variable dedup : list nat -> list nat.              (* parlay::remove_duplicates_ordered *)
  Variable pull : nat -> nat -> bool.                 (* whether edgeMap pulls, for each root and round *)
  Variable n : nat.
  Variable adj : nat -> list nat.
  Variable similar_b : nat -> nat -> option bool.
  Variable mu : nat.

  (* scan.h:52-59 core_bitmap *)
  Definition core_bitmap : option (list bool) :=
    all_some (map (fun u => option_map (fun l => mu <=? length (filter (fun b => b) l) + 1) (all_some (map (similar_b u) (adj u)))) (seq 0 n)).
  (* scan_helpers.cc:37-49 RemoveDuplicates *)
  Definition remove_duplicates (f : frontier) : frontier :=
    match f with Sparse l => Sparse (dedup l) | Dense d => Dense d end.
  Definition unclustered (clustering : list (list nat)) (v : nat) : bool :=
    match nth v clustering [] with [] => true | _ => false end.
  (* scan_helpers.cc:17-35 CoreBFSEdgeMapFunctions *)
  Definition update (clustering : list (list nat)) (u v : nat) : option bool :=
    if unclustered clustering v then similar_b u v else Some false.
  (* edge_map_data.h:194-199 edgeMap, in push direction: the targets of the successful edges ... *)
  Definition push_map (clustering : list (list nat)) (f : frontier) : option frontier :=
    option_map (fun l => Sparse (concat l))
      (all_some (flat_map (fun u => map (fun v => option_map (fun b : bool => if b then [v] else []) (update clustering u v)) (adj u)) (members f))).
  (* ... and in pull direction: the vertices with a successful edge from the frontier *)
  Definition pull_map (clustering : list (list nat)) (f : frontier) : option frontier :=
    option_map Dense
      (all_some (map (fun v => if unclustered clustering v then
                                 option_map (existsb (fun b => b))
                                   (all_some (map (fun u => if existsb (Nat.eqb u) (members f) then update clustering u v else Some false) (adj v)))
                               else Some false) (seq 0 n))).
  (* scan.h:71-81: one search *)
  Fixpoint search (cores : list bool) (root fuel round : nat) (f : frontier) (clustering : list (list nat)) : option (list (list nat)) :=
    if is_empty f then Some clustering
    else match fuel with
         | 0 => None
         | S fuel =>
             let core_frontier := remove_duplicates (vertex_filter (fun v => nth v cores false) f) in
             let clustering' := fold_left (fun c v => lset c v [root]) (members core_frontier) clustering in
             match (if pull root round then pull_map else push_map) clustering' core_frontier with
             | None => None
             | Some next => search cores root fuel (S round) next clustering'
             end
         end.
  (* scan.h:64-82 *)
  Definition search_root (cores : list bool) (clustering : option (list (list nat))) (root : nat) : option (list (list nat)) :=
    match clustering with
    | None => None
    | Some c => if unclustered c root then search cores root (n + 2) 0 (Sparse [root]) c else Some c
    end.
  (* scan.h:86-109: the clusters of one vertex *)
  Definition attach (cores : list bool) (clustering : list (list nat)) (v : nat) : option (list nat) :=
    if unclustered clustering v then
      option_map (fun l => dedup (concat l))
        (all_some (map (fun x => if nth x cores false then
                                   match similar_b v x with
                                   | Some true => option_map (fun c => [c]) (nth_error (nth x clustering []) 0)
                                   | Some false => Some []
                                   | None => None
                                   end
                                 else Some []) (adj v)))
    else Some (nth v clustering []).
  (* scan.h:35-112 Cluster; the iterations of the last loop write only their own entry, and read only
     those of cores, which are not empty any more *)
  Definition naive_cluster : option (list (list nat)) :=
    match core_bitmap with
    | None => None
    | Some cores =>
        match fold_left (search_root cores) (seq 0 n) (Some (repeat [] n)) with
        | None => None
        | Some c => all_some (map (attach cores c) (seq 0 n))
        end
    end.
End Cluster.
