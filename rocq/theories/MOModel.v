(* benchmarks/SCAN/IndexBased/utils.h CollectReduce and Modularity.

   Doubles are modelled by exact rationals (Qc, canonical fractions), so rounding is not modelled; with exact
   addition the association chosen by parlay::reduce does not matter and reductions are written as folds.  Sums of
   degrees and counts are assumed to fit in uintT.  std::pow(x, 2.0) is x * x.  mx = kUnclustered. *)
From Verif Require Import Base CUModel MOSpec.
From Coq Require Import QArith Qcanon.
Local Open Scope nat_scope.

(* parlay::split_two: the elements with a false flag, then those with a true one, each in order; number of the former *)
Definition split_two {A} (l : list A) (flags : list bool) : list A * nat :=
  let tagged := combine l flags in
  (map fst (filter (fun p => negb (snd p)) tagged) ++ map fst (filter snd tagged), length (filter negb flags)).

(* utils.h:100-127 *)
Section CollectReduce.
  Variables A V : Type.
  Variable sq : list A.                               (* seq *)
  Variable get_key : A -> nat.
  Variable get_value : A -> V.
  Variables (op : V -> V -> V) (identity : V).        (* reduce_fn *)
  Variable num_keys : nat.
  Variable bucketed : list nat.                       (* bucketed_indices after integer_sort_inplace *)
  Definition index_to_key (i : nat) : nat := match nth_error sq i with Some a => get_key a | None => num_keys end.
  Definition index_to_value (i : nat) : V := match nth_error sq i with Some a => get_value a | None => identity end.
  (* parlay::get_counts *)
  Definition get_counts : list nat := map (fun k => length (filter (fun i => index_to_key i =? k) bucketed)) (seq 0 num_keys).
  Definition collect_reduce : list V :=
    if length sq =? 0 then repeat identity num_keys
    else
      let key_offsets := scan_exclusive get_counts in
      map (fun i =>
        let values_start := nth i key_offsets 0 in
        let values_end := if i + 1 =? length key_offsets then length sq else nth (i + 1) key_offsets 0 in
        fold_right op identity (map (fun j => index_to_value (nth (values_start + j) bucketed 0)) (seq 0 (values_end - values_start))))
        (seq 0 num_keys).
End CollectReduce.

Section Modularity.
  Variable mx : nat.
  Variable clustering : list nat.
  Notation num_vertices := (length clustering).
  Notation cluster v := (nth v clustering mx).
  (* the outcome of integer_sort_inplace in CollectReduce, for the pairs it is called with *)
  Variable sort : list (nat * Qc) -> list nat.
  Variable sort_nat : list (nat * nat) -> list nat.
  (* utils.h:167-171 *)
  Definition num_clusters : nat := list_max (map (fun c => if c =? mx then 0 else c + 1) clustering).

  Definition qn (k : nat) : Qc := Q2Qc (inject_Z (Z.of_nat k)).
  Definition square (x : Qc) : Qc := (x * x)%Qc.
  Definition clustered_flags : list bool := map (fun c => negb (c =? mx)) clustering.

  (* utils.h:173-245, unweighted; adj: the neighbours of every vertex *)
  Definition modularity_unweighted (adj : nat -> list nat) : Qc :=
    let num_edges := list_sum (map (fun v => length (adj v)) (seq 0 num_vertices)) in    (* graph->m *)
    if num_edges =? 0 then 0%Qc
    else
      let intracluster :=
        list_sum (map (fun v => if cluster v =? mx then 0 else length (filter (fun w => cluster w =? cluster v) (adj v))) (seq 0 num_vertices)) in
      let intracluster_edge_proportion := (qn intracluster / qn num_edges)%Qc in
      let '(clusters_and_degrees, num_unclustered) :=
        split_two (map (fun i => (cluster i, length (adj i))) (seq 0 num_vertices)) clustered_flags in
      let cut := skipn num_unclustered clusters_and_degrees in
      let degrees_by_cluster := collect_reduce cut fst snd Nat.add 0 num_clusters (sort_nat cut) in
      let null_intracluster_proportion :=
        (qsum (map (fun c => square (qn (nth c degrees_by_cluster 0%nat) / qn num_edges)) (seq 0 num_clusters))
         + qsum (map (fun i => square (qn (snd (nth i clusters_and_degrees (0, 0)%nat)) / qn num_edges)) (seq 0 num_unclustered)))%Qc in
      (intracluster_edge_proportion - null_intracluster_proportion)%Qc.

  (* utils.h:246-309, weighted; None: a division by 0, the result is not a number *)
  Definition modularity_weighted (g : wgraph) : option Qc :=
    let num_edges := list_sum (map (fun v => length (g v)) (seq 0 num_vertices)) in
    if num_edges =? 0 then Some 0%Qc
    else
      let weighted_degrees := map (fun i => qsum (map snd (g i))) (seq 0 num_vertices) in
      let total_weight := qsum weighted_degrees in
      if Qc_eq_dec total_weight 0 then None
      else
        let intracluster :=
          qsum (map (fun v => if cluster v =? mx then 0%Qc else qsum (map (fun e => if cluster (fst e) =? cluster v then snd e else 0%Qc) (g v))) (seq 0 num_vertices)) in
        let intracluster_edge_proportion := (intracluster / total_weight)%Qc in
        let '(clusters_and_degrees, num_unclustered) :=
          split_two (map (fun i => (cluster i, nth i weighted_degrees 0%Qc)) (seq 0 num_vertices)) clustered_flags in
        let cut := skipn num_unclustered clusters_and_degrees in
        let degrees_by_cluster := collect_reduce cut fst snd Qcplus 0%Qc num_clusters (sort cut) in
        let null_intracluster_proportion :=
          (qsum (map (fun c => square (nth c degrees_by_cluster 0 / total_weight)) (seq 0 num_clusters))
           + qsum (map (fun i => square (snd (nth i clusters_and_degrees (0%nat, 0)) / total_weight)) (seq 0 num_unclustered)))%Qc in
        Some (intracluster_edge_proportion - null_intracluster_proportion)%Qc.
End Modularity.
