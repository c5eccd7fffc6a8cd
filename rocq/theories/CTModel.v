(* Model of graph contraction (gbbs/contract.h and benchmarks/SpanningForest/SDB14/contract_sf.h),
   of work-efficient connectivity (benchmarks/Connectivity/WorkEfficientSDB14/Connectivity.h) and
   of work-efficient spanning forest (benchmarks/SpanningForest/SDB14/SpanningForest.h).

   The edge table is the concurrent hash table of HTModel; a key (a, b) with a, b < k is the
   number a * k + b.  Parallel loops over disjoint cells are sequential. *)
From Coq Require Import Permutation.
From Verif Require Import Base VSModel EMModel FAModel GBModel GBSpec HTModel HTSpec SFModel LDModel.

(* contract.h:14, contract_sf.h:12 *)
Definition small_cluster_size : nat := 2048.
(* sparse_table.h:60-62 with the default multiplier: capacity cap *)
Definition table_for (cap : nat) : nat := sparse_table_size (11 * cap / 10).

Section Contract.
  Variable V : Type.                       (* gbbs::empty, or an edge of the input *)
  Variable e0 : V.
  Variable hash : nat -> nat.
  Variable sort : list (edge unit) -> list (edge unit).

  Section Level.
    Variable n : nat.
    Variable outn : nat -> list nat.
    Variable value : nat -> nat -> V.      (* edge_mapping(src, ngh) *)
    Variable clusters : list nat.
    Variable k : nat.                      (* num_clusters *)
    Definition cl (v : nat) : nat := nth v clusters 0.
    (* map_f, contract.h:69-78, 127-134 and 170-178: one insertion per edge with c_src < c_ngh *)
    Definition edge_calls : list (nat * V) :=
      flat_map (fun u => flat_map (fun v => if cl u <? cl v then [(cl u * k + cl v, value u v)] else []) (outn u)) (seq 0 n).
    (* contract.h:62-63 small; 153-166 estimated; 123 exact.  insert_check (sparse_table.h:155-181)
       either behaves like insert for all edges or sets abort, and then the exact table is used *)
    Inductive table_size : nat -> Prop :=
    | size_small : k < small_cluster_size -> table_size (table_for small_cluster_size)
    | size_estimated : small_cluster_size <= k -> table_size (table_for (k * 5))
    | size_exact : small_cluster_size <= k -> table_size (table_for (length edge_calls)).
    (* the table after a run of all insertions (contract.h:41-188, contract_sf.h:46-170) *)
    Inductive fetched : table V -> Prop :=
    | fetch m sched : table_size m ->
        let s := exec e0 (fun _ v => v) None edge_calls sched (start hash (new_table e0 m) edge_calls) in
        finished s -> fetched (tab s).
    Definition edges_of (t : table V) : list (nat * nat * V) :=
      map (fun e => (fst e / k, fst e mod k, snd e)) (entries t).

    (* contract.h:225-237: flags after the scan *)
    Definition marked (es : list (nat * nat * V)) (c : nat) : bool :=
      existsb (fun e => (fst (fst e) =? c) || (snd (fst e) =? c)) es.
    Definition flags (es : list (nat * nat * V)) (i : nat) : nat := sum_before (fun j => if marked es j then 1 else 0) i.
    (* contract.h:239-247 *)
    Definition mapping_stores (es : list (nat * nat * V)) : list (nat * nat) :=
      flat_map (fun i => if flags es i =? flags es (i + 1) then [] else [(flags es i, i)]) (seq 0 k).
    (* contract.h:249-261 *)
    Definition sym_edges (es : list (nat * nat * V)) : list (edge unit) :=
      flat_map (fun e => [(flags es (snd (fst e)), flags es (fst (fst e)), tt); (flags es (fst (fst e)), flags es (snd (fst e)), tt)]) es.
    (* contract.h:215-270, contract_sf.h:172-224 *)
    Inductive contracts : table V -> list (nat * nat * V) -> list nat -> csr unit -> Prop :=
    | contract t order1 order2 mapping GC : fetched t ->
        let es := edges_of t in
        Permutation order1 (mapping_stores es) -> run_stores order1 (repeat 0 (flags es k)) = Some mapping ->
        Permutation order2 (all_offset_stores (flags es k) (undirect_and_sort sort (sym_edges es))) ->
        from_edges_sym sort (flags es k) (sym_edges es) order2 = Some GC ->
        contracts t es mapping GC.
  End Level.

  (* the increments of the shifts for n vertices (LDModel.generate_shifts) *)
  Variable incs : nat -> list nat.
  (* one level: LDD and RelabelIds, Connectivity.h:38-47, SpanningForest.h:128-155.  A vertex
     without a cluster would have the id UINT_E_MAX *)
  Inductive decomposes (permute : bool) (n : nat) (outn : nat -> list nat) (m : nat) : list nat -> nat -> (nat -> option nat) -> Prop :=
  | decompose perm clu par clusters k : Permutation perm (seq 0 n) -> (permute = false -> perm = seq 0 n) ->
      ldd_returns n outn outn m (generate_shifts (incs n)) perm clu par ->
      relabel_ids (map (fun v => match clu v with Some c => c | None => S n end) (seq 0 n)) = Some (clusters, k) ->
      decomposes permute n outn m clusters k par.
  Definition csr_out (G : csr unit) (v : nat) : list nat := ids (neighbors G v).
End Contract.

(* -- connectivity ---------------------------------------------------------------------------- *)
Section CC.
  Variable hash : nat -> nat.
  Variable sort : list (edge unit) -> list (edge unit).
  Variable incs : nat -> list nat.
  Notation contracts' n outn cl k := (contracts tt hash sort n outn (fun _ _ => tt) cl k).
  (* Connectivity.h:33-79 CC_impl *)
  Definition merge_labels (es : list (nat * nat * unit)) (mapping clusters new_labels : list nat) : list nat :=
    map (fun c => if flags es c =? flags es (c + 1) then c else nth (nth (flags es c) new_labels 0) mapping 0) clusters.
  Inductive cc_impl (permute : bool) : nat -> (nat -> list nat) -> nat -> list nat -> Prop :=
  | cc_last n outn m clusters k par t es mapping GC : decomposes incs permute n outn m clusters k par ->
      contracts' n outn clusters k t es mapping GC -> gm GC = 0 ->
      cc_impl permute n outn m clusters
  | cc_more n outn m clusters k par t es mapping GC new_labels : decomposes incs permute n outn m clusters k par ->
      contracts' n outn clusters k t es mapping GC -> gm GC <> 0 ->
      cc_impl true (gn GC) (csr_out GC) (gm GC) new_labels ->
      cc_impl permute n outn m (merge_labels es mapping clusters new_labels).
  (* the calls of CC_impl made by CC(G) (lines 113-117; permute is false by default), level by level *)
  Inductive cc_level (permute0 : bool) (n0 : nat) (outn0 : nat -> list nat) (m0 : nat) : nat -> bool -> nat -> (nat -> list nat) -> nat -> Prop :=
  | level_0 : cc_level permute0 n0 outn0 m0 0 permute0 n0 outn0 m0
  | level_S i permute n outn m clusters k par t es mapping GC : cc_level permute0 n0 outn0 m0 i permute n outn m ->
      decomposes incs permute n outn m clusters k par -> contracts' n outn clusters k t es mapping GC -> gm GC <> 0 ->
      cc_level permute0 n0 outn0 m0 (S i) true (gn GC) (csr_out GC) (gm GC).
End CC.
