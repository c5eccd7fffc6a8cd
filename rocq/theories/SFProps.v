(* C31-C34: filtering, counting sort, relabelling, edge filtering. *)
From Coq Require Import Permutation.
From Verif Require Import Base GBModel TXSpec SFModel SFSpec SFProofs.

(* C31.  filter_seq: the elements that satisfy p, in order, at the front of Out; the rest of
   Out is untouched; the result is their number. *)
Theorem C31_filter_seq : forall A (p : A -> bool) inn out, length (filter p inn) <= length out ->
  filter_seq p inn out (length inn) = Some (length (filter p inn), filter p inn ++ skipn (length (filter p inn)) out).
Proof.
  intros A p inn out H. unfold filter_seq. assert (E : seg inn 0 (length inn) = inn) by (unfold seg; simpl; apply firstn_all).
  rewrite filter_seq_loop_ok by (rewrite ?E; lia). rewrite E. reflexivity.
Qed.
(* filterf, for every block size, order of the blocks and order of the final stores *)
Theorem C31_filterf : forall A (p : A -> bool) b order shuffle inn out, 0 < b ->
  Permutation order (seq 0 (num_blocks (length inn) b)) -> reorders shuffle -> length (filter p inn) <= length out ->
  filterf p b order shuffle inn out (length inn) = Some (length (filter p inn), filter p inn ++ skipn (length (filter p inn)) out).
Proof. intros. now apply filterf_ok. Qed.
(* filterf with an output function: it is called once for each satisfying element, with the
   element's position in the filtered sequence plus the offset *)
Theorem C31_filterf_out : forall A (p : A -> bool) b order shuffle inn off, 0 < b ->
  Permutation order (seq 0 (num_blocks (length inn) b)) -> reorders shuffle ->
  exists calls, filterf_out p b order shuffle inn (length inn) off = Some (length (filter p inn), calls) /\
    Permutation calls (combine (seq off (length (filter p inn))) (filter p inn)).
Proof. intros. now apply filterf_out_ok. Qed.
(* filter_index: the predicate also sees the index *)
Theorem C31_filter_index : forall A (f : A -> nat -> bool) b shuffle junk inn, 0 < b -> reorders shuffle ->
  filter_index f b shuffle junk inn = Some (map fst (filter (fun xj => f (fst xj) (snd xj)) (combine inn (seq 0 (length inn))))).
Proof. intros. now apply filter_index_ok. Qed.
Example C31_example : filterf Nat.even 3 [2; 0; 1] (@rev _) [5; 2; 4; 6; 7; 9; 8; 1] [0; 0; 0; 0; 77] 8 = Some (4, [2; 4; 6; 8; 77])
  /\ filterf_out Nat.even 3 [1; 2; 0] (@rev _) [5; 2; 4; 6; 7; 9; 8; 1] 8 10 = Some (4, [(13, 8); (12, 6); (11, 4); (10, 2)])
  /\ filter_index (fun x j => Nat.even (x + j)) 3 (@rev _) 0 [5; 2; 4; 6; 7; 9; 8; 1] = Some [4; 9; 8; 1]
  /\ Permutation [2; 0; 1] (seq 0 (num_blocks 8 3)) /\ @reorders (nat * nat) (@rev _).
Proof.
  repeat split; try (vm_compute; reflexivity).
  - change (Permutation [2; 0; 1] [0; 1; 2]). apply perm_trans with [0; 2; 1]; constructor. apply perm_swap.
  - intros l. symmetry. apply Permutation_rev.
Qed.

(* C32.  Counting sort: the output is, block by block, the positions of the block by key,
   stably, and counts[i * K + k] is the number of elements of block i with key below k.
   m blocks of size bs cover the input. *)
Theorem C32_counting_sort : forall A key width K thr nb order (junk : A) cjunk inn, 0 < nb -> K <= width ->
  (forall j, j < length inn -> key j < K) -> Permutation order (seq 0 nb) ->
  exists out counts m bs, count_sort key width K thr nb order junk cjunk inn = Some (out, counts, m) /\ 0 < bs /\ length inn <= m * bs /\
    out = flat_map (fun i => map (fun j => nth j inn junk) (by_key key K (block (length inn) bs i))) (seq 0 m) /\
    (forall i k, i < m -> k < K -> nth (i * K + k) counts 0 = before key (block (length inn) bs i) k).
Proof. intros. now apply count_sort_ok. Qed.
(* the sequential branch reports num_buckets + 1 boundaries, but never writes the last one *)
Theorem C32_last_boundary_refuted : exists (inn : list nat) K thr, forall cjunk,
  exists out counts, count_sort (fun j => nth j inn 0) 256 K thr 1 [0] 0 cjunk inn = Some (out, counts, 1) /\ length counts = K + 1 /\ nth K counts 0 = cjunk.
Proof. exists [1; 0; 1], 2, 10. intros cjunk. do 2 eexists. split; [reflexivity|]. split; reflexivity. Qed.
Example C32_example :
  count_sort (fun j => nth j [2; 0; 1; 0; 2; 1; 1] 0 ) 256 3 2 2 [1; 0] 99 77 [20; 0; 10; 1; 21; 11; 12]
  = Some ([0; 1; 10; 20; 11; 12; 21], [0; 2; 3; 0; 0; 2], 2).
Proof. reflexivity. Qed.

(* C33.  filter_edges: returns the edges mapped to 2, by source and in list order; leaves the
   edges mapped to 0, in order; the edge count is the number of edges left.  For every order
   of the vertices, of the blocks inside a list, and of the stores; the graph may already have
   been filtered, and the result may be filtered again (regions_ok). *)
Theorem C33_filter_edges : forall W thr fb pred vorder ord sh vshuffle junk (G : csr W), 0 < fb -> regions_ok G ->
  (forall v x, pred v x <= 2) -> Permutation vorder (seq 0 (gn G)) ->
  (forall v, v < gn G -> good_order fb G v (ord v)) -> (forall v, reorders (sh v)) -> reorders vshuffle ->
  exists G', filter_edges thr fb pred vorder ord sh vshuffle junk G = Some (edges_where (fun v x => pred v x =? 2) G, G') /\
    regions_ok G' /\ gn G' = gn G /\ (forall v, v < gn G -> neighbors G' v = filter (fun x => pred v x =? 0) (neighbors G v)) /\
    gm G' = total_degree G'.
Proof. intros. now apply filter_edges_ok. Qed.
Theorem C33_filter_all_edges : forall W pred vshuffle junk (G : csr W), regions_ok G -> reorders vshuffle ->
  exists G', filter_all_edges pred vshuffle junk G = Some (edges_where pred G, G') /\
    regions_ok G' /\ gn G' = gn G /\ (forall v, v < gn G -> neighbors G' v = []) /\ gm G' = 0.
Proof. intros. apply filter_all_edges_ok with (fb := 1); auto. Qed.
Theorem C33_sample_edges : forall W pred vshuffle junk (G : csr W), reorders vshuffle ->
  sample_edges pred vshuffle junk G = Some (edges_where pred G).
Proof. intros. now apply sample_edges_ok. Qed.
Theorem C33_filter_graph : forall W pred shuffle junk (G : csr W), reorders shuffle ->
  exists H, filter_graph pred shuffle junk G = Some H /\ regions_ok H /\ gn H = gn G /\
    (forall v, v < gn G -> neighbors H v = filter (pred v) (neighbors G v)) /\ gm H = total_degree H.
Proof. intros. apply filter_graph_ok with (fb := 1); auto. Qed.
(* packEdges: filters the lists of the given vertices and reports their new degrees *)
Theorem C33_packEdges : forall W thr fb pred vs vorder ord sh (G : csr W), 0 < fb -> regions_ok G -> NoDup vs ->
  (forall v, In v vs -> v < gn G) -> Permutation vorder vs ->
  (forall v, In v vs -> good_order fb G v (ord v)) -> (forall v, reorders (sh v)) ->
  exists G', packEdges pred thr fb vs vorder ord sh G = Some (map (fun v => (v, length (filter (pred v) (neighbors G v)))) vs, G') /\
    regions_ok G' /\ gn G' = gn G /\ gm G' = gm G /\
    (forall v, In v vs -> neighbors G' v = filter (pred v) (neighbors G v)) /\
    (forall v, v < gn G -> ~ In v vs -> neighbors G' v = neighbors G v).
Proof. intros. now apply packEdges_ok. Qed.

(* a graph with gaps between the lists *)
Definition g0 : csr nat :=
  {| gn := 3; gm := 5; goff := [0; 3; 5]; gdeg := [2; 2; 1]; gngh := [(1, 10); (2, 20); (9, 99); (0, 10); (2, 12); (0, 20)] |}.
Definition p0 (v : nat) (x : nat * nat) : nat := if snd x =? 10 then 2 else if v =? 2 then 1 else 0.
Example C33_example :
  filter_edges 10 2 p0 [2; 0; 1] (fun _ => [0]) (fun _ => @rev _) (@rev _) (0, 0, 0) g0
  = Some ([(0, 1, 10); (1, 0, 10)], {| gn := 3; gm := 2; goff := [0; 3; 5]; gdeg := [1; 1; 0];
                                       gngh := [(2, 20); (2, 20); (9, 99); (2, 12); (2, 12); (0, 20)] |})
  /\ regions_ok g0 /\ (forall v x, p0 v x <= 2) /\ (forall v, v < gn g0 -> good_order 2 g0 v [0]).
Proof.
  split; [vm_compute; reflexivity|]. split; [|split].
  - repeat split; auto; unfold g0; simpl.
    + intros [|[|[|v]]] H; simpl; lia.
    + intros [|[|[|u]]] [|[|[|v]]] Hu Hv Hne; simpl; lia.
  - intros v x. unfold p0. destruct (snd x =? 10), (v =? 2); lia.
  - intros [|[|[|v]]] H; try (apply Permutation_refl). simpl in H. lia.
Qed.
(* the number of edges that packEdges leaves in the graph's header is not updated *)
Theorem C33_packEdges_stale_m_refuted : exists (G : csr nat) pred vs G', regions_ok G /\ gm G = total_degree G /\
  packEdges pred 10 2 vs vs (fun _ => [0]) (fun _ => @rev _) G = Some (map (fun v => (v, 0)) vs, G') /\ gm G' <> total_degree G'.
Proof.
  exists g0, (fun _ _ => false), [0; 1; 2]. eexists. split; [apply C33_example|]. split; [reflexivity|]. split; [vm_compute; reflexivity|]. vm_compute. discriminate.
Qed.

(* C34.  Identifiers below the length become 0 .. k-1, k the number of distinct identifiers;
   order, hence also equality, is preserved. *)
Theorem C34_relabel : forall ids, (forall x, In x ids -> x < length ids) ->
  exists new k, relabel_ids ids = Some (new, k) /\ length new = length ids /\
    k = length (nodup Nat.eq_dec ids) /\ (forall x, In x new -> x < k) /\ (forall t, t < k -> In t new) /\
    (forall i j, i < length ids -> j < length ids -> (nth i new 0 < nth j new 0 <-> nth i ids 0 < nth j ids 0)).
Proof. exact relabel_ok. Qed.
Example C34_example : relabel_ids [4; 0; 4; 2; 0] = Some ([2; 0; 2; 1; 0], 3) /\ forall x, In x [4; 0; 4; 2; 0] -> x < 5.
Proof. split; [reflexivity|]. simpl. intros x H. lia. Qed.
(* the identifier n, for which the table has room, is renamed but not counted *)
Theorem C34_id_n_refuted : exists ids, (forall x, In x ids -> x <= length ids) /\
  exists new k, relabel_ids ids = Some (new, k) /\ k < length (nodup Nat.eq_dec ids) /\ In k new.
Proof.
  exists [2; 0]. split; [simpl; intros x H; lia|]. exists [1; 0], 1. split; [reflexivity|]. split; [vm_compute; lia|]. now left.
Qed.

Print Assumptions C31_filter_seq.
Print Assumptions C31_filterf.
Print Assumptions C31_filterf_out.
Print Assumptions C31_filter_index.
Print Assumptions C32_counting_sort.
Print Assumptions C32_last_boundary_refuted.
Print Assumptions C33_filter_edges.
Print Assumptions C33_filter_all_edges.
Print Assumptions C33_sample_edges.
Print Assumptions C33_filter_graph.
Print Assumptions C33_packEdges.
Print Assumptions C33_packEdges_stale_m_refuted.
Print Assumptions C34_relabel.
Print Assumptions C34_id_n_refuted.
