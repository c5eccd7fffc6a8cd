# Formal model of ParAlg/gbbs in Rocq (Coq 8.16)

## Layout

* `properties.jsonl` – the English properties (C01, C02, ...).
* `rocq/theories/` – one group of files per component:
  * `*Model.v`  – the code, function by function, each definition citing file:lines in /repo;
  * `*Spec.v`   – small independent specification (what a user means), no reference to the model;
  * `*Proofs.v` – lemmas;
  * `*Props.v`  – the final theorems (`exact lemma`), concrete non-vacuity examples, `Print Assumptions`.
* `MANIFEST.json` – property → theorem names and status.
* `seeded/LOG.jsonl` – wrong-program experiments.
  `failed_at` is the declaration at which Coq stopped.  `theorems_failed` names that theorem if it stands in a Props
  file; otherwise it lists all theorems of the Props files that import the broken file, an upper bound: some of them may
  not use the broken lemma.  An entry records that the proof as written no longer goes through, not that the statement
  was separately shown false of the edited model.  Edits that turned out to be equivalent are not logged.

Naming: `Cxx_name` proved in full; `Cxx_name_partial` – weaker than the English statement (what is missing is
said beside the theorem and in the manifest); `Cxx_name_refuted` – the English claim is false of the code as
written; the theorem exhibits a concrete witness (and normally comes with a theorem for the inputs on which the
claim does hold).

## Modelling conventions

* Vertices/indices are `nat`, or `N`/`Z` where machine width matters (codecs, hashing, fetch_and_add wrap).
  The sentinel `UINT_E_MAX` is either an `option`'s `None` or a universally quantified number larger than all ids.
* Arrays are lists (`nth`, update-at) or functions from `nat`; out-of-bounds access is a distinct outcome
  wherever it is reachable.
* Loops whose termination is not structural take fuel; running out of fuel is a distinct value (`None`), and
  theorems state that it does not occur (or, for non-termination findings, that it occurs for every fuel).
* Concurrency: sequential consistency.  Threads are state machines whose every step performs at most one shared
  memory access (read, write or CAS).  A schedule is an arbitrary sequence of thread choices.  Theorems hold for all
  reachable states, i.e. for every interleaving.
* `parallel_for` bodies without races are modelled as maps; bodies with atomics by the interleaving model, or by
  "the atomic actions occur in an arbitrary order" where each body performs one atomic action.
* External library (parlay) primitives (`scan`, `filter`, `pack`, `reduce`, `sort`) are modelled by their
  documented functional behaviour (sort: any permutation that is sorted); hash functions and random permutations are
  universally quantified.

## Trusted base

* Coq 8.16.1 kernel (and `vm_compute` for a few witness computations).
* Axioms: see the `Print Assumptions` output; the aim is "Closed under the global context" for every theorem.
* The correspondence between the C++ text and the model, made by hand; each definition cites what it models.
* Sequential consistency of the memory operations; C++ data races on non-atomic accesses are treated as SC accesses.
* Documented behaviour of parlay primitives.

## Not modelled (globally)

Memory allocation failure, timing output, mmap, floating-point arithmetic
(PageRank, CoSimRank, betweenness), and the parlay scheduler itself.

## Plan per property

* C01–C04 (byte codec): byte buffers as lists of N < 256; writer returns emitted bytes, reader consumes; induction on
  the value's 7-bit groups; lists by induction.
* C05–C06, C10 (bytepd): block structure on top of the byte codec; induction over blocks; block size a parameter.
* C07–C08 (amortized): the memory predicate `stored` (virtual degree, offset table, block headers, block contents) is
  established by the encoder and kept by every pack and repack under any order of the block loops; each reader is
  evaluated on it.  Repack fits: merging or splitting a list costs at most 4 bytes, a removed block saves 8.  Non-int
  weights: the encoder's output does not depend on the weights.
* C09: refutation by a two-neighbour list; positive result for i = 0 and exact characterisation (i-1).
* C11–C13 (atomics): transition system, per-thread pc; invariant relating memory to the set of finished calls.
* C14–C16 (vertexSubset): record with both representations as in the struct; histories of operations.
* C17–C18 (edgeMap): generic traversal with visit-once function; chunking as list splitting by prefix sums.
* C19–C20 (bucket): the struct with open buckets + overflow; invariant "every live id is stored where to_range says".
* C21–C22 (intersect): loops with indices; merge recursion by well-founded size; thresholds as parameters.
* C23–C25 (construction), C26 (text format), C27 (read_o_direct).
* C28–C30 (hash tables): slots as a function/list; linear probing; interleaving model for inserts.
* C31–C34: sequence primitives, edge filtering, relabelling.
* C35–C36 (union-find): transition system with one shared access per step for each find/unite strategy; invariant:
  parents decrease, root classes = classes generated by performed links, locals stay in their class.
* C37–C48: algorithms as round-based transition systems on top of the frontier semantics; refutations by computation.
* C49 (in-edges of directed text files), C50 (table growth), C51 (histogram), C52 (edges()): functional models of the
  loops, stores applied in any order.
* C53–C54, C47 (decomposition, contraction, recursion): the decomposition as a round relation with arbitrary arrival
  order; contraction through the hash-table semantics of C28–C30; induction on the recursion.
* C44, C55 (bucketed shortest paths): calls of `updateAtomic` as threads with one shared access per step on top of the
  bucket structure of C19–C20; invariant per round: settled buckets hold exact distances.
* C56–C57 (Shiloach-Vishkin, Liu-Tarjan): write_min calls in any order, pointer jumping as threads with one shared access
  per step; round invariants (labels stay in the component and decrease); an executable run for the refuted variants.
* C58 (approximate densest subgraph): exact fractions instead of doubles; the peeling loop and Charikar's order on top of
  C39; bounds by passing to a set in which every degree is at least half the average.
* C59 (betweenness from one source): exact rationals instead of doubles, additions in any order; invariants of the forward
  and backward loops over the distance levels; counts of walks by splitting a walk at a level.
* C60 (widest paths): widths turned into keys (max weight + 1 - width), then the bucket loop invariant of C55 for a
  combination of path and edge that is monotone; the Bellman-Ford version by a round invariant over all interleavings.
* C61 (cliques): the recursion over labels computes the chains of the directed graph (each vertex a neighbour of all the
  earlier ones); the induced graphs are isomorphic copies, the spaces are clean again after every iteration; chains and
  cliques are in bijection.  The iterations are dealt to the workers arbitrarily; iterations of one worker do not overlap.
* C62 (degeneracy orders): round invariant: D holds the number of edges to the vertices that are left; in a d-degenerate
  graph the degrees inside any set sum to at most 2 d times its size, and the sort puts the small ones first.
* C63 (strongly connected components): invariant over the rounds: a component has one label, and a final label belongs to one
  component.  The calls of a search interleave at single table operations; the table itself is a set of pairs with a size, an
  insert that takes its last entry is the outcome None.
* C64 (Boruvka): the invariant of a round relates the parent pointers to connectivity by the edges chosen so far; every chosen
  edge is light (its ends are not connected by edges before it in the order batch, weight, position), and light spanning edges
  satisfy the bottleneck criterion of C43.  The pointer jumping interleaves at single accesses; filter_edges is the model of C33.
  The sampling of get_top_k is over-approximated: any edge's weight as the split weight, any hash.
* C65 (ApproximateSetCover): on the bucketing structure of C19.  The three functions computed in floating point are parameters
  with two hypotheses (`levels`, `steep`); C65_exact shows that exact arithmetic meets them.  Covering and termination by an
  invariant of the round; the size by charging each returned set to the elements it won (dual fitting), in Q.
* C66 (spanner): the decomposition is that of C53, the edge table that of C28; `insert_check` gets its own transition system,
  and a phase without abort is shown to be a phase of `insert`.  Stretch by joining walks inside clusters.
* C67 (Tarjan-Vishkin biconnectivity): every pass as a loop over an arbitrary order (connectivity from C36, the search from
  C17, the tree's CSR arrays, leaffix sums, preorder numbers, low/high values, marks, labels).  The marks are shown to be
  exactly the tree edges (v, parent) such that no edge leaves the parent's subtree from below v; from this, the components of
  the kept edges are the biconnected components, which uses that the tree is a breadth-first tree.
* C35/C36, progress: `ends c` = returned after c own steps whatever others do to the pointers as long as pointers go down and
  non-roots stay non-roots; the measure is the sum of the two current vertices.  The rely condition comes from the safety proof.
* C68 (five-cycle counting): relabel_graph, the ranks of C62, filterGraph of C33, both loops (Kowalik, ESCAPE) with 32 and 64
  bit wraparound and explicit array bounds, the division of the vertices into blocks by binary search, workers with arrays
  kept between calls.  Proof: the loops count a list of closed walks; each of the ten listings of a cycle is a closed walk and
  exactly one of the ten satisfies the condition of the loops, so that ten times the count is the number of closed walks.
* C69 (SCAN index): the index (neighbour order by sorting and slicing, degree offsets by the two store loops into an
  uninitialised array, thresholds, GetCores) and both forms of Cluster.  unite and find are the programs of C01 run from an
  array whose non-core entries hold kUnclustered; the attachments are interleavings of reads and compare-and-swaps.
  Proof: the calls never leave the set of cores, so a run agrees step by step with one from an ordinary forest; for
  several epsilons the new edges and the old labels together connect what the similar core edges connect.
* C70 (exact similarities): the intersection with indexes (linear merge, binary searches, recursive splits with the swap flag
  and the two offsets), the graph directed by rank, the counters as a multiset of atomic additions modulo 2^32 applied in
  any order, and the stores of the result.  Proof: each directed triangle adds to its three edges, so the total of an edge
  is a triple sum that collapses to a sum over the shared neighbours; the stores hit every index of the array once.
  Combined with C69 it gives the clusterings for the Jaccard similarity.
* C71 (naive SCAN): the tables of neighbours and similarities filled by concurrent insertions (the tables of C28, any
  schedule and hash), the searches from each vertex with frontiers in either representation and edgeMap in either
  direction, and the last pass.  Proof: the vertices labelled by a search are closed under similar cores once its frontier
  is empty; every round with a core labels one more vertex.  Compared with the specification of C69.
* C72 (SCAN utilities): CompactClustering with its benign race (marks are tested and set in two steps of an arbitrary
  schedule), and DetermineUnclusteredType with its shared candidate and flag, one access per step.  Proof: invariants of the
  steps; sums of bits are strictly increasing at marks; a renumbering is unique.
* C73 (modularity): CollectReduce (any sort of the positions by key, counts, offsets, slices) and both branches of
  Modularity over canonical rationals (Qc of the standard library).  Proof: a list sorted by key is the concatenation of its
  slices; the double sum of the definition is regrouped by cluster.  Rounding of doubles is not modelled.
* C74 (PageRank): PageRank_edgeMap, PageRank and PageRankDelta over canonical rationals, a division by 0 giving None.  Proof:
  one round is one step of the random walk; steps contract the L1 distance by the damping; the loops return the first
  iterate that moved by less than eps.  Rounding of doubles is not modelled.
* C75 (graph files): the compressor (symmetric and directed), the converter's amortized and binary writers and the readers of
  graph_io, byte by byte, on top of the codec of AMModel.  Proof: the size pass computes exactly what the encoder writes;
  encodings can be moved to another address; any order of the vertices fills disjoint ranges.
* C76 (union-find with randomized linking by rank): the calls of unite and find at the level of single accesses, with the random
  bits as part of the schedule.  Proof: a ghost key (the rank of a root, the rank at which a vertex was linked) makes parents
  increase in (key, id); the sum over the roots of n + 1 - rank falls at every successful link or rank increase, which bounds the
  steps of a call; the recorded edges stay a forest whose trees are the union-find trees.
* C77 (the other union-find spanning forests): the four find and two splice rules and the unite rules at the level of single
  accesses, and the k-out sampling.  Proof: parents never exceed their children, so a vertex with a smaller vertex in its tree is
  not a root and every compressing write stays inside a tree; a ghost array of the edges that have linked a root is a forest with
  the trees of the structure; Edges differs from it only where a call is between its link and its record.
* C78 (Shiloach-Vishkin and Liu-Tarjan spanning forests): the rounds with the write_min calls, the recording and the pointer jumping
  of C56/C57.  Proof: a round hooks some roots to smaller roots along recorded edges; taking the hooks one at a time in increasing
  order, the recorded edges stay a forest whose trees are the label classes; a round without an update leaves no edge between
  two labels; a round with one removes a root.
* C79 (breadth-first search spanning forests): the loop over the vertices around the search of C18, and the deterministic version
  with every read, write and compare-and-swap of parents and visited as one step.  Proof: after the first traversal of a round
  parents[d] is the least frontier neighbour of every unvisited d, by an invariant over the interleavings; after the second
  exactly these d are visited and emitted once; the search covers the component of its source; parents with a decreasing rank
  are a forest.
* C80 (label propagation spanning forest): both traversals of a round with every read, write and compare-and-swap of Parents,
  changed and Edges as one step; rounds until the frontier is empty, from any sampled start.  Proof: the first traversal computes
  the least label among a vertex and its neighbours in the round before, by an invariant over the interleavings, so after k rounds a
  label is the least within distance k; the second records an edge to a neighbour whose label arrived one round earlier, and the
  round of arrival is a rank of the forest on top of the sampled one.
* C81 (local queries for independent sets and matchings): the recursive queries with their cutoffs, assertions and exits as
  outcomes, the reordered flat graph, and the drivers with their verification.  Proof: both queries are instances of a query over
  elements with a total order; by induction on the recursion the result with a cutoff is determined by the result and the number
  of steps without one; the answers are the greedy choice; sorted slices never trip an assertion.
* C82 (CoSimRank): both versions in exact rational arithmetic, with a division by the degree 0 as a failure.  Proof: the arrays are
  the distributions of the two walks and vanish outside the frontiers; the masses are at most 1, so the inner products are, and the
  rest of the sum is below a geometric series.
* C83 (peeling by cliques): Peel with the bucket structure of C19, ApproxPeel with exact fractions, the counts of both from the model
  of C61 with a filter on the edges.  Proof: the calls made for the active vertices count, for every remaining vertex, the cliques it
  loses; then as for k-core, and for ApproxPeel by a dense subset in which every member has many cliques and by double counting.
* C84 (nghCount): both directions of edgeMapCount on top of the histogram of C51, which is extended to keys equal to the table's empty
  key.  Proof: tables up to the values of empty cells; the dense count is a sum over the subset, equal on undirected graphs.
* C85 (connectivity by sampling and union-find): k-out and BFS sampling access by access, LDD sampling by C53, followed by the
  union-find programs of C35/C36 started from the sampled labels.  Proof: a potential for each compression task; an invariant of the
  attempts of a BFS round and a measure of the rounds; labels that are larger than the vertex are handled by a simulation: a run equals,
  after renaming, a run on twice as many vertices whose parents never increase.
* C86 (graphs written as text): sequence_to_string store by store, to_edge_list and random_reorder on top of it, and the edge-list reader.
  Proof: loops that fill disjoint blocks of an array in any order; the tokens of the text written.
* C87 (generators): the Barabasi-Albert generator slot by slot with its rejection loops on an arbitrary stream of random numbers, and the R-MAT
  recursion with wrap-around arithmetic.  Proof: blocks as in C86, an invariant of the sequential pass, induction on slots; bits of a power of two.
* C88 (checkers): the correctness checks of the connectivity and spanning-forest benchmarks over arbitrary labels, the connectivity algorithm a
  parameter.  Proof: induction on the relabelling loop, with the map of labels seen so far as the invariant.
* C89 (dynamic array): a heap of blocks with allocation, freeing and cells never written; each operation as a function on heap and array, the
  parallel loops in any order.  Proof: an invariant relating array, list and ownership of blocks; a potential function for the cost.
* C90 (Liu-Tarjan batches): connect, update with the flags taken by compare-and-swap, shortcut, alter and the query loop, all interleaved
  arbitrarily, for every variant.  Proof: soundness by induction on the history; for the first batch an invariant of the update phase (every cell
  holds its old or its new value, a set flag is owed to a pending or finished update); witnesses by an executable schedule.
* C91 (command lines): words as byte lists, the search loops with their bounds, the C library's atoi and atol as functions with undefined
  overflow, sscanf for doubles as a parameter.  Proof: induction on the loops and on the words.
* C92 (counters): the padded entries with their bounds and uninitialised contents, the load and the store of an update and every read of
  get_value as separate steps of an arbitrary interleaving.  Proof: invariant (an entry holds what its worker has added), monotone sums for the reader.
* C93 (degeneracy order by selection): the approximate selection as an arbitrary relation with a bound on the values below its result, a call
  outside its range as an outcome of its own.  Proof: round invariant of C62, then the bound from the structure of the result alone.
* C94 (resizable table): cells of whole pairs, one shared access per step of an insertion, resizing by concurrent re-insertion, histories of
  batches.  Proof: probe-path invariant; the number of elements is below the number of cells, so every probe meets an empty cell.
* C95 (edgeMapReduce_dense): reductions with any bracketing, iterations in any order, apply_f acting on the data of its vertex.  Proof: a reduction
  over a monoid is the fold; induction on the order of the iterations.
* C96 (neighbour iterator, filter_iter): the edge array goes on behind the edges of the vertex; reads that fail are None.  Proof: induction on the
  edges still to come, and on the number of calls of next.  vtx_intersect of peel.h is modelled again with these iterators (FIMModel) and equals
  the merge of the two lists.

## What is modelled, file by file

| /repo file | model | left out |
|---|---|---|
| encodings/byte.h, byte.cc | CodecModel | `intersect` on compressed lists, file output (converter -enc byte) |
| encodings/byte_pd.h, .cc | PDModel | `intersect` (calls `exit`), debugging output |
| encodings/byte_pd_amortized.h, .cc | AMModel | `intersect*`, `repack_sequential` (never called), the chunked variant of `filter` is identified with the sequential one |
| bridge.h | AtomicsModel, SFModel | timing, `granular_for` |
| vertex_subset.h | VSModel | printing |
| vertex.h, edge_map_data.h, edge_map_blocked.h | EMModel, CDModel | `edgeMapSparse`/`edgeMapBlocked` (unused) |
| edge_map_reduce.h, helpers/histogram.h | HGModel, NCModel, ERModel (`edgeMapReduce_dense`) | `histogram_reduce`, `edgeMapReduce_sparse` (not called: `edgeMapReduce` exits) |
| bucket.h, helpers/dyn_arr.h | BKModel | memory reuse |
| intersect.h | ISModel | compressed inputs |
| graph.h (`from_edges`, `edges`), edge_array.h, graph_io.h (edge lists) | GBModel, KRModel | copying graphs, mmap'ed graphs |
| graph_io.h/.cc (text), io.cc | TXModel; binary and compressed files: GFModel | weighted directed binary files (not implemented in the code) |
| helpers/sparse_table.h, sparse_additive_map.h, sequential_ht.h | HTModel | |
| helpers/resizable_table.h | RTModel | default constructor, `analyze`, `insert_seq` (not called) |
| helpers/counting_sort_no_transpose.h, contract.h (`RelabelIds`), graph_mutation.h | SFModel | byte-compressed `filter_graph` |
| contract.h, contract_sf.h | CTModel, SPModel | |
| helpers/speculative_for.h | MIModel, MMModel | |
| benchmarks: BFS, BFSCC, BellmanFord (FAModel); KCore (KCModel); GraphColoring (GCModel); MaximalIndependentSet (MIModel); MaximalMatching (MMModel); Kruskal (KRModel); LabelPropagation (LPModel); UnionFind and ConnectIt rules (UFModel); LDD (LDModel); WorkEfficientSDB14 (CTModel); SpanningForest SDB14 (SPModel); Triangle counting (TCModel); wBFS, DeltaStepping (WBModel); ShiloachVishkin (SVModel); LiuTarjan (LTModel; batches in LBModel); ApproximateDensestSubgraph (DNModel); SSBetweenessCentrality (BCModel); SSWidestPath (WPModel); CliqueCounting (CQModel, space types 5 and 6, without peeling); DegeneracyOrder (GOModel, DegeneracyOrder_intsort and Barenboim-Elkin; GQModel, DegeneracyOrder); StronglyConnectedComponents (SCModel); MinimumSpanningForest/Boruvka (BOModel); ApproximateSetCover (CVModel); Spanner (SNModel); Biconnectivity/TarjanVishkin (BIModel); CycleCounting/Parallel5Cycle (FCModel; not `Count5Cycle_experiment` and the sparsified graphs); SCAN/IndexBased scan and scan_helpers (SIModel; floats as integers in the same order, no NaN); SCAN/IndexBased intersect and the exact measures of similarity_measure (SMModel; integer weights whose products sum within their type; float operations as arbitrary functions; not the approximate measures); SCAN/Naive and helpers/undirected_edge (NSModel; edgeMap by its outcome, as proved in C17/C18, since the functor writes nothing); CompactClustering and DetermineUnclusteredType of SCAN/IndexBased/utils (CUModel); CollectReduce and Modularity (MOModel; exact rationals instead of doubles); the three PageRank implementations (PRModel; exact rationals, edgeMap by its outcome); utils/compressor.cc and the bytepd-amortized (symmetric) and binary writers of utils/converter.h (GFModel; not its byte, bytepd, degree and edgearray writers); jayanti.h of Connectivity/UnionFind and SpanningForest/UnionFind (JAModel; the sampling of the latter by its outcome); SpanningForest/UnionFind/{union_find_rules.h,SpanningForest.h} and SpanningForest/Framework/kout_sampling.h (SUModel; without splice_atomic; termination is not claimed); SpanningForest/ShiloachVishkin/SpanningForest.h and SpanningForest/LiuTarjan/{liu_tarjan_rules.h,SpanningForest.h} (RSModel); SpanningForest/BFSSF/SpanningForest.h and SpanningForest/common.h parents_to_edges (BTModel); SpanningForest/LabelPropagation/SpanningForest.h (PFModel); MaximalIndependentSet/Yoshida and MaximalMatching/Yoshida (YQModel); CoSimRank/CoSimRank.h (CKModel); CliqueCounting/peel.h (KPModel); gbbs/interface.h nghCount, gbbs/edge_map_reduce.h edgeMapCount (NCModel); ConnectIt/sampling.h k-out and BFS samplers, SamplingAlgorithmTemplate with union-find (UGModel); bridge.h sequence_to_string, utils/to_edge_list.cc, utils/random_reorder.cc, graph_io.cc read_unweighted_edge_list (TUModel); utils/generators/barabasi_albert.h, utils/generators/rmat.h (GNModel); ConnectIt/mains/check.h, SpanningForest/check.h (CZModel); gbbs/helpers/dyn_arr.h (DYModel); Connectivity/LiuTarjan/Connectivity.h process_batch (LBModel); gbbs/helpers/parse_command_line.h (CMModel); gbbs/helpers/atomic_sum_counter.h and atomic_max_counter.h (ACModel); gbbs/vertex.h iter and gbbs/bridge.h filter_iter (FIModel); vtx_intersect of CliqueCounting/peel.h with its iterators (FIMModel) | | other benchmarks |

Machine width: the codecs, the text format, counters with wrap-around and wBFS's flag bit use the real widths (or a
parameter for the width).  Elsewhere vertex ids, degrees and offsets are unbounded naturals, i.e. inputs are assumed to
have fewer than 2^32 - 1 vertices and edge counts that fit.

## Findings

Points where the code does not do what its interface suggests.  `[T]` marks those stated as theorems (`_refuted`, or
as the exact characterisation named in the manifest); the others were found by reading and are not formalised.

Codecs
* [T] byte.h, byte_pd_amortized.h `get_ith_neighbor` return the neighbour before the one asked for.
* [T] byte_pd: packing more than one block does nothing; packing degree 0 invents a neighbour; the last of several full
  blocks reports degree 0; non-int weights are lost; a neighbour at distance exactly 2^31 is undefined behaviour.
* [T] byte_pd_amortized: 100 blocks overrun `block_cts_stack[100]`; packing a vertex of degree 0 works on the next
  vertex's bytes; unsigned, float and double weights are never written but are read; `simple_iter` (hence `intersect`)
  is wrong on packed lists.
* byte.h `compressEdge` writes nothing for a zero difference, so repeated neighbours are not representable (lists are
  strictly increasing in all theorems); an int weight of INT_MIN is undefined behaviour.

Traversal
* [T] edgeMapChunked with the bytepd format does not traverse a frontier whose reported total degree is 0.
* [T] `emhelper`: tuples larger than 16 bytes overrun the block buffer.
* [T] `add_to_vsubset` leaves the other representation stale when both exist.
* `edgeMapData` uses a cached `sum_out_degrees` that is not reset when the subset changes.

Buckets
* [T] the one-argument `get_bucket` loses ids; an id moved away and back is reported twice; `to_range` of the null
  bucket in increasing order is the overflow bucket; see C19 for the exact contract.

Graphs and files
* [T] `from_edges` with default n takes 1 + (max source + max target); weights of duplicate symmetric edges may become
  asymmetric; vertices that only have self loops vanish from edge lists.
* [T] weighted text files go through `stof` (integers above 2^24 are rounded); the in-edge offset n of weighted
  directed graphs is not initialised; m = 0 reads `temp[0]`.
* [T] `packEdges` leaves the edge count of the graph stale; RelabelIds ignores the id n.
* copying a graph after packing copies only the first m entries of the edge array.

Tables
* [T] `sparse_additive_map` with 1, 2, 4 or 8 entries can become full and lookups of absent keys do not return.
* [T] `sequentialHT::insertAdd(T&)` stores 1 on the first insertion instead of the value.

Algorithms
* [T] KCore_FA, DegeneracyOrderWithLoad, BFSCC (isolated vertices), MaximalMatching (`get_edges` may not return;
  `eff_for` aborts after n rounds), GraphColoring (Delta + 2 colours), Kruskal (empty edge list, weight overflow).
* [T] `UniteRemCAS`/`UniteRemLock` with `splice_atomic` and ConnectIt's `UniteEarly` after sampling can create a cycle
  of parents.
* [T] contract.h `fetch_intercluster_small`: the table for small graphs can fill up, and the insertion never returns.
* [T] SpanningForest (SDB14) base case returns extra (0, 0) edges.
* [T] DeltaStepping: two overlapping `updateAtomic` calls can lose a vertex, so a returned distance can be too large.
* [T] ShiloachVishkin `process_batch`: hooking the endpoints of a later batch by write_min on stale roots loses
  connections made by earlier batches.
* [T] LiuTarjan: the variants with the single shortcut (PUS, PRS and all with alter) stop when no message changes, although
  the trees are not flat; alter with simple updates splits sampled components; `StergiouAlgorithm` never increments `rounds`
  and labels every non-isolated vertex 0.
* LiuTarjan `process_batch` answers the queries by reading `updates[i]` instead of `queries[i]`.
* [T] triangle counting needs an injective rank (the ranks used are).
* SpanningForest/UnionFind `UniteRemCAS` swaps the roots without refreshing `p_ry`; an edge is recorded although the
  union did not take place.
* BarenboimElkin08 degeneracy order: if a round finds no vertex below the cutoff an index underflows (e.g. K3).
* Boruvka: weights >= 2^31 - 1 are never picked and the loop does not end.
* SSWidestPath `BF_F::update` compares the wrong way round in the sequential version.
* [T] GreedyCharikar divides the edges among the vertices after position i by the number of vertices from position i on
  (the scan is exclusive): a single edge gives 0, and the result is not a 2-approximation.
* [T] GreedyPlusPlus uses DegeneracyOrderWithLoad and exits in its first iteration if the graph has more than one edge.
* [T] A vertexSubset keeps `sum_out_degrees` from the first `edgeMap`; a second `edgeMap` with `in_edges` reads it as the sum
  of the in-degrees.  If it is 0 the traversal is skipped: SSBetweennessCentrality and its `_EM` version return wrong scores on
  directed graphs.  The default version does not depend on it.
* [T] Betweenness: vertices that are not reachable get NaN (0/0 and inf - inf), and the source gets the number of vertices it
  reaches.  The `_EM` version prints the first 100 entries of an array of n.
* [T] SSWidestPath loses vertices as soon as a weight is at least num_buckets - 1 (127 with the default): the previous bucket
  of a vertex that was not reached is computed as max_weight + 1 instead of null, and `get_bucket` returns null when both
  buckets lie in the overflow bucket.
* SSWidestPath: a width equal to INT_E_MAX at another vertex than the source is filed under bucket 1, while `get_ring` says 0
  (excluded by hypothesis in C60).  `SSWidestPathBF_F::update` compares the wrong way round but is never called.
* [T] CliqueCounting keeps levels in an array of `char`: for k of 130 or more (with signed char) the comparison with the level
  never holds and the count is 0 for every graph.
* [T] CliqueCounting with recursive_level = 1 and -saveSpace: the last loop of `setup_intersect_edge` increments j instead of
  p, so it does not end as soon as the two vertices have a common neighbour.  It also stores positions where vertices
  are meant (lines 350, 371, 381).
* [T] CliqueCounting with space type 6 divides by zero when no vertex of the directed graph has a neighbour with neighbours.
* CliqueCounting by reading, not modelled: `parallel_for_alloc` keeps a `static thread_local` space per instantiation, so a
  later call with a larger k or a larger degree reuses buffers that are too small, and a worker that waits in a nested join
  may start another iteration on the space it is using; space type 2 shares `tmp` and increments `count` without
  synchronisation for large degrees; `get_ordering` type 2 returns the sorted vertices instead of their ranks (still a
  permutation, so the count is right, but not the degeneracy order).
* [T] GoodrichPszona11 `DegeneracyOrder_intsort` computes the number of vertices to remove per round from n, not from the
  vertices that are left, so only the first round satisfies the (2 + epsilon) bound (C62_first_round, C62_approx_refuted).
* [T] BarenboimElkin08 `DegeneracyOrder` sorts the vertices below the cutoff to the end although it takes the removed vertices
  from the front: vertices of high degree come first.  When no vertex is below the cutoff `end - start` wraps around and the
  allocation fails (C62_barenboim_elkin_refuted).
* [T] StronglyConnectedComponents sizes the table of a search from the labels counted before the round, but labels that arrive
  at a vertex within the round are moved on by its own calls: the table can fill up, and then the iteration over one key never
  meets an empty entry (C63_full_refuted; already with one thread, when the frontier lists a path in order).
* StronglyConnectedComponents reads the labels of vertex 0 of a graph without vertices; `-beta 0` makes the step 0 and the loop
  endless.
* [T] Boruvka: `min_edges` starts from INT32_MAX whatever the weight type: edges with larger weights (unsigned, 64-bit or float
  weights) are never selected but are removed from the graph, so the result does not span (C64_heavy, C64_heavy_refuted).
* [T] Boruvka: a self-loop is returned as an edge of the forest, and its vertex leaves the active set (C64_self_loop_refuted).
* Boruvka: the flags of the pack of the edges (`self_loop_im`) are given the length n instead of m, the output slice of the pack
  of the vertices the length m; both rely on pack_out not looking at these lengths.
* [T] ApproximateSetCover: in bucket 0, `cur_bkt - 1` wraps around, `pow` gives infinity, and converting it to size_t is
  undefined.  x86-64 without AVX-512 gives 0 (the intended result follows); where the conversion saturates, no set joins from
  bucket 0 and the call never returns, already on one edge (C65_hang_refuted).
* [T] ApproximateSetCover: a set that joins marks only the elements it won, not all its elements (the comment at 164-165 says
  otherwise), so that later sets are returned for elements already covered (C65_redundant_refuted).  The (1+eps)^2 H(D) bound of
  the paper therefore does not follow; C65_size is what does.  An unfavourable permutation can return 22 sets where 2 suffice.
* ApproximateSetCover: a priority can equal COVERED unless n <= 2^31 - 2, and the call leaves its argument G packed.
* Biconnectivity marks critical edges in the top bit of the parent, so ids must be below 2^31 (`n <= top` in C67); a self-loop at
  the root of a component gets a label of its own and is counted as a biconnected component.
* [T] UniteND and UniteRemLock are blocking: a call that is stopped between taking the hook or lock and its write keeps other
  calls on the same root looping for ever (C35_waiting_refuted).  All other strategies finish in a bounded number of own steps.
* [T] Count5Cycle and Count5Cycle_ESCAPE_par divide by zero on a graph without edges (C68_parallel_no_edges, C68_escape_par).
* [T] Count5Cycle keeps the per-thread arrays of an earlier call: a later call on a larger graph writes outside them
  (C68_larger_graph_refuted).
* [T] With self-loops the Kowalik versions subtract one too often from a 32-bit counter: a four-vertex graph yields 2^32
  five-cycles (C68_self_loops_refuted).
* The finish function of Count5Cycle_no_scheduling deletes the thread's structure; it is only called in OpenMP builds.
* [T] Cluster(mu, 0, deterministic) leaves a vertex unclustered although it has an epsilon-similar core neighbour when their
  similarity is exactly 0, as the approximate measures can produce (C69_zero_similarity_refuted).
* [T] CosineSimilarity on a weighted graph counts in `std::atomic<uintE>` although `EdgeCounter` provides int64_t: a shared
  weight of 2^32 or more, or a negative one, wraps around (C70_weights_refuted).
* By reading, not modelled: `intersect_f_with_index_par` sums products of weights in the type `Weight` itself, so with int
  weights a sum of 2^31 or more is signed overflow.  C70 assumes that this does not happen, and the graph of
  C70_weights_refuted is chosen so that it does not, for every order of the vertices by degree.
* [T] A self loop makes the exact similarities return entries (0, 0, 0.0): directing the graph drops loops, the result has
  `graph->m` entries, and the last ones are never written (C70_self_loop_refuted).
* [T] Naive SCAN counts a self loop as a shared neighbour on top of the closed neighbourhoods, so similarities exceed 1
  (C71_self_loop_refuted).
* [T] Modularity documents that an unclustered vertex counts as its own cluster, but leaves out a self loop at it
  (C73_self_loop_refuted).
* [T] Modularity of a weighted graph whose weights sum to 0 divides by 0 (C73_zero_weight_refuted); only the absence of
  edges is tested.
* [T] PageRank (the default implementation) sums over out-neighbours, so on directed graphs, which its header supports, it
  returns wrong ranks (C74_directed_refuted) or values that are not finite (C74_infinite_refuted); PageRank_edgeMap is right.
* [T] PageRank_edgeMap and PageRank return all zeros when max_iters rounds do not reach eps, because the buffers are swapped and
  cleared after the last round (C74_few_iterations_refuted).
* [T] PageRankDelta drops the negative changes of its first round (no fabs in PR_Vertex_F_FirstRound): on a path of three
  vertices the result is more than 1/10 off for all tolerances (C74_delta_refuted).
* [T] converter -enc bytepd-amortized -s: the number of batches and their size are both num_blocks(n, 6), so for 2 <= n <= 24 and
  26 <= n <= 30 the edges of the last vertices are not in the file (C75_batches_refuted).
* [T] converter: the block size (-bs, default 256) is not stored in the file and all readers use 1000; a vertex of degree 257..268
  is read back without neighbours, larger degrees are misread (C75_block_size_refuted).
* converter -enc degree (`degree_reorder`) slices its neighbour array with deg = 0 and writes a graph without edges, with the
  original m; -enc byte ignores `symmetric` and writes no in-edges for directed graphs.  The reader of weighted directed binary
  files is not implemented (it exits).
* SpanningForest/Framework/bfs_sampling.h records the pair (i, src) for every vertex i reached, not the edge that reached i, so the
  forest it hands over contains pairs that are no edges of the graph (the hypothesis "the sampled edges are edges of the graph" of
  C76_spanning_forest_sampled is not met by it).
* SpanningForest/Framework: the templates return the array Edges before the filter that removes the empty entries.
* SpanningForest/UnionFind/jayanti.h: compute_spanning_forest is a template on `bool provides_frequent_comp`, the framework
  instantiates it with a SamplingOption: sample_kout (0) makes it false, so nothing is skipped, and no_sampling (3) true, where a
  compiler accepts the conversion.  C76 covers both combinations.
* [T] SpanningForest/UnionFind/union_find_rules.h UniteRemCAS reads p_ry before swapping rx and ry and uses it afterwards unchanged.
  If ry is the larger root, the compare-and-swap writes ry over itself and succeeds: the edge is recorded although nothing is
  linked, and its entry is overwritten when ry is linked later.  The sequential run on the path 0 - 3 - 2 - 4 - 1 returns three
  edges (C77_rem_cas_refuted).
* [T] SpanningForest/Framework/bfs_sampling.h: see C76; C77_bfs_sampling_refuted shows it on a path of three vertices.
* [T] SpanningForest/LiuTarjan with the single shortcut (run by Framework/mains/liutarjan_*.cc): messages are never reset, so a
  message that does not improve an old one does not keep the loop alive, although its cell has since become irrelevant.  The loop
  stops with two trees joined by an edge on the path 0 - 2 - 3 - 5 - 4 - 1 (parent_connect) and on a graph of nine vertices
  (extended_connect) (C78_shortcut_refuted).  With full_shortcut the result is a spanning forest.
* BFSSF SpanningForestDet emits a vertex from the second traversal of a round for every edge from its parent that passes the
  visited test before the first of them sets it: with parallel edges a vertex can be emitted twice.  C79 therefore assumes
  adjacency lists without repetitions for the deterministic version.
* [T] MaximalIndependentSet/Yoshida on a graph with a self loop at an isolated vertex chooses the vertex, counts it as its own
  neighbour in the verification and exits (C81_self_loop_refuted).
* [T] MaximalMatching/Yoshida counts a matched edge once per parallel copy, so its verification fails on graphs with parallel edges
  (C81_parallel_edges_refuted).  Both programs cast the array of (neighbour, weight) pairs to an array of neighbours, so they only
  work for unweighted graphs; on a graph without edges (n = 0 for the set) fraction_covered is 0/0.
* [T] CoSimRank's stopping rule compares successive walks, not the terms left: with the default parameters the similarity of a vertex
  of the triangle with itself is more than 1/30 too small although epsilon is 1/1000000 (C82_early_stop_refuted).
* [T] CoSimRank (the dense version) reads out-neighbours, so on directed graphs it follows edges backwards while dividing by
  out-degrees (C82_directed_refuted).  When the rounds run out the arrays whose maxima it prints as max_pr have been cleared, so it
  prints 0 (by C82_edgemap and C82_undirected).
* [T] Peel with k = 3 can write outside update_idxs when a round has one vertex: triUpdate_serial appends a vertex again after a call
  with count 0, so the array of max_deg entries overflows on a graph of ten vertices with the degree ordering (C83_overflow_refuted).
* [T] From the second round on ApproxPeel divides the sum of the counts, K times the number of cliques, by the number of vertices, so
  the density it returns can exceed that of every subgraph (C83_approx_density_refuted); the first round does not have the factor.
* With relabelling (filter = false) Peel and ApproxPeel use the vertices of G to index DG, whose vertices are the ranks.
* [T] edgeMapCount's dense direction counts a vertex's own edges into the subset, the sparse direction the edges from the subset to it:
  on directed graphs the result of nghCount and EdgeMap::edgeMapCount depends on the direction chosen (C84_directed_refuted).
* [T] nghCount in the dense direction returns an uninitialised array: vertices that do not satisfy cond_f are members if the memory
  says so (C84_condition_refuted), and a call of apply_f that returns nothing is dereferenced (C84_nothing_refuted).
* [T] For neighbours that do not satisfy cond_f the empty key is put into the histogram.  On inputs of at least 5000000 keys it can be a
  heavy key, and then apply_f is called for it (C51_empty_key_refuted, C84_empty_key_refuted).  The densest subgraph code of
  ApproxPeelingBKV12 calls nghCount with such a condition and subtracts the count from D[UINT_E_MAX].
* edgeMapCount with no_output returns an empty subset in the dense direction and the results in the sparse one; on an empty subset it
  returns a subset of zero vertices (universe size 0).  The free edgeMapCount chooses the direction by the degrees of the vertices
  0 .. |vs|-1 instead of those of the subset.
* [T] BFS sampling never ends when the random source has an edge to itself and its search stays in the sparse direction: cond(src) is
  always true and the compare-and-swap of src by src succeeds, so src re-enters the frontier (C85_bfs_self_loop_refuted).
* [T] UniteEarly after BFS sampling can make the parents cyclic, since the labels may be larger than the vertices
  (C85_early_after_bfs_refuted; after LDD sampling: C36_early_after_ldd_sampling_refuted).  After k-out sampling it is correct.
* sample_frequent_element and BFS sampling compute a random index modulo n: division by zero on the empty graph.
* The max-degree variant of k-out sampling reduces with the identity (0, 0): on asymmetric graphs a vertex whose neighbours all have degree
  0 is linked to vertex 0, which need not be a neighbour.
* [T] to_edge_list with -direct_sym or -matrixmarket_format writes, after the edges with u < v, a line "0 0" for every other edge, because the
  whole array of m pairs is printed; the header counts only the former (C86_upper_edges, C86_upper_edges_refuted).
* [T] random_reorder does not sort the renamed lists: the sort's range begins at the offset that the copy loop has advanced to the end
  (C86_reorder_sorted_refuted).
* [T] sequence_to_string on an empty sequence reads S[n-1]: to_edge_list is undefined on graphs without edges (C86_no_edges_undefined).
* The matrix market comment promises "u v 1", but no 1 is written.  getOptionValue("-direct_sym") returns the next argument, so the flag is
  ignored when it is the last one.
* skip_comments skips comment lines only at the top of an edge-list file; a later one silently ends the reading.
* [T] The Barabasi-Albert generator can produce self-loops (only at vertices up to edges_per_node) and repeated edges: the numbers drawn for a
  vertex differ, but not the endpoints they stand for (C87_ba_simple_refuted); with n <= edges_per_node it uses ids of n and more
  (C87_ba_ids_out_of_range), and with n = 0 it writes outside the array (C87_ba_empty_undefined).
* [T] The R-MAT generator called with an n that is not a power of two rounds it up and yields ids of n and more (C87_rmat_ids_refuted); edges
  i and i + 2^31 are always equal (C87_rmat_repeats); n = 0 shifts by 32 (C87_rmat_undefined).
* RMAT.cc prints the first 100 edges even if fewer were generated.
* [T] RelabelDet takes the value 0 both for "not seen" and for the first component, so vertex 0 is split from its component; the checks of
  connectivity and spanning-forest results therefore accept results in which vertex 0 is in the wrong component (C88_cc_check_refuted,
  C88_forest_check_refuted), and the forest check does not notice an edge listed twice in its place.
* [T] dyn_arr::to_seq drops its block without freeing it and keeps capacity and alloc, so the memory is lost and a later append that fits the old
  capacity writes through a null pointer (C89_to_seq, C89_to_seq_leak_refuted); del keeps pointer and capacity, so a later append writes to freed
  memory (C89_del_reuse_refuted); push_back does not grow the array (C89_push_back_refuted).  bucket.h avoids all three.
* [T] Liu-Tarjan's process_batch loses insertions: for each of its variants there is a history of batches, under a sequential schedule, after which
  the ends of an inserted edge are in different trees (C90_later_batches_refuted).  A message left at a vertex that is no root is dropped or
  overwrites a parent that other vertices rely on.  Simple connect already loses an edge in the first batch.
* Liu-Tarjan's process_batch runs the query loop over updates[i] instead of queries[i], and does not report the answers; with simple connect, root
  update and no alter a message at a vertex that is no root can keep the loop from ending.
* [T] commandLine does not tell options from values: the value of an option can be the next option or the input file, which is then read as the
  number 0 (C91_confused_refuted); a word that is no number gives 0 instead of the default, for doubles it returns an uninitialised variable because
  sscanf's result is compared with EOF only (C91_double), and a negative long comes back as a huge size_t (C91_long).
* [T] atomic_max_counter starts at 0, so it reports 0 where all values are negative (C92_max_negative_refuted).
* [T] GoodrichPszona11 `DegeneracyOrder` asks for the ns-th smallest of at most ns values unless its last round has more than ns vertices, e.g. on a
  single vertex or a path of three with the default epsilon (C93_range_refuted).  It returns the order where the integer-sort version returns ranks.
* [T] resizable_table has no load check in insert: without maybe_resize a table made for one element is full after one insertion, and looking for
  another key never ends (C94_full_refuted).  The early return of maybe_resize after the table was moved away (m == old_m) cannot be reached (C94_resize).
* [T] edgeMapReduce_dense returns a subset of a universe of 0 vertices for an empty frontier (it passes numNonzeros() for n, C95_universe_refuted), and
  looks only at the size of the frontier, never at its members.
* UndirectedEdge and DirectedEdge declare operator< but no source file defines it.
* [T] filter_iter (bridge.h) has no has_next: after the last edge that satisfies the predicate it hands out the last edge of the vertex again and
  again, whether it satisfies the predicate or not (C96_filter_iter, C96_end_refuted), so the caller has to know the count.  Built on the iterator of
  an isolated vertex it reads an uninitialised edge (C96_isolated).
