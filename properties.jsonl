{"id": "C01", "title": "Variable-length edge codec round-trips", "statement": "Writing a first neighbour with the byte encoder (relative to any source vertex), a positive gap, or a weight, and then reading it back from the same offset, returns exactly the value written and leaves the read cursor exactly one past the last byte written, whatever bytes follow. A zero gap writes no byte at all, and the integer weight INT_MIN is written but reading it back is undefined (it negates INT_MIN).", "quantifier": "all 32-bit sources and targets, all positive gaps, all buffers and offsets", "why_tests_cant": "the value space is 2^64 pairs; boundary cases sit at every multiple of 7 bits and tests sample a handful", "anchors": ["gbbs/encodings/byte.h: eatFirstEdge, eatEdge, eatWeight", "gbbs/encodings/byte.cc: compressFirstEdge, compressEdge, compressWeight"]}
{"id": "C02", "title": "byte-compressed adjacency lists decode to the list that was encoded", "statement": "For a vertex whose neighbour list is strictly increasing, compressing it (with int weights other than INT_MIN, float weights, or none) and decoding with the stored degree visits exactly the original (neighbour, weight) pairs, in order, once each, whatever bytes surround the encoding. If a neighbour is repeated the decoded list can differ from the original.", "quantifier": "all sources, all strictly increasing neighbour lists of any length, all weights of the three supported kinds, all memories", "why_tests_cant": "lists are unbounded and the failing case (repeated neighbours) needs a non-default input", "anchors": ["gbbs/encodings/byte.h: decode, sequentialCompressEdgeSet"]}
{"id": "C03", "title": "Early-exit traversal and reduction over compressed neighbours", "statement": "Decoding with an early-exit callback applies the callback to exactly the prefix of neighbours up to and including the first one for which it returns false; map-reduce over the compressed list equals the fold of the mapped values over the original list; filtering emits exactly the satisfying pairs in order.", "quantifier": "all neighbour lists, callbacks and associative reductions", "why_tests_cant": "callbacks are arbitrary user code and lists unbounded", "anchors": ["gbbs/encodings/byte.h: decode, map_reduce"]}
{"id": "C04", "title": "In-place packing of a compressed list keeps exactly the selected neighbours and never outgrows its space", "statement": "Packing a byte-compressed neighbour list with a predicate returns the number of satisfying neighbours; decoding the result yields exactly those neighbours with their weights in the original order; and no byte past the original encoding of the list is written.", "quantifier": "all lists, all predicates, all following bytes", "why_tests_cant": "memory safety of the in-place rewrite depends on varint lengths of sums of gaps for every subset removed", "anchors": ["gbbs/encodings/byte.h: pack"]}
{"id": "C05", "title": "Block-parallel (bytepd) encoding round-trips across block boundaries", "statement": "For every int- or un-weighted strictly increasing neighbour list whose neighbours lie within distance less than 2^31 of the source, the block-parallel encoder succeeds, uses exactly the space its size function announces, touches nothing else, and decoding (whole, block by block, by map-reduce, by filter or by iterator) yields the original pairs with their positions, each once; when callbacks stop early, each block visits exactly its prefix up to the first refusal and a first block that was not exhausted suppresses the rest. Not covered by this guarantee: float weights come back as 0, and a neighbour at distance exactly 2^31 is undefined behaviour.", "quantifier": "all degrees, in particular around multiples of the 1000-edge block size", "why_tests_cant": "requires every degree around every block boundary and arbitrary gaps", "anchors": ["gbbs/encodings/byte_pd.h: decode, decode_block, get_num_blocks, get_block_degree", "gbbs/encodings/byte_pd.cc: sequentialCompressEdgeSet"]}
{"id": "C06", "title": "Packing a bytepd list applies the predicate for every degree", "statement": "After packing the neighbours of a vertex with between one and one block's worth of neighbours, the vertex's neighbours are exactly those satisfying the predicate, the new degree is their number and no byte outside the list changes. Above one block (degree > 1000) packing does nothing at all, and at degree zero it may report a phantom neighbour: both deviations are proved.", "quantifier": "all degrees, lists and predicates", "why_tests_cant": "the unit tests only use tiny degrees; the branch for large degrees silently does nothing", "anchors": ["gbbs/encodings/byte_pd.h: pack"]}
{"id": "C07", "title": "Amortized block encoding round-trips and survives packing", "statement": "Encoding a non-empty neighbour list (unweighted or int weights, strictly increasing ids, fewer than about 2^32/18 neighbours) in the amortized block format and then packing it any number of times with any predicates, under any schedule of the block loops, leaves a vertex whose degree is the number of neighbours satisfying all the predicates; the vertex's iterator, decode, filter, map-reduce, per-block decode and block degrees show exactly these neighbours, in order, with their weights, and no byte outside the vertex's own encoding is touched (so a repack always fits). Packing is defined whenever the list occupies fewer than 100 blocks. Where the code departs from this: a list of exactly 100 blocks overruns a stack array; packing a vertex of degree 0 reads the header of the next vertex and, if that one has more than one block, runs past the buffers; get_ith_neighbor returns the neighbour before the one asked for; and the simple iterator used by intersect is right on freshly encoded lists but wrong on packed ones.", "quantifier": "all lists, all sequences of predicates, all orders of the parallel loops, all block sizes >= 1", "why_tests_cant": "history property over unbounded sequences of packs with empty and short blocks", "anchors": ["gbbs/encodings/byte_pd_amortized.h: decode, pack, repack", "gbbs/encodings/byte_pd_amortized.cc"]}
{"id": "C08", "title": "Weights of every supported type survive amortized compression", "statement": "Reading the neighbours of an amortized-compressed graph with int weights (or none) returns exactly the weights supplied. For the other weight types the format accepts (unsigned, float, double) nothing at all is written for the weights: lists with equal neighbours and different weights are encoded identically, and since reading consumes bytes for a weight even the neighbours come out wrong.", "quantifier": "all weight types and values", "why_tests_cant": "no unit test compresses float-weighted graphs in this format", "anchors": ["gbbs/encodings/byte_pd_amortized.h: compressWeight, eatWeight"]}
{"id": "C09", "title": "i-th neighbour access agrees with iteration", "statement": "Asking a byte-compressed vertex for its i-th neighbour returns the first neighbour for i = 0 and the (i-1)-th neighbour for every i >= 1, so for i >= 1 it never agrees with the neighbour visited i-th by iteration.", "quantifier": "all lists and indices within the degree", "why_tests_cant": "needs all i and all lists", "anchors": ["gbbs/encodings/byte.h: get_ith_neighbor"]}
{"id": "C10", "title": "Block degrees partition the vertex degree", "statement": "The number of blocks reported for a vertex is the degree divided by the block size rounded up, and the size reported for each block is the number of neighbours in it, except that the last block of a vertex whose degree is a positive multiple of the block size is reported as empty (so the sizes sum to the degree exactly when it is not such a multiple).", "quantifier": "all degrees", "why_tests_cant": "fails only at exact multiples of 1000", "anchors": ["gbbs/encodings/byte_pd.h: get_block_degree"]}
{"id": "C11", "title": "Concurrent write_min / write_max are linearizable", "statement": "Whatever number of threads call write_min (write_max) concurrently on one location and however their reads and compare-and-swaps interleave, once all have returned the location holds the minimum (maximum) of the initial value and all arguments; a call returns true exactly when it itself lowered (raised) the stored value; the value is monotone throughout.", "quantifier": "all thread counts, arguments, initial values and interleavings", "why_tests_cant": "schedules are unbounded; races are rarely exercised by unit tests", "anchors": ["gbbs/bridge.h: write_min, write_max, atomic_compare_and_swap"]}
{"id": "C12", "title": "Concurrent fetch_and_add / write_add lose no update", "statement": "When concurrent fetch_and_add / write_add calls on one location have all returned, the location holds the initial value plus the sum of all arguments, and the values returned are those of some sequential order of the calls.", "quantifier": "all thread counts, arguments, interleavings", "why_tests_cant": "lost updates only show under specific schedules", "anchors": ["gbbs/bridge.h: fetch_and_add, write_add"]}
{"id": "C13", "title": "Thresholded fetch_and_add respects its bound", "statement": "fetch_and_add_threshold never adds when the current value exceeds the threshold: under every interleaving the value equals initial plus the arguments of the successful calls, a failing call saw a value above the threshold, and the value never exceeds max(initial, threshold + largest argument).", "quantifier": "all thread counts, arguments, interleavings", "why_tests_cant": "schedule dependent", "anchors": ["gbbs/bridge.h: fetch_and_add_threshold"]}
{"id": "C14", "title": "Vertex-subset representation changes preserve the set", "statement": "Converting a vertex subset between sparse and dense representation any number of times, in any order, never aborts and leaves the membership, the data attached to the members and the reported size unchanged. If the caller constructed a dense subset with a wrong member count, the conversion to sparse aborts instead.", "quantifier": "all subsets of [0,n), all data, all conversion histories", "why_tests_cant": "arbitrary histories", "anchors": ["gbbs/vertex_subset.h: toSparse, toDense, isIn, size"]}
{"id": "C15", "title": "Adding vertices to a subset makes them members", "statement": "After adding a list of distinct non-members to a subset held in one representation, every old member and every added vertex is a member and the size is the sum. If the subset had been materialised in both representations before, this is false: the stale representation misses the added vertices.", "quantifier": "all subsets, additions and histories of conversions", "why_tests_cant": "needs a particular history of conversions", "anchors": ["gbbs/vertex_subset.h: add_to_vsubset"]}
{"id": "C16", "title": "vertexFilter returns exactly the satisfying members", "statement": "Filtering a vertex subset by a predicate returns exactly those members satisfying it, with the size being their number, in sparse and dense modes.", "quantifier": "all subsets, predicates and modes", "why_tests_cant": "unbounded inputs", "anchors": ["gbbs/vertex_subset.h: vertexFilter, vertexFilter_dense, vertexFilter_sparse"]}
{"id": "C17", "title": "Traversal direction does not change the frontier", "statement": "edgeMap with a visit-once edge function, on a frontier in any representation, with any flags and threshold and under every interleaving of its tasks: it terminates without aborting, its output is exactly the set of not-yet-visited out-neighbours of the frontier, each once, each of them gets a parent in the frontier, and nothing else changes, whichever of pull, forward and chunked sparse traversal is picked.", "quantifier": "all consistent graphs, frontiers, conversion histories, visited sets, flags, thresholds, block sizes and schedules", "why_tests_cant": "direction switching depends on sizes; schedules unbounded", "anchors": ["gbbs/edge_map_data.h: edgeMapData, edgeMapDense, edgeMapDenseForward", "gbbs/edge_map_blocked.h: edgeMapChunked", "gbbs/vertex.h: decodeBreakEarly, decode, decode_block", "benchmarks/BFS/NonDeterministicBFS/BFS.h: BFS_F"]}
{"id": "C18", "title": "Blocked traversal applies the function to every frontier edge exactly once and emits exactly the successful targets", "statement": "The chunked sparse traversal applies the edge function to every frontier edge exactly once, and its output holds exactly the successful results, in order, in a gap-free array without any out-of-bounds write, for every group size and whatever block degrees the representation reports, provided their total is positive and an output element has at most 16 bytes. With the block degrees of uncompressed graphs no condition is needed. With those of the block-parallel byte format a frontier of vertices of degree exactly one block is not traversed at all, and with output elements larger than 16 bytes an output buffer can be overrun.", "quantifier": "all degree sequences, block sizes and worker counts", "why_tests_cant": "off-by-one errors in binary-searched group boundaries need exhaustive degree sequences", "anchors": ["gbbs/edge_map_blocked.h: edgeMapChunked, edgeMapBlocked"]}
{"id": "C19", "title": "The bucket structure returns buckets in order with exactly their current members", "statement": "After any history of next-bucket calls and bulk updates that move identifiers to buckets not before the last one returned, asking for the next bucket terminates without tripping an assertion and returns the first bucket (in the chosen order) that has a member, together with exactly the identifiers that are due and assigned to it, or reports emptiness exactly when nothing is due; buckets never go backwards. No identifier repeats within a returned bucket if identifiers only move closer or are only re-inserted after having been returned. With no updates, draining yields every identifier that has a bucket exactly once, tagged with its bucket, in strict bucket order. Limits: the one-argument get_bucket in increasing order silently loses an already returned identifier put back beyond the open range, and an identifier moved away from a bucket and back before being returned comes out twice.", "quantifier": "all initial assignments, numbers of open buckets, both orders, all histories of calls", "why_tests_cant": "overflow-bucket unpacking only occurs for wide key ranges", "anchors": ["gbbs/bucket.h: next_bucket, get_bucket, update_buckets, unpack, make_buckets"]}
{"id": "C20", "title": "Parallel bulk bucket update equals the sequential one", "statement": "Updating many identifiers at once through the parallel histogram path leaves every bucket with the same contents in the same order, and the same element count, as inserting them one by one.", "quantifier": "all update sequences of any length, all structures, all orders in which the parallel blocks' stores take effect, all contents of the freshly allocated space", "why_tests_cant": "path is only taken for >=4096 updates", "anchors": ["gbbs/bucket.h: update_buckets, update_buckets_seq"]}
{"id": "C21", "title": "Intersection of sorted neighbour lists", "statement": "For strictly increasing neighbour lists, the sequential intersection returns the number of common neighbours and calls the callback exactly once for each of them, in increasing order; for all lists it terminates without an out-of-bounds access.", "quantifier": "all pairs of sorted lists", "why_tests_cant": "unbounded inputs", "anchors": ["gbbs/intersect.h: intersect, intersect_f"]}
{"id": "C22", "title": "Parallel intersection equals sequential intersection", "statement": "On strictly increasing lists of any sizes, the recursive parallel merge intersection terminates, returns the same count as the sequential one and calls the callback on the same elements once each in every order of its parallel halves, for every sequential cut-off and every binary-search base of at least 2. With repeated neighbours the counts can differ, and with base 1 the recursion would not terminate.", "quantifier": "all pairs of sorted lists and all thresholds", "why_tests_cant": "thresholds (2048, 32x) are rarely crossed in tests", "anchors": ["gbbs/intersect.h: merge, seq_merge, seq_merge_full, intersect_f_par"]}
{"id": "C23", "title": "Graph construction from an edge list", "statement": "Building a symmetric graph from an edge list yields, for every vertex, a strictly increasing neighbour list that contains u for v exactly if (u,v) or (v,u) was listed, each with a listed weight; offsets and degrees tile the edge array and m is the total degree. The asymmetric builder keeps exactly the listed edges, with multiplicity, in the out-lists and their reverses in the in-lists, sorted by neighbour id. If one edge is listed with several weights the two directions of a symmetric graph may get different weights (the sort is not stable).", "quantifier": "all edge lists over [0,n), all weight types, every correct sort, every order of the parallel stores", "why_tests_cant": "all inputs incl. duplicates, self loops, isolated vertices", "anchors": ["gbbs/graph.h: symmetric_graph::from_edges, asymmetric_graph::from_edges", "gbbs/edge_array.h / edge_utils: undirect_and_sort, compute_offsets, get_neighbors"]}
{"id": "C24", "title": "Default vertex count of from_edges", "statement": "When no vertex count is given, the vertex count covers all listed endpoints, but it is one plus the SUM over the edges of their larger endpoint, not one plus the maximum: whenever two listed edges have a larger endpoint >= 1, the graph has vertices beyond the largest endpoint.", "quantifier": "all edge lists", "why_tests_cant": "tests compare only with lists where it does not matter or use explicit n", "anchors": ["gbbs/graph.h: from_edges"]}
{"id": "C25", "title": "Edge-list files become the simple undirected / directed graph they list", "statement": "Reading an edge list with at least one edge that is not a self loop drops self loops and duplicate edges and produces a graph whose adjacency is exactly the remaining edges (closed under symmetry for undirected graphs), with strictly increasing neighbour lists; its vertex count is one more than the largest endpoint of an edge that is not a self loop. If every edge is a self loop, the graph claims one vertex but has no vertex data.", "quantifier": "all edge lists, every correct sort, every order of the parallel stores", "why_tests_cant": "degenerate inputs are untested", "anchors": ["gbbs/graph_io.h: edge_list_to_symmetric_graph, edge_list_to_asymmetric_graph, internal::sorted_edges_to_vertex_data_array"]}
{"id": "C26", "title": "Adjacency-graph text format round-trips", "statement": "Writing a graph in the AdjacencyGraph text format and parsing the produced text gives back the same vertex count, edge count and neighbour lists, whatever layout the graph had in memory; with 32-bit integer weights the same holds for weights up to 2^24 in absolute value. Larger weights pass through a float: 2^24+1 is read as 2^24, and 2^31-1 is undefined behaviour.", "quantifier": "all graphs; all integer weights up to 2^24", "why_tests_cant": "unbounded inputs", "anchors": ["gbbs/graph_io.cc: parse_unweighted_graph", "gbbs/graph_io.h: write_graph_to_file"]}
{"id": "C27", "title": "Direct-I/O file reading returns the whole file", "statement": "Reading a file with the direct-I/O reader returns all of its bytes unless the file size is a multiple of the page size and the part after the last whole 1 GiB chunk is longer than one page; then only the first page of that part is read and the rest of the returned buffer is uninitialised.", "quantifier": "all file sizes, page sizes and chunk sizes that are multiples of the page size", "why_tests_cant": "only specific sizes fail", "anchors": ["gbbs/io.cc: read_o_direct"]}
{"id": "C28", "title": "Concurrent hash-table insertion", "statement": "For any number of threads inserting at most the declared number of distinct keys into the fixed-size linear-probing table, after any earlier phases and under every interleaving: every insertion returns after a bounded number of its own steps, each key ends up stored exactly once, keys already present keep their value and nobody is told they are new, exactly one of the inserters of a new key is told it was new and its value is the one stored, and find/contains afterwards return exactly according to the stored keys. With an atomic combining function (insert_f) the stored value is the result of applying every inserter's update exactly once in some order. If more distinct keys are inserted than there are cells, some insertion never returns. insert_check returns after a bounded number of steps even then, and if its abort flag is still unset at the end of the phase, table and answers are those of a phase of insert.", "quantifier": "all key sequences, hash functions, thread counts and interleavings", "why_tests_cant": "schedule dependent; adversarial hashes", "anchors": ["gbbs/helpers/sparse_table.h: insert, insert_f, insert_check, find, contains, entries"]}
{"id": "C29", "title": "The additive map sums, and when its lookups terminate", "statement": "Under every interleaving the additive map ends with each inserted key mapped to the sum (modulo the counter width) of all values inserted for it. Looking up an absent key terminates for every declared capacity except 1, 2, 4 and 8; for these, once as many keys as declared are stored, looking up an absent key never terminates, whatever the hash function.", "quantifier": "all capacities, key sets, hash functions and interleavings", "why_tests_cant": "needs capacities 1,2,4,8", "anchors": ["gbbs/helpers/sparse_additive_map.h: sparse_additive_map, contains"]}
{"id": "C30", "title": "Sequential counting table counts occurrences", "statement": "Inserting a sequence of keys into the sequential table yields every distinct key once with the number of its occurrences. Inserting key/value pairs with insertAdd yields one plus the sum of all values but the first for each key (so not the sum of the values); insertF folds the given function over the insertions of each key in order. Compaction hands every entry to the user's function exactly once, stores the results contiguously in table order and leaves the rest of the table empty.", "quantifier": "all key sequences and hash functions within capacity", "why_tests_cant": "all inputs", "anchors": ["gbbs/helpers/sequential_ht.h: insertAdd, insertF, compactInto, compactIntoSelf"]}
{"id": "C31", "title": "Blocked filtering is an order-preserving filter", "statement": "filter_seq and filterf write exactly the elements satisfying the predicate, in order, to the front of the output, leave the rest of the output alone, and return their number; filterf with an output function calls it once per satisfying element with its position in the filtered sequence plus the offset; filter_index returns the elements x at index i with f(x,i), in order. For every length, block size, order of the blocks and order of the final stores.", "quantifier": "all sequences and predicates", "why_tests_cant": "block boundaries", "anchors": ["gbbs/bridge.h: filterf, filter_index, filter_seq"]}
{"id": "C32", "title": "Per-block counting sort is a stable partition by key", "statement": "The counting sort used by histogram places, inside each block, the elements of bucket k contiguously in original order, and reports for every block and every bucket k < num_buckets the number of elements of smaller key; blocks cover the input. The extra last boundary that the sequential branch reports is never written.", "quantifier": "all sequences, key functions, block counts", "why_tests_cant": "unbounded inputs", "anchors": ["gbbs/helpers/counting_sort_no_transpose.h: _seq_count_sort, _count_sort"]}
{"id": "C33", "title": "Edge filtering removes and returns exactly the requested edges", "statement": "filter_edges leaves in the graph exactly the edges mapped to 'keep' (in list order), returns exactly the edges mapped to 'extract' (by source, in list order), and updates degrees and the edge count accordingly; filter_all_edges returns the satisfying edges and empties the graph; sample_edges returns the satisfying edges; filter_graph builds the subgraph of satisfying edges; packEdges filters the lists of the given vertices, reports the new degrees, and leaves other vertices alone, but leaves the graph's edge count stale.", "quantifier": "all graphs (also already filtered ones, whose lists have gaps), predicates, vertex and block orders", "why_tests_cant": "unbounded inputs", "anchors": ["gbbs/graph_mutation.h: filter_edges, filter_graph, packEdges"]}
{"id": "C34", "title": "Relabelling cluster ids", "statement": "RelabelIds maps ids in [0,n) to a dense range [0,k) with k the number of distinct ids, preserving order and (in)equality of ids. The id n, for which the table has room, is renamed but not counted in k.", "quantifier": "all id sequences", "why_tests_cant": "unbounded inputs", "anchors": ["gbbs/contract.h: RelabelIds"]}
{"id": "C35", "title": "Concurrent union-find never joins vertices that the input does not connect and never breaks a tree", "statement": "Under every interleaving of any number of threads executing unite and find, at every moment the parent structure is a forest with parents not larger than children, no access is out of bounds, two vertices in one tree are connected by the edges whose unite has started, and once a unite(u,v) has returned u and v are in one tree for ever. This holds for every combination of find and unite strategies except Rem's algorithm with splice_atomic, for which there is a schedule that creates a cycle of parent pointers. For the strategies without locks and hooks every call returns after a number of its own steps bounded in terms of the number of vertices, whatever the other calls do; with UniteND and UniteRemLock a stopped call can keep another one waiting for ever.", "quantifier": "all vertex counts, initial forests, edge multisets, mixed queries, thread counts, interleavings, strategies", "why_tests_cant": "schedules unbounded", "anchors": ["benchmarks/Connectivity/UnionFind/union_find_rules.h: Unite, UniteRemCAS, UniteEarly, find_*", "benchmarks/Connectivity/SimpleUnionAsync/Connectivity.h"]}
{"id": "C36", "title": "Union-find connectivity labels are the connected components", "statement": "When all unite calls have returned (under any interleaving), two vertices have the same root iff they are connected, and the labels produced by the concurrent final find pass are equal iff the vertices are connected in the graph (with or without skipping the most frequent sampled component, provided the sampled forest points to smaller ids; for UniteEarly after LDD sampling, which does not ensure that, a cycle is reachable; the other variants after such samplers: C85). With the strategies without locks and hooks both phases end in every schedule that gives each call a bounded number of steps.", "quantifier": "all graphs and interleavings", "why_tests_cant": "schedules unbounded", "anchors": ["benchmarks/Connectivity/UnionFind/Connectivity.h: UFAlgorithm::compute_components", "benchmarks/Connectivity/SimpleUnionAsync/Connectivity.h: SimpleUnionAsync, CC_predicate, finish", "benchmarks/Connectivity/ConnectIt/sampling.h: SamplingAlgorithmTemplate::components, KOutSamplingTemplate::link"]}
{"id": "C37", "title": "BFS returns a shortest-path tree on the reachable set", "statement": "For every source, every traversal direction chosen per round and every interleaving of the tasks of a round, BFS stops within n rounds; a vertex has a parent iff it is reachable from the source, the source is its own parent, and every other parent has an edge to its child and is exactly one hop closer to the source.", "quantifier": "all directed or symmetric graphs, sources, traversal choices and schedules", "why_tests_cant": "schedules unbounded", "anchors": ["benchmarks/BFS/NonDeterministicBFS/BFS.h: BFS, BFS_F"]}
{"id": "C38", "title": "Bellman-Ford returns shortest-path distances or reports a negative cycle", "statement": "With integer weights (no overflow), under every interleaving of the compare-and-swap steps Bellman-Ford stops after at most n rounds. It reports a negative cycle iff one is reachable from the source; otherwise it returns for each vertex the length of a shortest walk, and infinity exactly when there is none. No round can run for ever.", "quantifier": "all weighted graphs, sources, traversal choices and schedules", "why_tests_cant": "schedules unbounded", "anchors": ["benchmarks/GeneralWeightSSSP/BellmanFord/BellmanFord.h: BellmanFord, BF_F"]}
{"id": "C39", "title": "k-core computes coreness", "statement": "On every symmetric graph, with any number of buckets, k-core decomposition finishes after at most n rounds and returns for every vertex its coreness, the largest k such that it lies in a subgraph of minimum degree k. The degeneracy order contains every vertex once and no vertex has more edges to later vertices than its coreness. The variant that loads the degrees prepends n zeros to that order. The fetch-and-add variant is wrong: it can return a coreness that is too high.", "quantifier": "all symmetric graphs, bucket counts, result orders of the histogram", "why_tests_cant": "bug only visible on graphs large enough for sparse traversal", "anchors": ["benchmarks/KCore/JulienneDBS17/KCore.h: KCore, KCore_FA, kcore_fetch_add"]}
{"id": "C40", "title": "Graph colouring is proper and greedy, with at most Delta+2 colours", "statement": "On a symmetric graph (parallel edges and self loops allowed) the colouring terminates in at most n rounds under every schedule, traversal choice and random permutation, for both vertex orders. Every vertex gets the first of 0..deg-1 not used by a neighbour earlier in the order, or deg+1 when all of these are used, so the result does not depend on the schedule; adjacent vertices get different colours; at most (maximum degree)+2 colours are used. (Maximum degree + 1 colours, as the literature promises, is false of the code: a triangle plus a separate edge gets four colours.)", "quantifier": "all symmetric graphs, permutations, traversal choices, schedules", "why_tests_cant": "unbounded", "anchors": ["benchmarks/GraphColoring/Hasenplaugh14/GraphColoring.h: color, Coloring"]}
{"id": "C41", "title": "Maximal independent set", "statement": "On symmetric graphs the root-set algorithm, for every priority permutation, traversal choice and schedule, and the speculative-for algorithm both terminate, making progress in every round, and return an independent set to which no vertex can be added; it is the set obtained by adding the vertices greedily in priority order (the order of ids for the speculative variant), hence independent of the schedule.", "quantifier": "all graphs, permutations, schedules", "why_tests_cant": "unbounded", "anchors": ["benchmarks/MaximalIndependentSet/RandomGreedy/MaximalIndependentSet.h"]}
{"id": "C42", "title": "Whatever MaximalMatching returns is a maximal matching; when it returns", "statement": "For every undirected graph, every schedule and every choice of samples, the edges returned by MaximalMatching are edges of the graph (with their weights), no vertex is an end of two of them, and every non-loop edge of the graph has an end among them. Each batch of edges is decided as the sequential greedy algorithm on that batch would decide it; on graphs with fewer than max(3n/2, 2^20) edges the result is the same under every schedule. The call returns whenever n >= 98 and no vertex without live edges starts exactly at live-edge number n-1 (in particular when the graph has fewer than n edges). It does not always return: graphs with n+2 to 49 edges (such as K4) make the call abort, and there is a six-vertex graph on which the call never ends.", "quantifier": "all symmetric graphs", "why_tests_cant": "the hang needs a specific alignment of prefix sums with the vertex count", "anchors": ["benchmarks/MaximalMatching/RandomGreedy/MaximalMatching.h: get_edges, matchStep, MaximalMatching"]}
{"id": "C43", "title": "Kruskal returns a minimum spanning forest", "statement": "On a weighted graph with at least one edge, Kruskal's algorithm returns a minimum spanning forest: edges of the graph, no cycle, connecting whatever the graph connects, of least total weight among all spanning forests, however ties between equal weights are sorted, provided the weight type can hold the weight of every forest (for 32-bit weights: n times the largest absolute weight below 2^31). On a graph without edges it reads a weight that does not exist, and with large 32-bit weights the printed total overflows.", "quantifier": "all weighted graphs, weights, tie-breaks and schedules of the parallel edge extraction and sort", "why_tests_cant": "optimality quantifies over all spanning forests", "anchors": ["benchmarks/MinimumSpanningForest/Kruskal/MinimumSpanningForest.h"]}
{"id": "C44", "title": "Delta-stepping: distances, and which executions give them", "statement": "For a graph with non-negative integral weights, in every execution of DeltaStepping each round lowers distances only to lengths of walks from the source, relaxes every edge out of the bucket, and reports each lowered vertex exactly once with a previous distance above the new and not above the old one; so no returned distance is ever too short. If every reported previous distance lies in the bucket the vertex was in - in particular if the relaxations of a round happen one at a time - the result is exactly the shortest distances, after finitely many rounds. Not in every execution: when two relaxations of one vertex overlap, the reported previous distance can be the other one's, the vertex is then not put into its new bucket, and the distances of vertices behind it are returned as unreachable.", "quantifier": "all graphs, sources, bucket counts, monotone bucket functions, frontiers and interleavings of the relaxations", "why_tests_cant": "needs a three-step race between two relaxations of the same vertex", "anchors": ["benchmarks/PositiveWeightSSSP/DeltaStepping/DeltaStepping.h: Visit_F, DeltaStepping", "gbbs/bucket.h: get_bucket, next_bucket, update_buckets"]}
{"id": "C45", "title": "Label propagation computes components", "statement": "Under every interleaving of the loads, stores and compare-and-swaps of the tasks, label propagation stops after at most n rounds, no round can run for ever, and at the end every vertex has the most preferred initial label of its component; with distinct initial labels two vertices have the same label iff they are connected, and from the identity the label is the least vertex of the component.", "quantifier": "all symmetric graphs, initial labels, traversal choices and schedules", "why_tests_cant": "schedules unbounded", "anchors": ["benchmarks/Connectivity/LabelPropagation/Connectivity.h"]}
{"id": "C46", "title": "BFS-based connectivity labels", "statement": "Connectivity by repeated BFS labels every vertex that has a neighbour with the least vertex of its component, so two such vertices have the same label iff they are connected; a vertex without neighbours keeps the 'unset' label, so two isolated vertices get the same label although they are not connected.", "quantifier": "all symmetric graphs, traversal choices and schedules", "why_tests_cant": "needs two isolated vertices", "anchors": ["benchmarks/Connectivity/BFSCC/Connectivity.h: BFS_ComponentLabel, CC"]}
{"id": "C47", "title": "Work-efficient spanning forest", "statement": "Whenever the work-efficient spanning forest returns on an undirected graph, its result is a spanning forest of the graph (edges of the graph, no cycle, connecting everything the graph connects) preceded by a number of entries (0,0); there is at least one such entry exactly if the graph has an edge between two different vertices, and never more than tree edges. So the result is itself never a forest of a graph with an edge. It can return on every graph of up to 64 vertices, but on some larger graphs it never returns.", "quantifier": "all undirected graphs, permutations, hash functions, shift increments and interleavings", "why_tests_cant": "ranges over all graphs, random permutations and schedules", "anchors": ["benchmarks/SpanningForest/SDB14/SpanningForest.h: SpanningForest_Impl, LDD_edges", "benchmarks/SpanningForest/SDB14/contract_sf.h: contract, fetch_intercluster_small"]}
{"id": "C48", "title": "Triangle counting", "statement": "On an undirected unweighted graph with sorted, repetition-free neighbour lists (self loops allowed), triangle counting passes every triangle to the callback exactly once, passes nothing else, and returns the number of triangles, for every schedule and every array of pairwise distinct ranks; the degree order has distinct ranks however ties are broken. With equal ranks triangles are lost.", "quantifier": "all such graphs, rank arrays, threshold constants, tie-breaks and schedules", "why_tests_cant": "unbounded", "anchors": ["benchmarks/TriangleCounting/ShunTangwongsan15/Triangle.h: Triangle_degree_ordering, CountDirectedBalanced, rankNodes"]}
{"id": "C49", "title": "In-edges of a directed graph read from a text file", "statement": "After reading a directed adjacency graph with at least one edge, the in-neighbours of every vertex are exactly the sources of the edges into it, with weights and multiplicity. With weights this depends on an uninitialised array cell: if it is 0, every in-neighbour list is empty. With no edges at all, the reader accesses element 0 of an empty array.", "quantifier": "all graphs, every correct integer sort, every order of the parallel stores, every initial content of the uninitialised cell", "why_tests_cant": "depends on memory contents and on all graphs", "anchors": ["gbbs/graph_io.cc: read_unweighted_asymmetric_graph", "gbbs/graph_io.h: read_weighted_asymmetric_graph"]}
{"id": "C50", "title": "Growing a hash table keeps its contents", "statement": "Resizing the concurrent table re-inserts the old entries concurrently; under every interleaving the bigger table ends with exactly the same key/value pairs, and every re-insertion terminates.", "quantifier": "all reachable tables, new sizes, hash functions and interleavings", "why_tests_cant": "schedule dependent, adversarial hashes", "anchors": ["gbbs/helpers/sparse_table.h: resize"]}
{"id": "C51", "title": "Histogram of keys counts exactly", "statement": "A histogram over a key sequence calls the supplied function exactly once for every key other than the table's empty key that occurs, with the exact number of occurrences, returns exactly the results it produces, and leaves the reusable hash table empty again. On sequences of at least the large-input threshold that contain the empty key it may call the function for the empty key as well, with its number of occurrences. The keys fed to it by edgeMapCount are exactly the neighbours of the frontier vertices, with multiplicity, the empty key standing for those that do not satisfy the condition.", "quantifier": "all key sequences, hash functions, bucket and block processing orders, samples, thresholds and contents of uninitialised memory", "why_tests_cant": "the bucketed branches only run on large inputs and depend on hash values and schedules", "anchors": ["gbbs/helpers/histogram.h: histogram, histogram_medium, get_bucket, hist_table", "gbbs/edge_map_reduce.h: edgeMapInduced, edgeMapCount_sparse"]}
{"id": "C52", "title": "edges() lists every edge once", "statement": "edges() of a graph returns exactly the stored edges (source, target, weight), ordered by source and, for one source, as in its neighbour list, for every schedule of the parallel stores.", "quantifier": "all graphs (with or without gaps between neighbour lists) and schedules", "why_tests_cant": "all graphs and all interleavings of the stores", "anchors": ["gbbs/graph.h: symmetric_graph::edges"]}
{"id": "C53", "title": "Low-diameter decomposition", "statement": "The decomposition (with or without a random permutation of the vertices, under every interleaving of its traversals) returns after at most as many rounds as there are shifts; every vertex then belongs to a cluster named after one of its members, the centre, and the parent pointers lead from every vertex along edges of the graph, through vertices of its own cluster, to the centre in fewer steps than there are rounds. In the first round, which takes one vertex, all neighbours of that vertex join its cluster.", "quantifier": "all graphs, permutations, positive shift increments that cover the vertices, and interleavings", "why_tests_cant": "depends on schedules of concurrent CASes and on all random permutations", "anchors": ["benchmarks/LowDiameterDecomposition/MPX13/LowDiameterDecomposition.h: LDD, generate_shifts", "benchmarks/SpanningForest/SDB14/SpanningForest.h: LDD_edges"]}
{"id": "C54", "title": "Work-efficient connectivity", "statement": "Whenever work-efficient connectivity (decompose, contract, recurse) returns on an undirected graph, the labels are below n and two vertices have the same label exactly if a path connects them, whatever the permutations, hash values and interleavings. The recursion is less than n levels deep, every decomposition returns, and a contraction can return exactly unless there are fewer than 2048 clusters but more than 4096 distinct pairs of adjacent clusters; so it can always return for up to 64 vertices. It does not return on every graph: with the default arguments it never returns on isolated vertices followed by a clique of at least 130 vertices whose ids are the candidates of one round of the decomposition (e.g. 655 isolated vertices and a clique of 148).", "quantifier": "all undirected graphs, permutations, hash functions, shift increments and interleavings", "why_tests_cant": "a hang needs a specific vertex numbering; correctness ranges over all graphs and schedules", "anchors": ["benchmarks/Connectivity/WorkEfficientSDB14/Connectivity.h: CC_impl, CC", "gbbs/contract.h: contract, fetch_intercluster_small, fetch_intercluster, RelabelIds"]}
{"id": "C55", "title": "wBFS returns the shortest distances under every interleaving", "statement": "For non-negative integral weights such that no shortest distance plus an edge weight reaches 2^31, wBFS returns for each vertex its shortest distance from the source, or INT_E_MAX if the vertex cannot be reached (or is at distance 2^31-1), whatever the interleaving of the relaxations in each round and the order of their results; it does so after at most n rounds and never gets stuck.", "quantifier": "all graphs, sources, bucket counts and interleavings", "why_tests_cant": "the flag and the distance share one word that concurrent relaxations update in any order", "anchors": ["benchmarks/IntegralWeightSSSP/JulienneDBS17/wBFS.h: Visit_F, wBFS", "gbbs/bucket.h"]}
{"id": "C56", "title": "Shiloach-Vishkin connectivity: correct from any sampled start, wrong across batches", "statement": "On a symmetric graph Shiloach-Vishkin's compute_components, started from the identity or from any labelling that labels each vertex with a self-labelled vertex of its component, and skipping the vertices of any one label, ends after at most n rounds; two vertices then have the same label exactly if they are connected (from the identity the label is the least vertex of the component), whatever the order in which concurrent hooks take effect and however the pointer-jumping tasks interleave. Its incremental process_batch is right for the first batch on fresh labels, but a sequence of batches can lose a connection established by an earlier one.", "quantifier": "all symmetric graphs, initial labellings, skipped labels, hook orders and interleavings; all first batches; a concrete sequence of batches for the negative part", "why_tests_cant": "hooks and pointer jumping race on one array; a test runs one interleaving on one graph", "anchors": ["benchmarks/Connectivity/ShiloachVishkin/Connectivity.h: SVAlgorithm::compute_components, process_batch"]}
{"id": "C57", "title": "Liu-Tarjan connectivity: which variants compute components", "statement": "On a symmetric graph and from the identity labelling, the Liu-Tarjan variants with full shortcuts (parent-connect or extended-connect without alter; any connect rule with alter) and extended-connect with simple updates and no alter end after at most n^2 rounds and label each vertex with the least vertex of its component, whatever the order of the messages and the interleaving of the shortcuts. The other variants that use the single shortcut can stop with two labels in one component; the variants with alter and simple updates can split a component when started from sampled labels; Stergiou's algorithm labels every non-isolated vertex 0.", "quantifier": "all symmetric graphs, message orders and interleavings for the positive part; concrete graphs and schedules for the negative part", "why_tests_cant": "whether the loop stops too early depends on the graph and on the order in which the shortcut tasks run", "anchors": ["benchmarks/Connectivity/LiuTarjan/liu_tarjan_rules.h", "benchmarks/Connectivity/LiuTarjan/Connectivity.h: LiuTarjanAlgorithm, LiuTarjanAlgorithmCOO, StergiouAlgorithm", "benchmarks/Connectivity/ConnectIt/framework.h", "benchmarks/Connectivity/ConnectIt/sampling.h"]}
{"id": "C58", "title": "Approximate densest subgraph: guarantee of the peeling algorithm, and what the greedy ones return", "statement": "On a symmetric graph with at least one vertex the peeling algorithm with parameter epsilon ends after at most n rounds; the density it returns is that of some set of vertices, and no set is denser than 2(1+epsilon) times it. Charikar's greedy algorithm on a simple symmetric graph never fails its edge check, its result is at most the density of some set and no set is denser than 2(result + 2); it is not a 2-approximation (0 on a single edge, 2/3 on a triangle). GreedyPlusPlus exits in its first iteration on every simple symmetric graph with more than one edge.", "quantifier": "all symmetric graphs, all epsilon = p/q, sparse or dense counting in every round, every order of updates and every degeneracy order", "why_tests_cant": "the approximation factor compares the result with every subset of the vertices", "anchors": ["benchmarks/ApproximateDensestSubgraph/ApproxPeelingBKV12/DensestSubgraph.h: WorkEfficientDensestSubgraph", "benchmarks/ApproximateDensestSubgraph/GreedyCharikar/DensestSubgraph.h: CharikarAppxDensestSubgraph", "benchmarks/ApproximateDensestSubgraph/GreedyPlusPlus/DensestSubgraph.h: GreedyPlusPlusDensestSubgraph", "gbbs/edge_map_reduce.h: edgeMapCount"]}
{"id": "C59", "title": "Betweenness centrality from one source returns exactly the dependencies of the source", "statement": "For every graph and source the single-source betweenness computation takes at most n forward rounds, and the score it returns for a vertex v that the source can reach is the sum, over all other vertices t, of the fraction of the shortest walks from the source to t that visit v (parallel edges count separately); vertices that cannot be reached get a value that is not a number, and the score of the source is the number of other vertices it reaches. The variants based on atomic additions return the same whenever every vertex with an incoming edge has an outgoing edge, in particular on symmetric graphs, but on some directed graphs they return 0 for a vertex on all shortest walks to another one.", "quantifier": "all graphs (directed, with parallel edges), all sources, all sparse or dense choices, all orders of the additions and all orders in which frontiers list vertices", "why_tests_cant": "the number of shortest walks and the order of concurrent additions are unbounded, and the failure on directed graphs depends on a degree sum that an earlier call has cached", "anchors": ["benchmarks/SSBetweenessCentrality/Brandes/SSBetweennessCentrality.h: SSBetweennessCentrality, SSBetweennessCentrality_EM, SSBetweennessCentrality_BFS, sparse_fa_dense_em", "gbbs/edge_map_data.h: edgeMapData", "gbbs/vertex_subset.h: sum_out_degrees"]}
{"id": "C60", "title": "Widest paths have the greatest width", "statement": "SSWidestPath, if every edge weight is below num_buckets - 1 and below INT_E_MAX, returns for every vertex v the greatest width (least weight on the walk) of a walk from the source to v, 0 if there is no walk (or none wider than 0) and INT_E_MAX for the source, whatever the interleaving of the relaxations of each round, after at most n rounds. With larger weights this fails: with the default of 128 buckets an edge of weight 127 elsewhere in the graph is enough for a reachable vertex to be reported as not reachable. SSWidestPathBF returns the greatest widths for integer weights of any sign without that restriction (-1 if there is no walk of width 0 or more), never takes its negative-cycle exit, and needs at most n rounds.", "quantifier": "every graph, every source, every number of buckets, all edge weights, every interleaving of the atomic accesses of the relaxations of every round, every order of the frontier", "why_tests_cant": "Depends on the interleaving of compare-and-swap and write-max on the flagged widths, and on weights relative to the number of buckets.", "anchors": ["benchmarks/SSWidestPath/JulienneDBS17/SSWidestPath.h:SSWidestPath", "benchmarks/SSWidestPath/JulienneDBS17/SSWidestPath.h:SSWidestPathBF", "gbbs/bucket.h:get_bucket"]}
{"id": "C61", "title": "Clique counting counts every clique once", "statement": "Clique, for 3 <= k <= 129 and any total order of the vertices, whether the directed graph is filtered or relabelled, with or without saveSpace, by vertices (any recursive level), by edges (with labels) or by blocks, returns the number of sets of k pairwise adjacent vertices, and the count of each vertex is the number of those sets containing it, whatever iterations each worker runs; Clique_enum hands each such set to the callback exactly once. The orderings by coreness, by degree and the given one are total orders. It fails outside these limits: for k >= 130 (labels are signed chars) the count by vertices is 0 on every graph; by edges with saveSpace it does not end on any graph with a k-clique; by blocks it divides by zero on a graph without edges.", "quantifier": "every undirected graph, every k, every vertex order, every assignment of iterations to workers, both ways to build the directed graph and to set up the induced graphs", "why_tests_cant": "Spaces are reused by a worker for arbitrary sequences of iterations, and the labels wrap at sizes no test reaches.", "anchors": ["benchmarks/CliqueCounting/Clique.h:Clique", "benchmarks/CliqueCounting/Clique.h:Clique_enum", "benchmarks/CliqueCounting/induced_hybrid.h:KCliqueDir_fast_hybrid_rec", "benchmarks/CliqueCounting/intersect.h:HybridSpace_lw", "benchmarks/CliqueCounting/induced_split.h:CountCliques", "benchmarks/CliqueCounting/relabel.h:relabel_graph"]}
{"id": "C62", "title": "Degeneracy orders: what the approximate orders guarantee", "statement": "The integer-sort version of the Goodrich-Pszona degeneracy order always returns, and gives every vertex its own rank below n. If every non-empty vertex set has a vertex with at most d edges into the set, then the vertex of rank r has at most 2 d (n - ns floor(r / ns)) / (n - r) edges to vertices of greater rank, where ns is the number of vertices removed per round; for the vertices of the first round this is the promised (2 + epsilon) d. For the later rounds the promised bound does not hold. The Barenboim-Elkin order, when it returns, also gives every vertex its own rank; but if some vertex has degree below the cutoff, every vertex of degree at least the cutoff comes before all those of lower degree, and if there are two vertices or more and all degrees exceed the cutoff it aborts.", "quantifier": "all symmetric graphs, all round sizes and epsilons, all cutoffs, all results of the unstable sorts and all orders of the degree updates", "why_tests_cant": "the bound is over all graphs and all ways ties are broken; tests use the order only through counts that do not depend on it", "anchors": ["benchmarks/DegeneracyOrder/GoodrichPszona11/DegeneracyOrder.h: DegeneracyOrder_intsort", "benchmarks/DegeneracyOrder/BarenboimElkin08/DegeneracyOrder.h: DegeneracyOrder"]}
{"id": "C63", "title": "Strongly connected components", "statement": "When StronglyConnectedComponents returns, two vertices have the same number exactly when each reaches the other along directed edges, and every number is below the number of vertices; num_scc then returns the number of components. For every graph with a vertex, every shuffle and every positive step growth, some schedule of the calls returns. Not every schedule does: the hash table of a multi-source search is sized from the labels present before a round, labels moved on within the round can fill it, and then the search never ends (path of 49 vertices, beta 64).", "quantifier": "every directed graph given with consistent in- and out-lists, every random shuffle, every sequence of step sizes, every interleaving of the label insertions of the concurrent searches, every order of the final label writes", "why_tests_cant": "The partition into classes depends on the random shuffle and on the order in which concurrent searches insert labels; tests run a handful of orders on small graphs, and the overfull table needs a long path of centers in one round.", "anchors": ["benchmarks/StronglyConnectedComponents/RandomGreedyBGSS16/StronglyConnectedComponents.h: StronglyConnectedComponents, multi_search, first_search, num_scc", "gbbs/helpers/resizable_table.h: resizable_table::maybe_resize"]}
{"id": "C64", "title": "Boruvka's minimum spanning forest", "statement": "On a symmetric graph without self-loops whose weights are at most 2^31 - 1, the Boruvka MinimumSpanningForest returns a minimum spanning forest: edges of the graph, no cycle, connecting everything the graph connects, of least total weight; and it always can return (at most six batches). With weights above 2^31 - 1 (wider weight types) it selects no such edge at all, and a self-loop comes back as a forest edge.", "quantifier": "every symmetric weighted graph (also one already filtered), every outcome of the random sampling and hashing that picks the batches, every order of the concurrent write-mins, every interleaving of the pointer jumping, every schedule of the edge filtering, both settings of largemem", "why_tests_cant": "Which edges meet in a batch depends on random samples, ties are broken by positions in the batch, and the pointer jumping races; minimality compares with all other forests.", "anchors": ["benchmarks/MinimumSpanningForest/Boruvka/MinimumSpanningForest.h: Boruvka, get_top_k, MinimumSpanningForest", "gbbs/graph_mutation.h: filter_edges, filter_all_edges"]}
{"id": "C65", "title": "Approximate set cover", "statement": "Reading each vertex as the set of its neighbours, SetCover returns after a bounded number of rounds a list of distinct sets that covers every element of every set. Against any other family of covering sets, each set S of the family accounts for at most k*H(|S|) returned sets (H the harmonic number, k = 1.0201 with exact powers of 1.01), plus (1-1/k)*|S| if S itself was returned. A returned set can be redundant (all its elements in sets chosen earlier), and if sets in the lowest bucket are asked for two elements (a saturating conversion of the infinite threshold computed there) a one-edge graph makes the call run forever.", "quantifier": "every graph with fewer than 2^31 - 1 vertices (for the size: no repeated neighbours), every number of open buckets, every permutation drawn in every round, every order of the concurrent write-mins and resets, every rounding of the level functions consistent with each other", "why_tests_cant": "Which sets join depends on random permutations and races; the size bound compares with every other cover, and the endless loop depends on how the hardware converts infinity.", "anchors": ["benchmarks/ApproximateSetCover/MANISBPT11/ApproximateSetCover.h: SetCover, Visit_Elms", "gbbs/bucket.h: buckets", "gbbs/graph_mutation.h: packEdges", "gbbs/interface.h: srcPack, srcCount"]}
{"id": "C66", "title": "Spanner", "statement": "On an undirected graph, Spanner returns edges of the graph, none twice in either direction: one for every vertex that is not the centre of its cluster, and one for every pair of adjacent clusters of the low-diameter decomposition it computes. The ends of every edge of the graph are joined in the result by a walk of at most 4(r-1)+1 edges, where r = min(n+1, 2+ceil(ln n / beta)) is the number of rounds the decomposition provides for; in particular the result connects whatever the graph connects. A result always comes out, also when the estimated edge table is too small.", "quantifier": "every undirected graph, every vertex permutation, every order in which concurrent visits claim vertices, every hash function and interleaving of the edge-table insertions, every limit on the probes", "why_tests_cant": "Which edges are returned depends on the random permutation and on races; the stretch must hold for every edge, and the fallback to the exact table needs more than 10000 probes.", "anchors": ["benchmarks/Spanner/MPXV15/Spanner.h: Spanner, Spanner_impl, LDD_parents, tree_and_intercluster_edges, fetch_intercluster, fetch_intercluster_te", "gbbs/helpers/sparse_table.h: insert_check"]}
{"id": "C67", "title": "Biconnected components", "statement": "On every undirected graph with fewer than 2^31 vertices, Biconnectivity returns labels such that the label computed for an edge (from the parent and the label of its ends) is always defined and two edges get the same label exactly if they are in the same biconnected component, that is, if no vertex separates them. If there are no self-loops, the number of components printed is the number of biconnected components. A result always comes out.", "quantifier": "every undirected graph (also disconnected, with parallel edges and self-loops), every interleaving of the two connectivity computations, every breadth-first forest the races can produce, every order of the concurrent minimum, maximum and sum updates", "why_tests_cant": "The forest, the numbering and the labels depend on races; equality of labels has to be right for all pairs of edges and in both directions.", "anchors": ["benchmarks/Biconnectivity/TarjanVishkin/Biconnectivity.h: Biconnectivity, preorder_number, multi_bfs, cc_sources, critical_connectivity", "benchmarks/Biconnectivity/TarjanVishkin/Biconnectivity.cc: BiconnectivityStats"]}
{"id": "C68", "title": "Five-cycle counting", "statement": "On every undirected graph without self-loops and parallel edges and with fewer than 2^32 vertices, Count5Cycle_serial, Count5Cycle_no_scheduling, Count5Cycle, Count5Cycle_ESCAPE and Count5Cycle_ESCAPE_par return the number of cycles of length five modulo 2^64, whatever ranks (Kowalik) or vertex order (ESCAPE) are used as long as they tell the vertices apart, however the blocks are distributed over threads, and also in later calls on graphs that are not larger. Runs exist for every graph. Exceptions: Count5Cycle and Count5Cycle_ESCAPE_par divide by zero on every graph without edges; Count5Cycle after a call on a smaller graph can write outside its arrays; with self-loops the count can be wrong.", "quantifier": "every such graph (neighbour lists in any order), all orders by degree, all injective ranks, every block size of at least two, every assignment of blocks to threads and every order of execution, all sequences of earlier calls on graphs of decreasing size", "why_tests_cant": "The count is the sum of wrapped 32-bit differences over a relabelled graph; that every cycle is counted exactly once has to hold for every graph, order and schedule, and the arrays survive between calls.", "anchors": ["benchmarks/CycleCounting/Parallel5Cycle/FiveCycle.h: Count5Cycle, Count5Cycle_serial, Count5Cycle_no_scheduling, Count5Cycle_ESCAPE, Count5Cycle_ESCAPE_par, Count5CycleVertex, relabel_graph, U_FastReset", "gbbs/bridge.h: parallel_for_alloc"]}
{"id": "C69", "title": "A SCAN index returns the clustering for the given parameters", "statement": "For a symmetric graph with a symmetric similarity of neighbours, building an indexed_scan::Index never accesses memory outside its arrays, and Cluster(mu, epsilon) returns n entries such that: a core (a vertex with at least mu - 1 neighbours of similarity >= epsilon) gets the least core that it reaches through epsilon-similar edges between cores, so two cores have equal ids exactly when they are connected that way; a non-core with an epsilon-similar core neighbour gets the id of one such neighbour; every other vertex is kUnclustered. With get_deterministic_result and positive similarities the neighbour is the most similar one, ties to the lower id, and the result is the same in every run; with a similarity of exactly 0 such a vertex can be left unclustered. Cluster(mu, epsilons, f) calls f once for each index i, with a clustering for epsilons[i]. Under every schedule that gives each thread enough steps all phases finish.", "quantifier": "for every graph, similarity, order of equal elements after each sort, initial content of uninitialised memory, mu, epsilon(s), and interleaving of the union-find calls, of the compare-and-swaps and of the attachment loops", "why_tests_cant": "Border vertices and cluster merging depend on the interleaving of lock-free unions and compare-and-swaps; the incremental version for several epsilons only processes new edges, and whether it misses one depends on all pairs of parameters.", "anchors": ["benchmarks/SCAN/IndexBased/scan.cc: Index::Cluster, ClusterCores, AttachNoncoresToClusters, AttachNoncoresToClustersDeterministic", "benchmarks/SCAN/IndexBased/scan_helpers.h: NeighborOrder", "benchmarks/SCAN/IndexBased/scan_helpers.cc: ComputeCoreOrder, CoreOrder::GetCores"]}
{"id": "C70", "title": "Exact similarities hold each adjacent pair once with the size of the shared neighbourhood", "statement": "For an undirected graph without self loops (sorted neighbour lists), CosineSimilarity and JaccardSimilarity::AllEdges return graph->m entries in which every ordered pair of adjacent vertices appears exactly once; the similarity of u and v is |N[u] and N[v] in common| / |N[u] union N[v]| (Jaccard), resp. the common number over the square roots of |N[u]| and |N[v]| (cosine), for closed neighbourhoods N[x] = x and its neighbours, whatever the schedule of the atomic counter updates and the order of equal degrees. The intersection that it uses reports each common neighbour once, with its index in both lists, for all list lengths. So the clusterings of an index built on the Jaccard similarities are SCAN clusterings for it. With integer weights the counter of an edge is the sum of the products of the weights to shared neighbours modulo 2^32, so a shared weight of 2^32 counts as 0. With a self loop the result contains entries for the pair (0, 0) that are no edges.", "quantifier": "for every graph, rank order of the vertices, merge thresholds, interleaving of the atomic additions and order of the stores", "why_tests_cant": "Three different roles of an edge in a triangle add to its counter concurrently, and the recursive intersection swaps its arguments and shifts its offsets depending on list lengths above 2048; a test sees a few graphs and one schedule.", "anchors": ["benchmarks/SCAN/IndexBased/similarity_measure.h: AllEdgeNeighborhoodSimilarities, DirectGraphByDegree, VertexOutOffsets, CosineSimilarity::AllEdges, JaccardSimilarity::AllEdges", "benchmarks/SCAN/IndexBased/intersect.h: intersect_f_with_index_par, merge, seq_merge, seq_merge_full"]}
{"id": "C71", "title": "Naive SCAN lists every cluster of every vertex", "statement": "For an undirected graph without self loops or parallel edges, naive_scan::Cluster(graph, mu, epsilon) returns a list of cluster ids per vertex: a core (similar to at least mu vertices, itself included) has exactly one, the least core reachable from it through similar neighbouring cores; any other vertex has, in increasing order and once each, the clusters of the cores that are similar to it, none if there is no such core. The structural similarity of neighbours is computed from the closed neighbourhoods, and can be looked up in either direction. The result does not depend on the schedule of the table insertions, the hash functions or the directions edgeMap chooses. The clusterings of the index (C69) for the same similarities agree with it: they leave the same vertices unclustered, give cores the same cluster, and give every other vertex one of its listed clusters. With a self loop a similarity is too large, as the loop counts as one more shared neighbour.", "quantifier": "for every graph, mu, epsilon, hash function, interleaving of the insertions and choice of traversal direction in every round", "why_tests_cant": "The tests compare a few small graphs under one schedule; which of several frontiers and table layouts occurs depends on degrees, hashes and timing, and termination of the searches and probes must hold on all of them.", "anchors": ["benchmarks/SCAN/Naive/scan.h: Cluster", "benchmarks/SCAN/Naive/scan_helpers.h: ComputeStructuralSimilarities", "benchmarks/SCAN/Naive/scan_helpers.cc: CoreBFSEdgeMapFunctions, RemoveDuplicates", "gbbs/helpers/undirected_edge.cc: UndirectedEdge"]}
{"id": "C72", "title": "Renumbered SCAN clusters and hubs are exact under races", "statement": "For a clustering whose identifiers are smaller than the number of vertices (or kUnclustered), CompactClustering renumbers the clusters 0 .. k-1, every number used, in the same order, leaves unclustered vertices so, and returns k; the result is the same for every interleaving of its racing iterations, each of which ends within two accesses to shared memory. The documented condition on identifiers is needed: any other identifier is used as an index outside of an array, under every interleaving. DetermineUnclusteredType returns kHub exactly when the vertex has neighbours in two different clusters, for every interleaving of the calls on its neighbours, each of which ends within five accesses.", "quantifier": "for every clustering, list of neighbours and interleaving of the shared accesses", "why_tests_cant": "Iterations race on the marks, the candidate cluster and the flag; a test sees a few of the interleavings.", "anchors": ["benchmarks/SCAN/IndexBased/utils.cc: CompactClustering", "benchmarks/SCAN/IndexBased/utils.h: DetermineUnclusteredType"]}
{"id": "C73", "title": "Modularity of a clustering follows its definition", "statement": "In exact arithmetic, scan::Modularity(graph, clustering) returns the sum over the ordered pairs of vertices in the same cluster of A_uv/m - (d_u/m)(d_v/m), where A_uv is the weight between u and v (1 per edge if unweighted), d the (weighted) degrees and m their sum, an unclustered vertex being alone in its cluster, provided that no unclustered vertex has a self loop (which would be left out); it returns 0 for a graph without edges and is not a number if there are edges but m = 0. It is at most 1 for nonnegative weights, does not depend on the names of the clusters (so CompactClustering keeps it), and is 0 for a single cluster. It rests on CollectReduce, whose entry k is the reduction of the values with key k for any commutative monoid, however the sort orders equal keys.", "quantifier": "for every graph, weights, clustering and order of equal keys in the sort", "why_tests_cant": "Tests compare a few graphs with hand-computed values; offsets at the first and last cluster, empty clusters and absent identifiers depend on the input.", "anchors": ["benchmarks/SCAN/IndexBased/utils.h: internal::CollectReduce, Modularity"]}
{"id": "C74", "title": "PageRank runs power iteration to the requested tolerance", "statement": "In exact arithmetic, PageRank_edgeMap(G, eps, max_iters), on directed and undirected graphs, returns the first iterate of the random surfer's walk from the uniform distribution (a random out-edge, or a random vertex if there is none, with probability 0.85; a random vertex otherwise) that is within eps of the previous one in L1 distance, among the first max_iters; if there is none it returns all zeros. With the default arguments this case never arises for any graph: the result sums to 1, every entry is at least 0.15/n, and it is within 17/3 * 10^-6 of the stationary distribution, of which there is at most one. PageRank returns the same on symmetric graphs; on directed graphs it follows edges the wrong way and may be far off or not finite. PageRankDelta can stay more than 1/10 away from the stationary distribution for all tolerances and iteration counts.", "quantifier": "for every graph, tolerance and iteration bound (damping any rational in [0,1))", "why_tests_cant": "Tests compare a few small undirected graphs with stored values; convergence and the error bound must hold for every graph, with dangling vertices and parallel edges.", "anchors": ["benchmarks/PageRank/PageRank.h: PageRank_edgeMap, PageRank, delta::PageRankDelta"]}
{"id": "C75", "title": "Graph files round-trip through the compressed and the binary formats", "statement": "Writing a graph (32-bit ids, strictly increasing lists; unweighted or int weights other than INT_MIN) with the compressor, symmetric or directed, under any schedule, succeeds, and reading the file returns the same n, m, degrees and neighbours with their weights, whatever readers of the compressed vertex are used and whatever follows the file in memory. The binary format does the same for symmetric graphs (unweighted or with int weights, any lists) and unweighted directed ones, for every batch count. The converter's amortized format does so for n <= 1, n = 25 and n >= 31 when its block size is that of the reader or every list fits in one block; for other n the last vertices' edges lie beyond the end of the file, and a vertex whose degree exceeds the writer's block size by at most 12 and fits in the reader's is read back without neighbours.", "quantifier": "for every graph, block size, batch count and schedule, and every memory that holds the file", "why_tests_cant": "The byte layout depends on every degree, gap and block boundary; no test writes files with these tools, let alone compares them for all graphs.", "anchors": ["utils/compressor.cc: write_graph_bytepd_amortized_format, write_graph_bytepd_amortized_directed", "utils/converter.h: bytepd_amortized::write_graph_bytepd_amortized_format, binary_format::write_symmetric_graph_binary_format, binary_format::write_asymmetric_graph_binary_format", "gbbs/graph_io.h: read_compressed_symmetric_graph, read_compressed_asymmetric_graph, read_weighted_symmetric_graph", "gbbs/graph_io.cc: parse_unweighted_graph, read_unweighted_symmetric_graph, read_unweighted_asymmetric_graph"]}
{"id": "C76", "title": "Randomized linking by rank: components and spanning forest under every schedule and every coin", "statement": "For the union-find of Jayanti, Tarjan and Boix-Adsera, with plain find or two-try splitting, from any initial labelling in which every label labels itself, any set of concurrent unite, find and query calls, every outcome of the random bits and every interleaving of the single memory accesses: no call leaves the arrays, every vertex has a root, the rank is at most n, trees never split, two vertices in one tree are connected by the initial labels and the edges of started calls, a returned unite has joined its ends, and each call returns after a number of its own steps bounded by a polynomial in n even if all others stop. When all calls have returned the trees are exactly the connected components; the final labels of the connectivity algorithm, without sampling and after any sampling with skipping of the most frequent component, are correct component labels; and the edges recorded by the spanning forest variant are a spanning forest, also when they continue a sampled forest.", "quantifier": "for every graph, initial labelling, set of calls, find option, random bits and interleaving", "why_tests_cant": "The ranks and the winner of each link depend on the coins and on the interleaving of torn reads and compare-and-swaps; tests see a handful of schedules and one seed.", "anchors": ["benchmarks/Connectivity/UnionFind/jayanti.h: link, find, find_twotry_splitting, unite, JayantiTBUnite::initialize, compute_components, process_batch", "benchmarks/SpanningForest/UnionFind/jayanti.h: link, unite, compute_spanning_forest"]}
{"id": "C77", "title": "Union-find spanning forests record a spanning forest under every schedule", "statement": "For the spanning forest algorithms of the ConnectIt framework with Unite, UniteEarly, UniteND or UniteRemLock, with any of the finds naive, compress, split and halve and (for UniteRemLock) either single-step splice, on every symmetric graph and every interleaving of the single memory accesses of the concurrent calls: no call leaves the arrays, two vertices in one tree are always connected in the graph, and once all calls have returned the recorded edges are a spanning forest of the graph and the trees are its connected components. The same holds after k-out sampling with any choice of sampled neighbours, any interleaving of its linking and compression passes, and any label taken as the frequent one whose vertices are skipped. It does not hold for UniteRemCAS, which loses an edge of a five-vertex path in a sequential run, nor after BFS sampling, which records pairs that are not edges.", "quantifier": "for every symmetric graph, unite rule, find rule, splice rule, sampling outcome and interleaving", "why_tests_cant": "An edge is recorded by a second, separate write after the link, while other calls compress and link; whether entries are lost, doubled or overwritten depends on the interleaving.", "anchors": ["benchmarks/SpanningForest/UnionFind/union_find_rules.h: find_naive, find_compress, find_atomic_split, find_atomic_halve, split_atomic_one, halve_atomic_one, Unite, UniteRemLock, UniteRemCAS, UniteEarly, UniteND", "benchmarks/SpanningForest/UnionFind/SpanningForest.h: compute_spanning_forest", "benchmarks/SpanningForest/Framework/kout_sampling.h: link, initial_spanning_forest", "benchmarks/SpanningForest/Framework/bfs_sampling.h: BFS_ComponentLabel"]}
{"id": "C78", "title": "Shiloach-Vishkin and Liu-Tarjan spanning forests", "statement": "The Shiloach-Vishkin spanning forest algorithm, and the Liu-Tarjan one with parent_connect or extended_connect and full_shortcut, on every undirected graph, started without sampling or from sampled labels that point to roots with recorded edges forming a forest of the label classes, with any label skipped as the frequent one, in every order of the atomic write_min and compare-and-swap operations and every interleaving of the pointer-jumping accesses: at most n + 1 rounds are made, each of which can be completed, and on return the recorded edges are a spanning forest of the graph and the labels are its connected components. With the single shortcut the Liu-Tarjan loop can stop early: two vertices joined by an edge of the graph are then left unjoined by the recorded edges, for parent_connect on a path of six vertices and for extended_connect on a graph of nine.", "quantifier": "for every undirected graph, admissible sampled start, frequent label, connect rule, order of the atomic operations and interleaving of the pointer jumping", "why_tests_cant": "Which edge is recorded for a root and which labels the pointer jumping reads depend on the order of racing operations; the early stop needs a particular order on a particular graph.", "anchors": ["benchmarks/SpanningForest/ShiloachVishkin/SpanningForest.h: SVAlgorithm, SpanningForest", "benchmarks/SpanningForest/LiuTarjan/liu_tarjan_rules.h: parent_connect, extended_connect, root_update, shortcut, root_shortcut", "benchmarks/SpanningForest/LiuTarjan/SpanningForest.h: LiuTarjanAlgorithm"]}
{"id": "C79", "title": "Breadth-first search spanning forests", "statement": "The breadth-first search spanning forest algorithm, on every undirected graph, with every choice of traversal per round and every interleaving: an execution that returns exists, and on return the result is a spanning forest of the graph in which every vertex except the least of its component has exactly one edge, to a neighbour one step closer to that least vertex. The deterministic version, on every undirected graph without parallel edges and in every interleaving of its reads, writes and compare-and-swaps, additionally records for every vertex the least such neighbour, so that all executions return the same list; each of its searches makes at most n rounds, every round can be completed, and no interleaving of a traversal goes on for ever.", "quantifier": "for every undirected graph (without parallel edges for the deterministic version), traversal choice, block division and interleaving of the tasks", "why_tests_cant": "Which neighbour becomes the parent of a vertex is decided by racing operations; that the deterministic version always ends with the same forest is a statement about all interleavings.", "anchors": ["benchmarks/SpanningForest/BFSSF/SpanningForest.h: SpanningForest, SpanningForestDet", "benchmarks/SpanningForest/common.h: parents_to_edges", "gbbs/bridge.h: write_min", "gbbs/edge_map_data.h: edgeMapData"]}
{"id": "C80", "title": "Label propagation spanning forest", "statement": "The label propagation spanning forest algorithm, on every undirected graph, from any labels and recorded edges in which the edges are a forest of the label classes (in particular distinct labels and no edges), with any label skipped as the frequent one and in every interleaving of the reads, writes and compare-and-swaps: it makes at most n rounds, every round can be completed and no interleaving of one goes on for ever, a result exists, and in every result the recorded edges are a spanning forest of the graph and two vertices have equal labels exactly when they are connected. Without sampling the trees are breadth-first search trees rooted at the vertices with the least labels.", "quantifier": "for every undirected graph, start, frequent label, traversal choice per round, block division and interleaving of the tasks", "why_tests_cant": "An edge is recorded in a second traversal by comparing labels of two rounds; that racing writes never leave a vertex with a label but without the edge it came over, or close a cycle, is a statement about all interleavings.", "anchors": ["benchmarks/SpanningForest/LabelPropagation/SpanningForest.h: LabelProp_F, LabelProp_F_2, LPAlgorithm::compute_spanning_forest", "gbbs/bridge.h: write_min", "gbbs/edge_map_data.h: edgeMapData"]}
{"id": "C81", "title": "Local queries for maximal independent sets and matchings", "statement": "Yoshida's query algorithms, on undirected graphs without self loops (and, for the matching, without parallel edges), with any hash function including one with collisions: the queries of all vertices are consistent with one maximal independent set, and those of all edges with one maximal matching, namely the greedy ones in the order of the hashes. Every query terminates without failing an assertion; with a cutoff c it answers after exactly the number of steps it takes without a cutoff if that is at most c, and otherwise returns unknown after c steps. The drivers return the maximum and the sum (modulo 2^64) of the steps and the number of answers, and their verification never fails when all queries are answered. With a self loop at an isolated vertex the verification of the independent set exits, and with parallel edges that of the matching fails.", "quantifier": "for every undirected graph, hash function, cutoff and vertex or edge queried", "why_tests_cant": "Every vertex is answered by its own recursive exploration; that all of these agree on one global set for every graph, hash function and cutoff cannot be sampled.", "anchors": ["benchmarks/MaximalIndependentSet/Yoshida/MaximalIndependentSet.h: mis_query, MaximalIndependentSet", "benchmarks/MaximalMatching/Yoshida/MaximalMatching.h: mm_query, MaximalMatching", "benchmarks/MaximalMatching/Yoshida/yoshida_matching_utils.h: sorted_it, get_edge_pri", "benchmarks/MaximalMatching/Yoshida/reorder.h: reorder_graph", "benchmarks/MaximalIndependentSet/Yoshida/reorder.h: reorder_graph"]}
{"id": "C82", "title": "CoSimRank sums the meetings of two random walks", "statement": "In exact arithmetic: CoSimRank_edgeMap on every graph, and CoSimRank on every undirected graph, return for vertices u and v the sum over k from 0 to K of c^k times the inner product of the distributions of random walks from u and from v after k steps along out-edges, where K is the first round in which both distributions moved by less than eps in the L1 norm, or max_iters when there is none. For 0 <= c <= 1 the sum grows with K, and what is missing from a longer sum is at most c^(K+1)/(1-c). It is not bounded by eps: with the default parameters it exceeds 1/30 on a triangle. On directed graphs CoSimRank follows edges backwards and its result can be 0 where the similarity is at least c. When no round settled, the arrays whose maximum is printed are all zeros.", "quantifier": "for every graph, pair of vertices, damping factor, eps and number of iterations", "why_tests_cant": "The sparse and the dense traversals must keep two arrays zero or cleared in every round for the sum to be right; a test compares a few graphs with another floating-point run.", "anchors": ["benchmarks/CoSimRank/CoSimRank.h: CoSimRank_edgeMap, CoSimRank, inner_product, Co_PR_F"]}
{"id": "C83", "title": "Clique peeling computes clique coreness and an approximately densest subgraph's density", "statement": "For cliques of K vertices, started with the exact counts (as Clique returns them), under any schedule: if Peel returns, the value of every vertex v is the largest c such that v belongs to a set of vertices each in at least c K-cliques inside the set. No round is stuck and each finishes at least one vertex, so the loop ends; for K >= 4 no write is out of bounds. For K = 3 a round with a single vertex can append more entries than the largest degree to an array of that size. ApproxPeel ends within n rounds; K (1 + eps) times its result is at least the density (cliques per vertex) of every subgraph, and its result is at most K times the density of some subgraph. Its result is not always the density of a subgraph, nor below the largest density.", "quantifier": "for every undirected graph, K from 3 to the size of the label type, vertex ranking, eps, number of open buckets and schedule of the workers", "why_tests_cant": "The counts lost in a round depend on which vertices are active together, on their ranks and on how work is split; the out-of-bounds write needs a particular order of neighbours and does not change the result.", "anchors": ["benchmarks/CliqueCounting/peel.h: Peel, ApproxPeel, triUpdate, triUpdate_serial, cliqueUpdate, cliqueUpdate_serial, vtx_intersect", "benchmarks/CliqueCounting/intersect.h: HybridSpace_lw::setup", "benchmarks/CliqueCounting/Clique.h: Clique"]}
{"id": "C84", "title": "Counting neighbours gives the number of edges from the subset", "statement": "On an undirected graph the method edgeMapCount of EdgeMap calls the supplied function exactly once for every vertex with a neighbour in the subset, with the number of its edges from the subset, returns exactly what the calls returned and leaves the reusable table empty, whichever direction it chooses. nghCount does the same in the sparse direction for the vertices that satisfy the condition, on any graph, as long as the subset has fewer edges than the large-input threshold of the histogram or every neighbour satisfies the condition; otherwise it can call the function for the table's empty key. In the dense direction the calls of both count a vertex's own edges into the subset, which on directed graphs is a different number, and the result of nghCount has, besides the results of the calls, those vertices not satisfying the condition for which uninitialised memory holds true; a call that returns nothing is undefined behaviour there.", "quantifier": "for every graph, vertex subset, condition, function, threshold, hash function, schedule and content of uninitialised memory", "why_tests_cant": "The direction depends on the size of the subset, the bucketed histogram branches only run on millions of edges, and uninitialised memory is often zero.", "anchors": ["gbbs/interface.h: nghCount", "gbbs/edge_map_reduce.h: edgeMapInduced, edgeMapCount_sparse, edgeMapCount_dense, edgeMapCount, EdgeMap", "gbbs/helpers/sequential_ht.h: insertAdd", "gbbs/helpers/histogram.h: histogram"]}
{"id": "C85", "title": "Sampling followed by union-find gives the connected components", "statement": "On a symmetric graph each sampler of ConnectIt (k-out in its four variants and any number of rounds, BFS, LDD) returns labels that name a vertex of the same component labelled with itself; k-out labels are never larger than the vertex and equal exactly for vertices joined by the sampled pairs, BFS labels are the source exactly for the vertices reachable from it. Union-find started from these labels, skipping the vertices of whatever label is taken for the most frequent, makes no out-of-bounds access, keeps every vertex in a rooted tree, and when it returns two labels are equal iff the vertices are connected, for every find and unite variant other than splice_atomic and UniteEarly; UniteEarly is correct after k-out sampling, but after BFS sampling a cycle is reachable. The k-out rounds and, for the variants without locks and hooks, both union-find phases end in every schedule that gives each call a bounded number of steps. BFS sampling ends within 2n - 1 rounds unless its source has an edge to itself, in which case it can run forever.", "quantifier": "for every symmetric graph, sampler, number of rounds, random choices, frequent label, variant and schedule", "why_tests_cant": "Schedules, random samples and the choice of direction are unbounded, and a test graph rarely has a self-loop at the sampled source.", "anchors": ["benchmarks/Connectivity/ConnectIt/sampling.h: SamplingAlgorithmTemplate, KOutSamplingTemplate, BFSSamplingTemplate, BFS_ComponentLabel, LDDSamplingTemplate", "benchmarks/Connectivity/UnionFind/Connectivity.h: UFAlgorithm::compute_components", "gbbs/edge_map_data.h: edgeMapData"]}
{"id": "C86", "title": "Graphs written as edge lists or renamed at random are read back", "statement": "Converting a non-empty sequence of 32-bit numbers to a string gives one line for each number. to_edge_list on a graph with at least one edge writes a text that the edge-list reader reads as exactly the graph's edges, in order (lexicographically sorted if the adjacency lists are sorted); the header option puts the line 'n m' in front. With the option for one direction only, and in the matrix market format, the text has the edges with u < v followed by a line '0 0' for each of the other edges, so it is not a list of edges of the graph; the header counts the edges with u < v. On a graph with no edges the behaviour is undefined. random_reorder writes, for every permutation, a file that is read as the graph with the same numbers of vertices and edges in which vertex perm[i] has the renamed neighbours of i in the original order; sorted lists do not stay sorted.", "quantifier": "for every graph with ids below 2^32, every permutation and every schedule of the loops", "why_tests_cant": "The claims range over all graphs, permutations and schedules of the loops that fill the shared buffer.", "anchors": ["utils/to_edge_list.cc: print_edge_list, print_edge_list_matrixmarket", "utils/random_reorder.cc: randomReorder", "gbbs/bridge.h: sequence_to_string, type_to_string, t_to_stringlen", "gbbs/graph_io.cc: read_unweighted_edge_list, skip_comments"]}
{"id": "C87", "title": "The graph generators produce the advertised structure", "statement": "For n >= 1 vertices and k >= 1 edges per vertex the Barabasi-Albert generator makes no access out of bounds; when it returns there are n*k edges, the first k are the path 0-1-...-k, and vertex i has k edges whose targets are the endpoints of earlier vertices' edges under k different numbers; all ids are at most max(n-1, k), the graph is connected on these ids, and beyond vertex k every edge leads to a smaller vertex. It returns if the random numbers take every residue again and again. The graph need not be simple, for n <= k an id of n or more occurs, and for n = 0 the behaviour is undefined. The R-MAT generator for 1 <= n <= 2^31 with probabilities adding to at most one returns m edges with ids below n rounded up to a power of two (so an id of n or more can occur if n is not one), each level of the recursion setting one bit of the source and of the target according to the quadrant of the number drawn; edges i and i + 2^31 coincide; probabilities that add to more than one abort, and n = 0 or n > 2^31 is undefined.", "quantifier": "for every n, k, m, stream of random numbers, hash functions, probabilities and order of the parallel iterations", "why_tests_cant": "Tests see a few seeds and sizes; the claims range over all random choices and orders.", "anchors": ["utils/generators/barabasi_albert.h: generate_updates", "utils/generators/rmat.h: rMat_gen, rMatRec, generate_updates"]}
{"id": "C88", "title": "The checkers of the connectivity and spanning-forest benchmarks", "statement": "For labels up to the number n of vertices, the check of a connectivity result makes no access out of bounds and passes exactly if the given labelling and the reference group the vertices 1, ..., n-1 in the same way; so it never rejects a right labelling, but it accepts some in which vertex 0 is in the wrong component, since the relabelling gives vertex 0 a label of its own. A label above n makes it access its table out of bounds. The check of a spanning forest passes exactly if the numbers of edges agree and the two forests connect the same pairs of vertices other than 0, so it accepts some edge lists that are not spanning forests. The number of components printed is the number of distinct labels, whatever the order of the parallel loop, and the size printed is that of the largest group.", "quantifier": "for every two labellings, every two lists of edges, every connectivity algorithm that labels components, and every order of the parallel loop", "why_tests_cant": "The checkers are what tests rely on; which wrong results they accept is a statement about all labellings.", "anchors": ["benchmarks/Connectivity/ConnectIt/mains/check.h: num_cc, largest_cc, RelabelDet, cc_check", "benchmarks/SpanningForest/check.h: cc_check, double_edges, check_spanning_forest"]}
{"id": "C89", "title": "The dynamic array holds what was appended, without losing memory", "statement": "After any history of resize, push_back, insert, copyIn, clear and the bucket structure's bulk and single insertions, started from any of the constructors, the dynamic array holds exactly the elements appended since the last clear, in order, whatever the order of the parallel loops. The history is undefined exactly if some push_back or insert finds no room, so appending by copyIn or by the bucket structure is always defined, while push_back alone is not. Beyond the blocks present at the start only the array's own is allocated, and none after del (which may be repeated); a block supplied by the caller is never freed and the caller's other memory is never touched. Growing copies at most two elements per element appended (plus those supplied at the start). to_seq returns the elements but loses the block, and appending after it, or after del, is undefined where the elements fit the old capacity.", "quantifier": "for every start, element type, history of operations and order of the iterations of every parallel loop", "why_tests_cant": "Lost blocks, dangling pointers and copying cost depend on the whole history of operations; tests try a few.", "anchors": ["gbbs/helpers/dyn_arr.h: dyn_arr", "gbbs/bucket.h: update_buckets, update_buckets_seq, insert_in_bucket"]}
{"id": "C90", "title": "Batches of insertions with Liu-Tarjan: sound, exact for one batch, lossy for several", "statement": "For every Liu-Tarjan variant and every history of batches of insertions and queries started from singletons, under every interleaving: no parent is larger than its vertex, every vertex has a root, and vertices in the same tree are connected by the edges inserted so far. After a single batch with full shortcut, no alter and parent connect (or extended connect with root update), two vertices have the same parent exactly if the insertions connect them; such a batch always ends, after at most n*n rounds that change something. Later batches do not keep this: for every combination of connect, update, shortcut and alter there is a history after which the two ends of an inserted edge are in different trees.", "quantifier": "for every variant, number of vertices, history of batches and interleaving of the connect, update, shortcut and query loops", "why_tests_cant": "Which cell is updated and when a flag is taken depends on the schedule, and messages left over from earlier batches on the whole history.", "anchors": ["benchmarks/Connectivity/LiuTarjan/Connectivity.h: LiuTarjanAlgorithm::process_batch", "benchmarks/Connectivity/common.h: reorder_updates", "benchmarks/Connectivity/LiuTarjan/liu_tarjan_rules.h"]}
{"id": "C91", "title": "Command-line options are found where they were given", "statement": "For every command line: a flag is found exactly if it is one of the words after the program name. The value of an option is the word after its first occurrence other than as the last word, and the default (or null) if there is none. Integer options give the number that word starts with (after white space, with optional sign, decimal), 0 if it starts with none, and are undefined exactly if the number does not fit; long options give a negative number as its residue modulo 2^64; double options abort at a blank word and are undefined at one that is no number. Arguments are counted from the end, the program name is never returned, and too few words abort; no call reads outside argv. Options are not told apart from values: the value of an option can be another option or the input file.", "quantifier": "for every command line, option name, default and position", "why_tests_cant": "The words of a command line are arbitrary, and boundary cases (option as last word, repeated, equal to a value, not a number, overflow) are unlimited.", "anchors": ["gbbs/helpers/parse_command_line.h: commandLine, getArgument, IOFileNames, sizeAndFileName, getOption, getOptionValue, getOptionIntValue, getOptionLongValue, getOptionDoubleValue"]}
{"id": "C92", "title": "Concurrent counters lose no update", "statement": "For every number of workers, type size, number of rounds and interleaving of the workers' updates: the sum counter never accesses an entry out of bounds or uninitialised, its value is the sum of the updates made since construction or the last reset (modulo the range of the type), and a value read while updates go on, if the total fits the type, lies between the sum of the updates made before the reading began and that of those made when it ended. The maximum counter holds the largest of 0 and the values offered, in whatever order they take effect; so it does not hold the largest value if all are negative.", "quantifier": "for every number of workers, type size and range, lists of updates, rounds of resets and interleaving", "why_tests_cant": "A lost update or a torn sum shows only under particular interleavings of the loads and stores of the workers.", "anchors": ["gbbs/helpers/atomic_sum_counter.h: atomic_sum_counter::initialize, reset, get_value, update_value", "gbbs/helpers/atomic_max_counter.h: atomic_max_counter::update_value, get_value, reset"]}
{"id": "C93", "title": "Degeneracy order by selection: rounds, bound, and where it fails", "statement": "On every symmetric graph and for every selection that returns one of the values it is given, the Goodrich-Pszona order by selection ends. Where it returns, the result has every vertex once, and is a sequence of rounds, each of which takes exactly the vertices with at most some threshold of edges into those left. If at most b of the values are below the selected one, then in a graph where every non-empty vertex set has a vertex with at most d edges into the set, a vertex removed when m vertices are left has at most 2 d m / (m - b) edges to its own and later rounds; the exact selection has b = ns. If n is positive it returns only if the last round starts with more than ns vertices; otherwise it selects a rank outside the range of the values left, as happens on a path of three vertices with the default epsilon and on a single vertex.", "quantifier": "all symmetric graphs, round sizes ns, selections and result orders of the histogram", "why_tests_cant": "The selection is randomised and approximate, and the degrees depend on all rounds before; the call outside the range reads beyond a sample and may go unnoticed.", "anchors": ["benchmarks/DegeneracyOrder/GoodrichPszona11/DegeneracyOrder.h: DegeneracyOrder"]}
{"id": "C94", "title": "Resizable multi-map holds exactly the pairs inserted", "statement": "For every hash function and every history of construction, calls of maybe_resize and batches of concurrent insertions for which there is room, each followed by update_nelms: the table holds exactly the pairs inserted, each once, and ne is their number; the iterator of a key returns its pairs, each once, num_appearances their number, contains(k) and contains(k, v) the right answer, within as many probes as there are cells. maybe_resize(n) ends, keeps content and count, never loses the table, and leaves room for n insertions. Under every schedule an insertion ends within 3 m of its own steps (m cells), and the number of insertions that return true is the growth of the table. Without room a lookup may never end.", "quantifier": "all hash functions, histories, batches, keys, values and interleavings", "why_tests_cant": "Collisions, interleavings of insertions and moments of resizing are unlimited.", "anchors": ["gbbs/helpers/resizable_table.h: resizable_table::insert, maybe_resize, update_nelms, num_appearances, contains, entries, get_iter; iter_kv"]}
{"id": "C95", "title": "Dense edge reduction combines all edges of a vertex, whatever the schedule", "statement": "For every graph, non-empty frontier, condition, map function, monoid and apply function acting on the data of its vertex: under every order of the vertices and every bracketing of the reductions, edgeMapReduce_dense calls the apply function once for each vertex that satisfies the condition, with the combination in order of all its mapped edges (the identity if it has none), and for no other; the subset returned has exactly the vertices for which it returned a value, with that value, and no vertex if no output was asked for. The members of the frontier do not matter. With an empty frontier nothing is applied and the subset returned has a universe of 0 vertices instead of n. If the operation is not associative the result can depend on the bracketing.", "quantifier": "all graphs, frontiers, conditions, map and apply functions, monoids, orders and bracketings", "why_tests_cant": "The order of the iterations and the bracketing of the reductions vary from run to run, and the functions are arbitrary.", "anchors": ["gbbs/edge_map_reduce.h: EdgeMap::edgeMapReduce_dense", "gbbs/vertex.h: uncompressed_neighbors::reduce"]}
{"id": "C96", "title": "The neighbour iterators hand out the right edges and stay inside the vertex", "statement": "For every uncompressed vertex with at least one edge, stored in an array that may go on with the edges of other vertices: the current value of its iterator followed by calls of next is its edges in order, has_next tells exactly whether there is another, and a call of next without asking hands out what follows in the array, or reads behind its end. For every predicate, the filtering iterator built on it gives, as current value followed by calls of next, exactly the edges that satisfy the predicate, in order, without reading behind the edges of the vertex; when they are used up, or if there is none, it gives the last edge of the vertex from then on, whether or not it satisfies the predicate. The iterator of an isolated vertex has no current value, and building a filtering iterator on it reads that value. Intersecting two sorted neighbour lists through their iterators, as clique peeling does, reports every common neighbour that is kept exactly once, in increasing order, then their number, and reads nothing behind the edges of the two vertices.", "quantifier": "all edge lists, array contents behind them, predicates and numbers of calls", "why_tests_cant": "Reads one past the end land in the edges of the next vertex and look like good data; all lengths, predicates and numbers of calls are covered only by induction.", "anchors": ["gbbs/vertex.h: vertex_ops::iter, get_iter", "gbbs/bridge.h: filter_iter, make_filter_iter", "benchmarks/CliqueCounting/peel.h: vtx_intersect"]}
