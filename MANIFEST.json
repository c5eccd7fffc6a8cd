{
 "claims": [
  {
   "property": "C01",
   "status": "proved",
   "theorems": [
    "C01_first_edge_roundtrip",
    "C01_gap_roundtrip",
    "C01_weight_roundtrip",
    "C01_zero_gap_writes_nothing",
    "C01_int_min_weight_refuted"
   ],
   "note": "byte.h codec primitives; INT_MIN weights and zero gaps are refuted cases (see DESIGN.md findings)"
  },
  {
   "property": "C02",
   "status": "proved",
   "theorems": [
    "C02_byte_list_roundtrip",
    "C02_repeated_neighbour_refuted"
   ],
   "note": "byte.h sequentialCompressEdgeSet then decode, for any surrounding bytes; repeated neighbour counterexample"
  },
  {
   "property": "C03",
   "status": "proved",
   "theorems": [
    "C03_byte_early_exit",
    "C03_byte_map_reduce",
    "C03_byte_filter"
   ],
   "note": "byte.h decode with arbitrary stateful callback, map_reduce, filter"
  },
  {
   "property": "C04",
   "status": "proved",
   "theorems": [
    "C04_byte_pack"
   ],
   "note": "byte.h pack, in place; result decodes to the filtered list, bytes outside the original encoding unchanged"
  },
  {
   "property": "C05",
   "status": "proved",
   "theorems": [
    "C05_pd_decode",
    "C05_pd_roundtrip",
    "C05_pd_map_reduce",
    "C05_pd_filter_iter",
    "C05_pd_float_weight_refuted",
    "C05_pd_distance_2_31_refuted"
   ],
   "note": "PDModel.v models byte_pd.h/byte_pd.cc for any block size B>=1 (code: 1000). Float weights and distance 2^31 refuted."
  },
  {
   "property": "C06",
   "status": "proved",
   "theorems": [
    "C06_pd_pack_one_block",
    "C06_pd_pack_large_refuted",
    "C06_pd_pack_degree_zero_refuted"
   ],
   "note": "Packing one block proved; degree above one block and degree 0 refuted."
  },
  {
   "property": "C07",
   "status": "proved",
   "theorems": [
    "C07_readers_after_any_packs",
    "C07_fresh",
    "C07_packing_is_defined",
    "C07_pack_100_blocks_refuted",
    "C07_pack_degree_zero_refuted",
    "C07_get_ith_neighbor_refuted",
    "C07_simple_iter_packed_refuted"
   ],
   "note": "Full history theorem: any number of packs, any schedules, every reader; frame (repack fits); definedness below 100 blocks; departures as _refuted theorems."
  },
  {
   "property": "C08",
   "status": "proved",
   "theorems": [
    "C08_int_weights_survive",
    "C08_other_weights_refuted",
    "C08_other_weights_neighbours_refuted"
   ],
   "note": "int and empty weights: round trip; other types: encoding independent of the weights, plus a concrete wrong decode."
  },
  {
   "property": "C09",
   "status": "proved",
   "theorems": [
    "C09_ith_neighbor_is_previous",
    "C09_ith_neighbor_refuted"
   ],
   "note": "the intended property is false of the code for every list; the theorem states what is returned"
  },
  {
   "property": "C10",
   "status": "proved",
   "theorems": [
    "C10_pd_block_degree",
    "C10_pd_block_degree_sum",
    "C10_pd_block_degree_multiple_refuted"
   ],
   "note": "Exact value of every reported block degree, including the wrong value at multiples of the block size."
  },
  {
   "property": "C11",
   "status": "proved",
   "theorems": [
    "C11_write_min_linearizable",
    "C11_write_max_linearizable",
    "C11_write_min_final",
    "C11_write_max_final",
    "C11_write_min_monotone",
    "C11_write_max_monotone",
    "C11_write_min_returns",
    "C11_write_max_returns"
   ],
   "note": "value type Z with its order; linearization, final value, monotonicity, and a bound on own steps"
  },
  {
   "property": "C12",
   "status": "proved",
   "theorems": [
    "C12_fetch_and_add_linearizable",
    "C12_write_add_linearizable",
    "C12_fetch_and_add_final",
    "C12_write_add_final",
    "C12_fetch_and_add_returns"
   ],
   "note": "unsigned w-bit location, sums modulo 2^w"
  },
  {
   "property": "C13",
   "status": "proved",
   "theorems": [
    "C13_threshold_linearizable",
    "C13_threshold_bound",
    "C13_threshold_sum",
    "C13_threshold_failed_saw"
   ],
   "note": "bound and sum under the no-overflow hypothesis threshold + largest argument < 2^w; linearizable without it"
  },
  {
   "property": "C14",
   "status": "proved",
   "theorems": [
    "C14_conversions",
    "C14_wrong_count_aborts"
   ],
   "note": "All constructors and conversion histories; data of any type. Conversions never abort (option outcome excluded)."
  },
  {
   "property": "C15",
   "status": "proved",
   "theorems": [
    "C15_add",
    "C15_both_representations_refuted"
   ],
   "note": "C15_add for one representation; C15_both_representations_refuted exhibits the stale representation."
  },
  {
   "property": "C16",
   "status": "proved",
   "theorems": [
    "C16_vertexFilter"
   ],
   "note": "All modes and flags, any data type."
  },
  {
   "property": "C17",
   "status": "proved",
   "theorems": [
    "C17_edgeMap",
    "C17_modes",
    "C17_terminates"
   ],
   "note": "Interleaving semantics with one shared access per step; edgeMapSparse and edgeMapBlocked are commented-out code and not modelled. Sequential consistency assumed."
  },
  {
   "property": "C18",
   "status": "proved",
   "theorems": [
    "C18_chunked",
    "C18_chunked_uncompressed",
    "C18_edges_listed",
    "C18_bytepd_full_block_refuted",
    "C18_large_elements_refuted"
   ],
   "note": "Two refutation theorems show where the conditions fail (block-parallel byte format with full blocks; output elements above 16 bytes)."
  },
  {
   "property": "C19",
   "status": "proved",
   "theorems": [
    "C19_next_bucket",
    "C19_no_repeats",
    "C19_drain",
    "C19_one_argument_loses_refuted",
    "C19_repeats_refuted"
   ],
   "note": "next_bucket over all histories (run), no repeats under two move disciplines, drain; limits as _refuted theorems. The caller's D is read through an argument of each call."
  },
  {
   "property": "C20",
   "status": "proved",
   "theorems": [
    "C20_update",
    "C20_parallel_update",
    "C20_in_histories"
   ],
   "note": "update_par = update_seq for every permutation of the stores and every block-size constant g (4096 in the code)"
  },
  {
   "property": "C21",
   "status": "proved",
   "theorems": [
    "C21_intersect",
    "C21_always_terminates"
   ],
   "note": "Sorted lists as in symmetric graphs; binary search by specification. The byte-format variants are not part of this theorem."
  },
  {
   "property": "C22",
   "status": "proved",
   "theorems": [
    "C22_parallel",
    "C22_repeated_neighbours_refuted",
    "C22_base_one_diverges"
   ],
   "note": "Thresholds are parameters, so the constants 2048 and 32 are instances."
  },
  {
   "property": "C23",
   "status": "proved",
   "theorems": [
    "C23_symmetric",
    "C23_asymmetric",
    "C23_weight_symmetry_refuted"
   ],
   "note": "sort is any function returning a sorted permutation; stores applied in any order, out-of-bounds = None"
  },
  {
   "property": "C24",
   "status": "proved",
   "theorems": [
    "C24_default_n_covers",
    "C24_default_n_refuted"
   ],
   "note": "positive part and the general refutation of the documented default"
  },
  {
   "property": "C25",
   "status": "proved",
   "theorems": [
    "C25_undirected",
    "C25_directed",
    "C25_only_self_loops_refuted"
   ],
   "note": "undirected, directed and the all-self-loops refutation"
  },
  {
   "property": "C26",
   "status": "proved",
   "theorems": [
    "C26_unweighted",
    "C26_weighted",
    "C26_large_weights_refuted"
   ],
   "note": "characters, tokens and decimal digits modelled; float conversion modelled on integers"
  },
  {
   "property": "C27",
   "status": "proved",
   "theorems": [
    "C27_bytes_read",
    "C27_page_multiples_refuted"
   ],
   "note": "exact characterisation of what is read"
  },
  {
   "property": "C28",
   "status": "proved",
   "theorems": [
    "C28_insert",
    "C28_find",
    "C28_capacity",
    "C28_overfull",
    "C28_insert_f",
    "C28_insert_check"
   ],
   "note": "all interleavings at one shared access per step; value store of insert and f of insert_f are one step"
  },
  {
   "property": "C29",
   "status": "proved",
   "theorems": [
    "C29_sums",
    "C29_lookup_ends",
    "C29_lookup_diverges_refuted"
   ],
   "note": "counterexample part: C29_lookup_diverges_refuted holds for every hash function and fuel"
  },
  {
   "property": "C30",
   "status": "proved",
   "theorems": [
    "C30_counts",
    "C30_pairs",
    "C30_pairs_sum_refuted",
    "C30_insertF",
    "C30_compact"
   ],
   "note": "C30_pairs_sum_refuted shows the plain sum claim fails"
  },
  {
   "property": "C31",
   "status": "proved",
   "theorems": [
    "C31_filter_seq",
    "C31_filterf",
    "C31_filterf_out",
    "C31_filter_index"
   ],
   "note": "uncompressed filters of bridge.h; any order of blocks and stores"
  },
  {
   "property": "C32",
   "status": "proved",
   "theorems": [
    "C32_counting_sort",
    "C32_last_boundary_refuted"
   ],
   "note": "number of blocks arbitrary (the code computes it with floating point); the unwritten last boundary of the sequential branch is shown by C32_last_boundary_refuted"
  },
  {
   "property": "C33",
   "status": "proved",
   "theorems": [
    "C33_filter_edges",
    "C33_filter_all_edges",
    "C33_sample_edges",
    "C33_filter_graph",
    "C33_packEdges",
    "C33_packEdges_stale_m_refuted"
   ],
   "note": "uncompressed graphs; stale G.m after packEdges shown by C33_packEdges_stale_m_refuted"
  },
  {
   "property": "C34",
   "status": "proved",
   "theorems": [
    "C34_relabel",
    "C34_id_n_refuted"
   ],
   "note": "ids < n; the id n excluded from the count shown by C34_id_n_refuted"
  },
  {
   "property": "C35",
   "status": "proved",
   "theorems": [
    "C35_no_fault_and_sound",
    "C35_returned_insert_is_joined",
    "C35_trees_never_split",
    "C35_partition_when_all_returned",
    "C35_splice_atomic_refuted",
    "C35_calls_end",
    "C35_waiting_refuted"
   ],
   "note": "All strategies except splice_atomic proved; splice_atomic refuted by a 7-vertex schedule. Termination (wait-free bound) for the strategies without locks and hooks, refuted for the two others. Sequentially consistent memory."
  },
  {
   "property": "C36",
   "status": "proved",
   "theorems": [
    "C36_union_find_components",
    "C36_union_find_components_sampled",
    "C36_simple_union_async",
    "C36_early_after_ldd_sampling_refuted",
    "C36_phases_end",
    "C36_labels_exist"
   ],
   "note": "labels = components when every thread has returned; refutation for UniteEarly on a sampled forest with larger-id centres"
  },
  {
   "property": "C37",
   "status": "proved",
   "theorems": [
    "C37_bfs"
   ],
   "note": "Every round is any traversal edgeMap may choose, with any interleaving; existence of a result, round bound and full correctness."
  },
  {
   "property": "C38",
   "status": "proved",
   "theorems": [
    "C38_bellman_ford",
    "C38_round_terminates"
   ],
   "note": "Weights are unbounded integers; overflow of SP[s]+edgeLen is not modelled."
  },
  {
   "property": "C39",
   "status": "proved",
   "theorems": [
    "C39_kcore",
    "C39_degeneracy_order",
    "C39_order_with_load_refuted",
    "C39_fetch_add_refuted"
   ],
   "note": "The neighbour histogram enters by its specification (counted), proved of the code in C51."
  },
  {
   "property": "C40",
   "status": "proved",
   "theorems": [
    "C40_coloring",
    "C40_colors",
    "C40_delta_colors_refuted"
   ],
   "note": "Edge map with counters (CDModel: tasks of EMModel, test and fetch-and-add as separate steps) and the colouring loop (GCModel); a root reads neighbour colours before or after they are written. C40_delta_colors_refuted gives the counterexample to Delta+1 colours."
  },
  {
   "property": "C41",
   "status": "proved",
   "theorems": [
    "C41_rootset",
    "C41_speculative"
   ],
   "note": "Root-set loop over the visit-once and counting-down traversals, and eff_for with the reserve/commit step (MIModel)."
  },
  {
   "property": "C42",
   "status": "proved",
   "theorems": [
    "C42_maximal_matching",
    "C42_batch_greedy",
    "C42_terminates",
    "C42_terminates_sparse",
    "C42_deterministic",
    "C42_small_dense_aborts",
    "C42_abort_refuted",
    "C42_hang_refuted"
   ],
   "note": "get_edges, matchStep, eff_for and the outer loop of RandomGreedy/MaximalMatching.h; block size, sample bound and samples arbitrary; TOP_BIT marks as a set of indices (vertex ids below 2^31). Termination proved under a stated condition, and refuted without it: abort (maxTries = G.n) and an endless loop (idx tested instead of cur_id)."
  },
  {
   "property": "C43",
   "status": "proved",
   "theorems": [
    "C43_kruskal",
    "C43_int32",
    "C43_no_edges_refuted",
    "C43_overflow_refuted"
   ],
   "note": "edges(), sort (any order by weight), find_compress/Unite run alone and the greedy loop modelled; 32-bit overflow of the running weight and the read of edges[0] are explicit outcomes. Integer weights."
  },
  {
   "property": "C44",
   "status": "proved",
   "theorems": [
    "C44_round",
    "C44_never_too_short",
    "C44_distances",
    "C44_one_at_a_time",
    "C44_every_execution_refuted"
   ],
   "note": "Every execution is covered by C44_round and C44_never_too_short; exact distances for executions whose reports are in the right bucket (C44_distances), in particular one relaxation at a time (C44_one_at_a_time); C44_every_execution_refuted gives the lost vertex."
  },
  {
   "property": "C45",
   "status": "proved",
   "theorems": [
    "C45_label_propagation",
    "C45_components",
    "C45_least_vertex",
    "C45_round_terminates"
   ],
   "note": "Both argument evaluation orders of lp_less; no sampling."
  },
  {
   "property": "C46",
   "status": "proved",
   "theorems": [
    "C46_bfscc",
    "C46_isolated_refuted"
   ],
   "note": "C46_isolated_refuted: the labels do not identify the components when there are isolated vertices."
  },
  {
   "property": "C47",
   "status": "proved",
   "theorems": [
    "C47_forest",
    "C47_only_tree_edges_refuted",
    "C47_small",
    "C47_always_returns_refuted"
   ],
   "note": "the intended statement (only tree edges) is refuted for every graph with an edge by C47_only_tree_edges_refuted; hang by C47_always_returns_refuted"
  },
  {
   "property": "C48",
   "status": "proved",
   "theorems": [
    "C48_triangles",
    "C48_by_degree",
    "C48_finishes",
    "C48_ties_refuted"
   ],
   "note": "CountDirectedBalanced with its work blocks, rankNodes, filterGraph (C33) and intersect_f_par (C22) modelled; uncompressed unweighted graphs only, arithmetic unbounded."
  },
  {
   "property": "C49",
   "status": "proved",
   "theorems": [
    "C49_in_neighbours",
    "C49_uninitialised_refuted",
    "C49_no_edges_refuted"
   ],
   "note": "text readers; refutations for the uninitialised cell and for m = 0"
  },
  {
   "property": "C50",
   "status": "proved",
   "theorems": [
    "C50_resize"
   ],
   "note": ""
  },
  {
   "property": "C51",
   "status": "proved",
   "theorems": [
    "C51_histogram",
    "C51_empty_key_refuted",
    "C51_neighbours"
   ],
   "note": "All branches (sequential, medium, heavy keys), with keys that may equal the empty key; the probing table from heavy keys to indices is modelled by its effect."
  },
  {
   "property": "C52",
   "status": "proved",
   "theorems": [
    "C52_edges"
   ],
   "note": "Uncompressed graphs."
  },
  {
   "property": "C53",
   "status": "proved",
   "theorems": [
    "C53_clusters",
    "C53_finishes",
    "C53_returns",
    "C53_first_round"
   ],
   "note": "all edgeMap machine runs; increments abstract: each >= 1 and covering n"
  },
  {
   "property": "C54",
   "status": "proved",
   "theorems": [
    "C54_components",
    "C54_levels",
    "C54_small",
    "C54_always_returns_refuted"
   ],
   "note": "contraction table is the concurrent table machine; C54_always_returns_refuted gives the hanging family"
  },
  {
   "property": "C55",
   "status": "proved",
   "theorems": [
    "C55_distances",
    "C55_terminates"
   ],
   "note": "All interleavings; distances below 2^31; weights non-negative."
  },
  {
   "property": "C56",
   "status": "proved",
   "theorems": [
    "C56_components",
    "C56_least_vertex",
    "C56_round_terminates",
    "C56_first_batch",
    "C56_batches_refuted"
   ],
   "note": "compute_components for every symmetric graph, sampled start, skipped label, hook order and interleaving, with a bound on the rounds and a bound on the steps of every interleaving; process_batch: first batch proved, sequences of batches refuted by a concrete run."
  },
  {
   "property": "C57",
   "status": "proved",
   "theorems": [
    "C57_without_alter",
    "C57_with_alter",
    "C57_single_shortcut_refuted",
    "C57_extended_alter_refuted",
    "C57_sampled_alter_refuted",
    "C57_stergiou_refuted"
   ],
   "note": "Full-shortcut variants and EUS proved for all graphs and schedules (identity start); PUS, PRS, CUSA, CRSA, PUSA, PRSA, EUSA, sampled starts with alter + simple update, and Stergiou refuted by concrete runs."
  },
  {
   "property": "C58",
   "status": "proved",
   "theorems": [
    "C58_peeling",
    "C58_charikar",
    "C58_charikar_refuted",
    "C58_greedy_plus_plus_exits"
   ],
   "note": "Exact fractions instead of doubles; the simple (first-round/loop) peeling with edgeMapCount in either mode. Charikar on top of the degeneracy order of C39; refutations on K2, K3 and for GreedyPlusPlus in general."
  },
  {
   "property": "C59",
   "status": "proved",
   "theorems": [
    "C59_level",
    "C59_default",
    "C59_atomic",
    "C59_directed_refuted",
    "C59_source"
   ],
   "note": "C59_default: the default (BFS) version on every graph. C59_atomic: the other two versions when every vertex with an incoming edge has an outgoing one. C59_directed_refuted: they are wrong on a directed path. C59_level and C59_source explain the vocabulary. Doubles are exact rationals with one value that is not finite; rounding is not modelled."
  },
  {
   "property": "C60",
   "status": "proved",
   "theorems": [
    "C60_widest",
    "C60_terminates",
    "C60_large_weights_refuted",
    "C60_bellman_ford"
   ],
   "note": "All interleavings, unbounded graphs and weights. Words are naturals below 2*half (half = 2^31). Weights at or above num_buckets - 1: refuted by a witness with the default 128 buckets."
  },
  {
   "property": "C61",
   "status": "proved",
   "theorems": [
    "C61_count",
    "C61_orderings",
    "C61_enum",
    "C61_returns",
    "C61_large_k_refuted",
    "C61_edge_save_space_refuted",
    "C61_block_refuted"
   ],
   "note": "C61_count and C61_enum for every order, every assignment of iterations to workers; C61_orderings, C61_returns; C61_large_k_refuted (k >= 130), C61_edge_save_space_refuted, C61_block_refuted for the cases that fail. K = 3 goes through the triangle count of C48."
  },
  {
   "property": "C62",
   "status": "proved",
   "theorems": [
    "C62_ranks",
    "C62_later",
    "C62_first_round",
    "C62_approx_refuted",
    "C62_barenboim_elkin_refuted"
   ],
   "note": "Degrees modulo null + 1; integer_sort by its specification without stability; epsilon a fraction (floating-point rounding of the round size and of the cutoff not modelled). The false parts of the documented claims are C62_approx_refuted and C62_barenboim_elkin_refuted."
  },
  {
   "property": "C63",
   "status": "proved",
   "theorems": [
    "C63_components",
    "C63_num_scc",
    "C63_returns",
    "C63_full_refuted"
   ],
   "note": "Search_F calls interleave at single table operations; the table is a set of pairs with a capacity (insert, contains and key iteration by specification). first_search reuses the visit-once edgeMap of C30. C63_full_refuted is the non-terminating case."
  },
  {
   "property": "C64",
   "status": "proved",
   "theorems": [
    "C64_boruvka",
    "C64_heavy",
    "C64_heavy_refuted",
    "C64_self_loop_refuted"
   ],
   "note": "Edge ids are unbounded (fewer than 2^31 edges in a batch); sampling over-approximated. The edge filtering is the model of C33."
  },
  {
   "property": "C65",
   "status": "proved",
   "theorems": [
    "C65_set_cover",
    "C65_size",
    "C65_exact",
    "C65_hang_refuted",
    "C65_redundant_refuted"
   ],
   "note": "Level functions computed in floating point are parameters with stated consistency hypotheses (met by exact arithmetic: C65_exact). Size bound is the one the code achieves; redundancy and the endless loop under a saturating conversion are refutation theorems."
  },
  {
   "property": "C66",
   "status": "proved",
   "theorems": [
    "C66_spanner",
    "C66_returns"
   ],
   "note": "The increments of the shifts are abstract (each at least 1, together at least n), as in C53; r is their number."
  },
  {
   "property": "C67",
   "status": "proved",
   "theorems": [
    "C67_labels",
    "C67_count",
    "C67_returns"
   ],
   "note": "Ids below top = TOP_BIT; parlay sort, scan and filter by specification; the file that carries the labels to the stats program and deterministic_multi_bfs are not modelled."
  },
  {
   "property": "C68",
   "status": "proved",
   "theorems": [
    "C68_serial",
    "C68_parallel",
    "C68_parallel_no_edges",
    "C68_no_scheduling",
    "C68_escape",
    "C68_escape_par",
    "C68_runs",
    "C68_ranks",
    "C68_self_loops_refuted",
    "C68_larger_graph_refuted"
   ],
   "note": "Counts, runs and ranks are theorems for all graphs; the three exceptions are theorems with witnesses. Count5Cycle_experiment and sparsification are not modelled."
  },
  {
   "property": "C69",
   "status": "proved",
   "theorems": [
    "C69_index",
    "C69_cluster",
    "C69_cluster_runs",
    "C69_cores",
    "C69_deterministic",
    "C69_cluster_many",
    "C69_cluster_many_runs",
    "C69_ends",
    "C69_zero_similarity_refuted"
   ],
   "note": "AllEdges by specification (each ordered pair of neighbours once); C69_zero_similarity_refuted is the exception for similarity 0"
  },
  {
   "property": "C70",
   "status": "proved",
   "theorems": [
    "C70_intersect",
    "C70_ranks",
    "C70_similarities",
    "C70_jaccard",
    "C70_cosine",
    "C70_scan",
    "C70_weights_refuted",
    "C70_self_loop_refuted"
   ],
   "note": "All four merge routines, the counters as atomic additions in any order, and the stores; composed with C69 in C70_scan. Refutations: 32-bit counters with weights, self loops."
  },
  {
   "property": "C71",
   "status": "proved",
   "theorems": [
    "C71_tables",
    "C71_similarities",
    "C71_cluster",
    "C71_unique",
    "C71_agrees",
    "C71_self_loop_refuted"
   ],
   "note": "End to end from the graph through the hash tables of C28 to the lists of clusters; agreement with the index clusterings of C69. Self loops refuted."
  },
  {
   "property": "C72",
   "status": "proved",
   "theorems": [
    "C72_compact",
    "C72_compact_ends",
    "C72_unique",
    "C72_out_of_range",
    "C72_type",
    "C72_type_ends"
   ],
   "note": "Any interleaving of single accesses, sequential consistency; unbounded clusterings."
  },
  {
   "property": "C73",
   "status": "proved",
   "theorems": [
    "C73_collect_reduce",
    "C73_weighted",
    "C73_unweighted",
    "C73_at_most_1",
    "C73_at_most_1_unweighted",
    "C73_names",
    "C73_renumbered",
    "C73_one_cluster",
    "C73_self_loop_refuted",
    "C73_zero_weight_refuted"
   ],
   "note": "Exact rationals for doubles (rounding not modelled), uintT without overflow; parlay's sort, counts, scan and reduce by specification."
  },
  {
   "property": "C74",
   "status": "proved",
   "theorems": [
    "C74_edgemap",
    "C74_undirected",
    "C74_converges",
    "C74_defaults",
    "C74_stationary",
    "C74_few_iterations_refuted",
    "C74_directed_refuted",
    "C74_infinite_refuted",
    "C74_delta_refuted"
   ],
   "note": "Full statement over exact rationals; theorems named _refuted are the counterexample parts."
  },
  {
   "property": "C75",
   "status": "proved",
   "theorems": [
    "C75_compressed",
    "C75_compressed_directed",
    "C75_converter",
    "C75_batches_refuted",
    "C75_block_size_refuted",
    "C75_binary",
    "C75_binary_directed"
   ],
   "note": "Tuple layout and alignment as in libstdc++/x86; the source graph is given by its adjacency lists; the directed converter and the byte/bytepd writers are left out."
  },
  {
   "property": "C76",
   "status": "proved",
   "theorems": [
    "C76_sound",
    "C76_ranks",
    "C76_returned_insert_is_joined",
    "C76_trees_never_split",
    "C76_partition_when_all_returned",
    "C76_calls_end",
    "C76_call_steps",
    "C76_components",
    "C76_components_sampled",
    "C76_spanning_forest",
    "C76_spanning_forest_sampled"
   ],
   "note": "Single accesses as steps, coins part of the schedule; flat initial labels. The sampled spanning forest is a hypothesis of C76_spanning_forest_sampled (edges of the graph, forest, free entries of roots)."
  },
  {
   "property": "C77",
   "status": "proved",
   "theorems": [
    "C77_spanning_forest",
    "C77_sound",
    "C77_spanning_forest_sampled",
    "C77_rem_cas_refuted",
    "C77_bfs_sampling_refuted"
   ],
   "note": "For Unite, UniteEarly, UniteND, UniteRemLock; the failures of UniteRemCAS and of BFS sampling are theorems. Termination of the calls is not claimed (UniteRemLock blocks)."
  },
  {
   "property": "C78",
   "status": "proved",
   "theorems": [
    "C78_start_unsampled",
    "C78_shiloach_vishkin",
    "C78_liu_tarjan",
    "C78_rounds",
    "C78_shortcut_refuted"
   ],
   "note": "Spanning forest and component labels for both algorithms from every admissible start, round bound and progress; the single-shortcut variants are refuted by concrete runs."
  },
  {
   "property": "C79",
   "status": "proved",
   "theorems": [
    "C79_bfs_forest",
    "C79_bfs_forest_det",
    "C79_deterministic",
    "C79_rounds",
    "C79_round_terminates"
   ],
   "note": "Exact traversal and interleaving model; deterministic version assumes adjacency lists without repetitions."
  },
  {
   "property": "C80",
   "status": "proved",
   "theorems": [
    "C80_spanning_forest",
    "C80_start_unsampled",
    "C80_bfs_trees",
    "C80_round_terminates"
   ],
   "note": "All interleavings of both traversals; sampled starts through the hypothesis labelled_forest, unsampled starts through C80_start_unsampled."
  },
  {
   "property": "C81",
   "status": "proved",
   "theorems": [
    "C81_independent_set",
    "C81_matching",
    "C81_self_loop_refuted",
    "C81_parallel_edges_refuted"
   ],
   "note": "Queries and drivers; C81_self_loop_refuted and C81_parallel_edges_refuted are the two exceptions in the statement."
  },
  {
   "property": "C82",
   "status": "proved",
   "theorems": [
    "C82_edgemap",
    "C82_undirected",
    "C82_error",
    "C82_early_stop_refuted",
    "C82_directed_refuted"
   ],
   "note": "Exact rational arithmetic; rounding is not modelled. The iterations, the early exit and both result arrays are covered; printing is not."
  },
  {
   "property": "C83",
   "status": "proved",
   "theorems": [
    "C83_peel",
    "C83_count_and_peel",
    "C83_ends",
    "C83_overflow_refuted",
    "C83_approx",
    "C83_approx_density_refuted"
   ],
   "note": "Peel and ApproxPeel with exact arithmetic; the out-of-bounds write with K = 3 and the factor K in ApproxPeel's densities are proved as refutations."
  },
  {
   "property": "C84",
   "status": "proved",
   "theorems": [
    "C84_edgeMapCount",
    "C84_sparse",
    "C84_dense_calls",
    "C84_nghCount_dense",
    "C84_directed_refuted",
    "C84_condition_refuted",
    "C84_nothing_refuted",
    "C84_empty_key_refuted"
   ],
   "note": "EdgeMap::edgeMapCount on undirected graphs in both directions; the sparse direction with any condition; the dense calls; nghCount's dense result. Refuted: directed graphs, condition, empty results, empty key."
  },
  {
   "property": "C85",
   "status": "proved",
   "theorems": [
    "C85_kout_sampling",
    "C85_kout_choices",
    "C85_kout_round_ends",
    "C85_afforest_all_rounds",
    "C85_bfs_sampling",
    "C85_bfs_ends",
    "C85_bfs_self_loop_refuted",
    "C85_samplers",
    "C85_components",
    "C85_ends",
    "C85_early_after_kout",
    "C85_early_after_bfs_refuted"
   ],
   "note": "Both samplers are modelled access by access; doubles, timers and the random generator are not modelled (any random choice, any frequent label)."
  },
  {
   "property": "C86",
   "status": "proved",
   "theorems": [
    "C86_numbers_to_string",
    "C86_edge_list",
    "C86_edge_list_sorted",
    "C86_upper_edges",
    "C86_upper_edges_refuted",
    "C86_no_edges_undefined",
    "C86_reorder",
    "C86_reorder_sorted_refuted"
   ],
   "note": "Text as lists of characters with decimal numbers as in C26; a store outside an array or reading an empty one is undefined. Loop iterations in any order. The permutation and std::sort are arbitrary (a permutation). operator>> is modelled on tokens of digits. Vertex ids below 2^32."
  },
  {
   "property": "C87",
   "status": "proved",
   "theorems": [
    "C87_ba_attachment",
    "C87_ba_connected",
    "C87_ba_defined",
    "C87_ba_empty_undefined",
    "C87_ba_ends",
    "C87_ba_simple_refuted",
    "C87_ba_ids_out_of_range",
    "C87_rmat",
    "C87_rmat_repeats",
    "C87_rmat_ids_refuted",
    "C87_rmat_undefined",
    "C87_rmat_aborts"
   ],
   "note": "Random numbers and hashes are arbitrary functions; doubles are rationals. Claims about the Barabasi-Albert generator are for runs that return (fuel for the rejection loops), with a separate theorem that it returns for fair streams. The numbers drawn for a vertex are kept in a list instead of being read back from the slots just written. parlay::log2_up by specification."
  },
  {
   "property": "C88",
   "status": "proved",
   "theorems": [
    "C88_relabel",
    "C88_relabel_groups_refuted",
    "C88_cc_check",
    "C88_cc_check_accepts",
    "C88_cc_check_refuted",
    "C88_relabel_out_of_bounds",
    "C88_forest_check",
    "C88_double_edges",
    "C88_forest_check_refuted",
    "C88_num_cc",
    "C88_largest_cc"
   ],
   "note": "The checks are characterised exactly; the refutations show wrong results they accept. from_edges and CC are a parameter of the forest check, required only to label components."
  },
  {
   "property": "C89",
   "status": "proved",
   "theorems": [
    "C89_history",
    "C89_append_defined",
    "C89_push_back_refuted",
    "C89_memory",
    "C89_cost",
    "C89_to_seq",
    "C89_to_seq_leak_refuted",
    "C89_del_reuse_refuted"
   ],
   "note": "size_t is unbounded in the model. Freeing a null pointer counts as undefined; no theorem relies on it."
  },
  {
   "property": "C90",
   "status": "proved",
   "theorems": [
    "C90_sound",
    "C90_first_batch",
    "C90_first_batch_ends",
    "C90_later_batches_refuted"
   ],
   "note": "soundness for all variants and histories; exactness and termination of the first batch for the flat variants; loss in later batches for every variant. The loop counter of the code is the index of the loop relation."
  },
  {
   "property": "C91",
   "status": "proved",
   "theorems": [
    "C91_option",
    "C91_value",
    "C91_int",
    "C91_long",
    "C91_double",
    "C91_positions",
    "C91_confused_refuted"
   ],
   "note": "atoi and atol are modelled by their C standard contract, sscanf's reading of doubles is a parameter; argument positions are at least 0"
  },
  {
   "property": "C92",
   "status": "proved",
   "theorems": [
    "C92_fresh",
    "C92_sum",
    "C92_concurrent_read",
    "C92_max",
    "C92_max_negative_refuted"
   ],
   "note": "Sum and maximum counters under arbitrary interleavings: value, concurrent reads, reset; the maximum of negative values is refuted."
  },
  {
   "property": "C93",
   "status": "proved",
   "theorems": [
    "C93_rounds",
    "C93_bound",
    "C93_exact",
    "C93_range",
    "C93_range_refuted"
   ],
   "note": "Order by selection: rounds, bound for degenerate graphs, exact selection, calls outside the range of the selection."
  },
  {
   "property": "C94",
   "status": "proved",
   "theorems": [
    "C94_content",
    "C94_lookup",
    "C94_resize",
    "C94_insert",
    "C94_full_refuted"
   ],
   "note": "Table under histories of concurrent insertion batches and resizing; lookups; a lookup in a full table is refuted to end."
  },
  {
   "property": "C95",
   "status": "proved",
   "theorems": [
    "C95_dense",
    "C95_empty",
    "C95_universe_refuted",
    "C95_order_refuted"
   ],
   "note": "Dense reduction for any monoid, order and bracketing; the universe for an empty frontier and non-associative operations are refuted."
  },
  {
   "property": "C96",
   "status": "proved",
   "theorems": [
    "C96_iter",
    "C96_filter_iter",
    "C96_filter_exact",
    "C96_end_refuted",
    "C96_isolated",
    "C96_intersect"
   ],
   "note": "Both iterators with the array behind the vertex; what happens at the end is stated exactly, with a refutation of the natural expectation."
  }
 ]
}