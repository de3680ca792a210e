{
 "claims": [
  {
   "property": "C01",
   "status": "proved",
   "theorems": [
    "C01_edge_list_exact",
    "C01_bipartite_edge_list_exact",
    "C01_largest_id_wraps_refuted",
    "C01_count_cut",
    "C01_bipartite_count_cut",
    "C01_open_then_closed",
    "C01_reopened"
   ],
   "note": "Unipartite and bipartite; the id bound is necessary (refuted at id W-1 for every width W)."
  },
  {
   "property": "C02",
   "status": "proved",
   "theorems": [
    "C02_directed_csr_exact"
   ],
   "note": "All legal sort outcomes; both constructors; idx 0 and 1."
  },
  {
   "property": "C03",
   "status": "proved",
   "theorems": [
    "C03_undirected_csr_exact",
    "C03_undirected_csr_symmetric"
   ],
   "note": "Row contents and multiplicity symmetry."
  },
  {
   "property": "C04",
   "status": "proved",
   "theorems": [
    "C04_full_iteration_out_of_bounds",
    "C04_explicit_size_iteration_ok",
    "C04_triangularize_out_of_bounds",
    "C04_from_vectors"
   ],
   "note": "Universal statement of the out-of-bounds behaviour, plus the explicit-size constructor being fine, plus triangularize as an affected library function."
  },
  {
   "property": "C05",
   "status": "proved",
   "theorems": [
    "C05_push_back_rows",
    "C05_last_source_dropped"
   ],
   "note": "Positive statement and the universal statement that the largest source is dropped when it reaches the constructed size."
  },
  {
   "property": "C06",
   "status": "proved",
   "theorems": [
    "C06_source_unique_row"
   ],
   "note": "For any monotone index array."
  },
  {
   "property": "C07",
   "status": "proved",
   "theorems": [
    "C07_sorted_rows_attributes_stay",
    "C07_attribute_pairing_refuted"
   ],
   "note": "Rows sorted, attribute column unmoved (universal), attribute detachment witness."
  },
  {
   "property": "C08",
   "status": "proved",
   "theorems": [
    "C08_triangularize_exact"
   ],
   "note": "Built graphs with explicit size, both directions."
  },
  {
   "property": "C09",
   "status": "proved",
   "theorems": [
    "C09_permute_by_degree_involution",
    "C09_sort_by_degree_involution",
    "C09_permute_by_degree_refuted"
   ],
   "note": "Positive part under involution; refutation by two witnesses (scrambled rows, out-of-bounds write)."
  },
  {
   "property": "C10",
   "status": "proved",
   "theorems": [
    "C10_degrees_directed",
    "C10_degrees_undirected",
    "C10_degrees_every_schedule",
    "C10_csr_degrees_agree"
   ],
   "note": "Directed, undirected, every schedule, agreement with CSR degrees."
  },
  {
   "property": "C11",
   "status": "proved",
   "theorems": [
    "C11_perm_by_degree_sorted"
   ],
   "note": ""
  },
  {
   "property": "C12",
   "status": "proved",
   "theorems": [
    "C12_relabel_isomorphic",
    "C12_relabel_bipartite_one_side",
    "C12_relabel_by_degree_sorted"
   ],
   "note": ""
  },
  {
   "property": "C13",
   "status": "proved",
   "theorems": [
    "C13_swap_to_triangular",
    "C13_uniq_strictly_sorted",
    "C13_remove_self_loops_exact",
    "C13_uniq_keeps_first",
    "C13_cleaning_pipeline",
    "C13_uniq_needs_sort_refuted"
   ],
   "note": ""
  },
  {
   "property": "C14",
   "status": "proved",
   "theorems": [
    "C14_push_back_fill_rows",
    "C14_push_back_fill_out_of_range",
    "C14_vov_rows",
    "C14_vov_grows",
    "C14_undirected_symmetric"
   ],
   "note": ""
  },
  {
   "property": "C15",
   "status": "proved",
   "theorems": [
    "C15_property_graph_exact",
    "C15_plain_graph_exact",
    "C15_index_graph_exact",
    "C15_label_index_total",
    "C15_unknown_label_is_vertex_0"
   ],
   "note": ""
  },
  {
   "property": "C16",
   "status": "proved",
   "theorems": [
    "C16_bipartite_graphs_transposed",
    "C16_join_counts",
    "C16_bipartite_graph_left",
    "C16_bipartite_graph_right_out_of_bounds"
   ],
   "note": ""
  },
  {
   "property": "C17",
   "status": "proved",
   "theorems": [
    "C17_edge_list_roundtrip",
    "C17_directedness_is_not_checked",
    "C17_array_of_structs_roundtrip",
    "C17_size_on_disk",
    "C17_larger_stored_elements_overflow",
    "C17_magic",
    "C17_open_flag",
    "C17_csr_magic",
    "C17_truncated"
   ],
   "note": "Byte-level model; also size on disk, unchecked directedness, and the universal overflow when the stored element size exceeds the receiver's."
  },
  {
   "property": "C18",
   "status": "proved",
   "theorems": [
    "C18_equal_length_exact",
    "C18_prefix_compares_equal",
    "C18_container_comparison"
   ],
   "note": "Equal lengths exact; prefix compares equal; reverse comparison undefined (universal)."
  },
  {
   "property": "C19",
   "status": "proved",
   "theorems": [
    "C19_blocks_tile",
    "C19_blocks_partition",
    "C19_assertions_hold"
   ],
   "note": "Tiling, exact partition, and the code's assertions hold."
  },
  {
   "property": "C20",
   "status": "proved",
   "theorems": [
    "C20_log2_pow2",
    "C20_log2_of_pow2",
    "C20_ceil_log2_least",
    "C20_pow2_assertion_rejects_top_bit"
   ],
   "note": "Binary naturals with explicit widths; also the debug assertion of pow2 rejecting exponent 63."
  },
  {
   "property": "C21",
   "status": "proved",
   "theorems": [
    "C21_get",
    "C21_new_vector_is_clear",
    "C21_concurrent_sets",
    "C21_no_undefined_call"
   ],
   "note": "Small-step interleaving semantics with atomic fetch_or."
  },
  {
   "property": "C22",
   "status": "proved",
   "theorems": [
    "C22_iteration_enumerates_set_bits",
    "C22_split_pieces_concatenate",
    "C22_only_valid_indices",
    "C22_cutoff_zero_never_stops",
    "C22_positive_cutoff_terminates"
   ],
   "note": "Sequential enumeration and any split tree; cutoff 0 is shown to never stop splitting."
  },
  {
   "property": "C23",
   "status": "proved",
   "theorems": [
    "C23_intersection_size",
    "C23_symmetric",
    "C23_set_intersection",
    "C23_unsorted_refuted"
   ],
   "note": "Any sorted ranges with duplicates; symmetry; set case; need of sortedness refuted."
  },
  {
   "property": "C24",
   "status": "proved",
   "theorems": [
    "C24_partition_is_exact",
    "C24_outputs"
   ],
   "note": "Any sequence of find/union/union_find calls."
  },
  {
   "property": "C25",
   "status": "proved",
   "theorems": [
    "C25_find_ignores_argument",
    "C25_unions_never_merge",
    "C25_check_off_by_one",
    "C25_pathcompression_is_correct",
    "C25_root_holds_size",
    "C25_by_height"
   ],
   "note": "Universal statements about the disjoint_set class."
  },
  {
   "property": "C26",
   "status": "proved",
   "theorems": [
    "C26_edge_range_enumerates",
    "C26_edge_range_offset_unchecked",
    "C26_edge_range_splits",
    "C26_plain_and_neighbor_ranges",
    "C26_full_split_terminates",
    "C26_splittable_adaptor",
    "C26_splittable_full_split",
    "C26_splittable_cutoff_zero_never_stops"
   ],
   "note": "edge_range, neighbor_range, plain_range, plain_degree_range and splittable_range_adaptor; arbitrary split trees and the is_divisible-driven split; unchecked offset and cutoff 0 stated universally."
  },
  {
   "property": "C27",
   "status": "proved",
   "theorems": [
    "C27_pieces_partition",
    "C27_full_split_exceeds_cutoff"
   ],
   "note": "cyclic_range_adaptor and cyclic_neighbor_range with C++ truncating remainder; number of pieces of a full split."
  },
  {
   "property": "C28",
   "status": "proved",
   "theorems": [
    "C28_single_pass",
    "C28_split_duplicates",
    "C28_always_divisible",
    "C28_large_not_divisible"
   ],
   "note": "Universal statements, including the signed-difference flip above half the id range."
  },
  {
   "property": "C29",
   "status": "proved",
   "theorems": [
    "C29_bfs_tree",
    "C29_parents_lead_to_root",
    "C29_root_out_of_range"
   ],
   "note": "Serial bfs modelled statement by statement (vector accesses checked, sentinel vmax explicit); a root out of range is Ub."
  },
  {
   "property": "C30",
   "status": "proved",
   "theorems": [
    "C30_verifier_exact",
    "C30_verifier_accepts_bfs"
   ],
   "note": "Verifier modelled with its fixed-capacity FIFO queue, unsigned depth arithmetic and early exits; acceptance iff BFS tree."
  },
  {
   "property": "C31",
   "status": "proved",
   "theorems": [
    "C31_every_schedule_bfs_tree",
    "C31_schedules_agree",
    "C31_alpha_zero"
   ],
   "note": "Every parallel loop is a task pool whose atomic accesses are interleaved by an arbitrary schedule; sequential consistency assumed, the racy plain load of parents[v] is treated as an atomic load, the bitmap is a list of bits. alpha, beta are the non-zero values after conversion to uint64; alpha = 0 divides by zero."
  },
  {
   "property": "C32",
   "status": "proved",
   "theorems": [
    "C32_dijkstra_shortest_up_to_sentinel",
    "C32_wraparound_refuted"
   ],
   "note": "dijkstra modelled statement by statement; its priority queue orders by vertex first (label-correcting), distances added modulo D = 2^width. Proved for any sentinel vmax with vmax + w <= D for every weight w (no wrap), which covers the 64-bit distance instantiation; C32_wraparound_refuted shows the claim false when the distance type is as narrow as the sentinel."
  },
  {
   "property": "C33",
   "status": "proved",
   "theorems": [
    "C33_delta_stepping_shortest",
    "C33_no_overflow_from_weights",
    "C33_delta_irrelevant",
    "C33_delta_zero"
   ],
   "note": "Sequential delta_stepping with its bins; no_overflow bounds every simple path sum by the sentinel. Independence of delta is a theorem; delta = 0 divides by zero."
  },
  {
   "property": "C34",
   "status": "proved",
   "theorems": [
    "C34_m1_never_relaxes",
    "C34_er_always_undefined",
    "C34_er_ignores_source"
   ],
   "note": "m1: for every graph and source. dijkstra_er: with Q.top() on an empty queue undefined no run is defined; reading it leniently the source argument never influences the search (universal over sources not reachable from 0)."
  },
  {
   "property": "C35",
   "status": "proved",
   "theorems": [
    "C35_link_every_prefix",
    "C35_link_components",
    "C35_compress_roots",
    "C35_link_compress_least"
   ],
   "note": "One step per atomic access of comp, arbitrary schedule, sequential consistency; link's low = p1 + (p2 - high) computed modulo W; the failed exchange's write to high modelled. Prefix theorem covers every point of every execution."
  },
  {
   "property": "C36",
   "status": "proved",
   "theorems": [
    "C36_afforest_out_of_bounds",
    "C36_verifier_rejects_all"
   ],
   "note": "afforest: for every neighbor_rounds >= 1 (default 2); with 0 rounds the same access is reached unless the sampled label is the extra vertex's (Example). The sampled label is an arbitrary function of the labels."
  },
  {
   "property": "C37",
   "status": "proved",
   "theorems": [
    "C37_triangle_count",
    "C37_threads_upper",
    "C37_threads_lower_always_zero",
    "C37_no_threads"
   ],
   "note": "Sequential and strided multi-threaded versions; specification counts unordered pairwise adjacent triples. The originally expected agreement on lower triangular graphs is refuted universally."
  },
  {
   "property": "C38",
   "status": "proved",
   "theorems": [
    "C38_minimum_spanning_forest",
    "C38_minimum_connecting_set",
    "C38_large_id_out_of_bounds",
    "C38_every_spanning_tree_out_of_bounds",
    "C38_any_comparison",
    "C38_default_comparison"
   ],
   "note": "All legal sort outcomes; minimality against forests for any weights and against every connecting set for non-negative weights; out-of-bounds behaviour stated universally."
  },
  {
   "property": "C39",
   "status": "proved",
   "theorems": [
    "C39_greedy",
    "C39_symmetric",
    "C39_any_graph",
    "C39_upward_arcs",
    "C39_downward_arcs_select_everything"
   ],
   "note": "Any starting contents of the output vector; exact characterisation on every graph, independence and maximality on symmetric ones, correctness with upward arcs only, universal failure with downward arcs only."
  },
  {
   "property": "C40",
   "status": "proved",
   "theorems": [
    "C40_topological",
    "C40_no_root_undefined",
    "C40_mis_independent",
    "C40_mis_maximal",
    "C40_mis_all_false",
    "C40_mis_empty_graph_undefined"
   ],
   "note": "dag_range for any matching multigraph lists without closed walk; dag_based_mis for every loop-free graph and starting vector; undefined on graphs without a root (including the empty graph)."
  },
  {
   "property": "C41",
   "status": "proved",
   "theorems": [
    "C41_first_missing",
    "C41_two_colours",
    "C41_triangle_not_proper"
   ],
   "note": "Gap finder for every array of naturals; the colouring of a symmetric graph uses colours 0 and 1 only, so every graph with a triangle is coloured improperly."
  },
  {
   "property": "C42",
   "status": "proved",
   "theorems": [
    "C42_product",
    "C42_product_integers",
    "C42_product_out_of_range",
    "C42_transposed",
    "C42_transposed_integers",
    "C42_products_agree",
    "C42_transposed_min_plus_zero"
   ],
   "note": "Arbitrary element type and operations, plus dense integer reading of both products, agreement of the two when zero is a left unit of the reduction, the universal (min,+) failure of the transposed one and the out-of-range column behaviour. Overflow of machine scalars is not modelled."
  },
  {
   "property": "C43",
   "status": "proved",
   "theorems": [
    "C43_topdown",
    "C43_bottomup_order",
    "C43_bottomup_parent"
   ],
   "note": "Level order stated with walks and distances on the row lists. The bottom-up theorems describe exactly what is yielded (wrong as a BFS)."
  },
  {
   "property": "C44",
   "status": "proved",
   "theorems": [
    "C44_bfs_edge_range",
    "C44_bfs_edge_range_isolated",
    "C44_bfs_edge_range3",
    "C44_tree_edges"
   ],
   "note": "tree_order: children after the seed are the reachable vertices in level order, each edge goes one level down, parents appear earlier. The isolated-seed theorem is the undefined case."
  },
  {
   "property": "C45",
   "status": "proved",
   "theorems": [
    "C45_directed_integer",
    "C45_directed_pattern",
    "C45_undirected_integer",
    "C45_undirected_pattern",
    "C45_undirected_general_doubled",
    "C45_undirected_general_doubled_pattern",
    "C45_symmetric_read_directed",
    "C45_attributes_dropped",
    "C45_values_missing",
    "C45_attributes_skipped",
    "C45_adjacency",
    "C45_adjacency1_wrong",
    "C45_biadjacency",
    "C45_id_too_large",
    "C45_negative_id"
   ],
   "note": "Text model of istream extraction/getline/ostream printing for integers. Floating-point values are not modelled (written with default precision 6 they do not round-trip). Wrong behaviours (doubling, mirrored, shifted ids, square bipartite rejected) are proved as such."
  },
  {
   "property": "C46",
   "status": "proved",
   "theorems": [
    "C46_fetch_add_linearizes",
    "C46_nothing_lost",
    "C46_can_always_finish"
   ],
   "note": "Linearizability for an arbitrary (non-associative) addition with spurious CAS failures, plus no lost update for commuting additions and possibility to finish."
  },
  {
   "property": "C47",
   "status": "proved",
   "theorems": [
    "C47_random_walk",
    "C47_random_complete",
    "C47_random_sink",
    "C47_random_last_step",
    "C47_reverse_path",
    "C47_reverse_tree",
    "C47_reverse_root",
    "C47_reverse_endless"
   ],
   "note": "the dice are arbitrary rationals in [0,1); N*dice() is taken exactly (the double product cannot reach N, see DESIGN.md)"
  },
  {
   "property": "C48",
   "status": "proved",
   "theorems": [
    "C48_sequential",
    "C48_sequential_normalized",
    "C48_parallel",
    "C48_parallel_integral",
    "C48_parallel_normalized",
    "C48_parallel_no_arcs",
    "C48_exact",
    "C48_verifier",
    "C48_verifier_accepts_parallel",
    "C48_verifier_rejects_sequential"
   ],
   "note": "Scores are exact rationals (floating-point rounding is not modelled); accum_t path counts are taken modulo M. Sequential, parallel (any interleaving of single atomic accesses) and BCVerifier."
  },
  {
   "property": "C49",
   "status": "proved",
   "theorems": [
    "C49_terminates",
    "C49_count",
    "C49_core_counted",
    "C49_isolated_counted",
    "C49_no_arcs",
    "C49_star_reads_past",
    "C49_refuted"
   ],
   "note": "degrees are unbounded integers (int in the code); the hash of the filter is abstracted to a list of distinct pairs; uninitialised has_parent_/u_parent are undefined when read"
  },
  {
   "property": "C50",
   "status": "proved",
   "theorems": [
    "C50_jaccard_arcs",
    "C50_lower_triangular_untouched"
   ],
   "note": "Values kept as exact fractions (numerator, denominator); union size is specified by duplicate removal of the concatenated rows."
  },
  {
   "property": "C51",
   "status": "proved",
   "theorems": [
    "C51_csr_roundtrip_wide_index",
    "C51_csr_narrow_index_overruns",
    "C51_truncated"
   ],
   "note": "Round trip for 8-byte index_t; universal overrun for narrower ones."
  },
  {
   "property": "C52",
   "status": "proved",
   "theorems": [
    "C52_afforest_components",
    "C52_directed_alone_refuted"
   ],
   "note": "Theorem about the program with comp(graph.size()); the code's array is one longer (C36)."
  },
  {
   "property": "C53",
   "status": "proved",
   "theorems": [
    "C53_verifier_exact",
    "C53_directed_alone_refuted"
   ],
   "note": "Theorem about the program with visited(graph.size()); the code's vector is one longer (C36)."
  },
  {
   "property": "C54",
   "status": "proved",
   "theorems": [
    "C54_log_height",
    "C54_log_height_n",
    "C54_steps_exist",
    "C54_find_effect",
    "C54_union_linear_height"
   ],
   "note": "Logarithmic bound for runs without disjoint_union; the exact effect of find; a linear-height run through disjoint_union for every n."
  },
  {
   "property": "C55",
   "status": "proved",
   "theorems": [
    "C55_dijkstra_exponential"
   ],
   "note": "Exact iteration count on a family of graphs; catches a queue ordered by distance."
  },
  {
   "property": "C56",
   "status": "proved",
   "theorems": [
    "C56_dfs_edge_range",
    "C56_dfs_edge_range_loops",
    "C56_dfs_edge_range_isolated",
    "C56_dfs_tree",
    "C56_dfs_unique",
    "C56_dfs_range_never_ends",
    "C56_dfs_range_isolated",
    "C56_dfs_range_post",
    "C56_dfs_range_cover",
    "C56_dfs_range_stuck"
   ],
   "note": "The specification is a one-page inductive definition on discovery lists; uniqueness shows it pins the result down. The post-order that dfs_range gives on over-long graphs is only an example."
  },
  {
   "property": "C57",
   "status": "proved",
   "theorems": [
    "C57_flag_false",
    "C57_as_sequential",
    "C57_any_flag",
    "C57_undefined",
    "C57_flag_true_endless"
   ],
   "note": "Sequentially consistent interleavings of single atomic accesses; the double-checked growth of the bins is one step. The no-overflow hypothesis is that of C33."
  },
  {
   "property": "C58",
   "status": "proved",
   "theorems": [
    "C58_solution",
    "C58_total",
    "C58_threshold",
    "C58_geometric",
    "C58_stops",
    "C58_mass",
    "C58_zero_degree",
    "C58_undefined",
    "C58_rest_untouched"
   ],
   "note": "Scores are exact rationals (no rounding); racy plain accesses are atomic steps; degree table may overcount (deg_j >= number of occurrences). Anything not finite is one value None."
  },
  {
   "property": "C59",
   "status": "proved",
   "theorems": [
    "C59_unfiltered",
    "C59_search",
    "C59_path",
    "C59_isolated",
    "C59_self_loop"
   ],
   "note": "The filter is a predicate on (row, position): it sees the arc, not the state of the search, and must not be called at the end of a row. Assertions are a flag of the model. The iterator copy constructor, which leaves the target uninitialised, is not modelled (begin() returns a prvalue)."
  },
  {
   "property": "C60",
   "status": "proved",
   "theorems": [
    "C60_make",
    "C60_eager",
    "C60_lazy",
    "C60_quiet",
    "C60_iteration",
    "C60_copies"
   ],
   "note": "One attribute per arc. A reference is a place (in the graph or in one of the two maps of extra arcs); assignments are to attributes, not to targets. Iterators over a row are modelled as the list of places they visit in an unchanged state. The assignment operator of the outer iterator (which would assign a deleted copy) and operator[] const are not modelled."
  },
  {
   "property": "C61",
   "status": "proved",
   "theorems": [
    "C61_ccv1",
    "C61_v2",
    "C61_ccv5",
    "C61_Afforest",
    "C61_ccv5_star",
    "C61_v1",
    "C61_v1_refuted",
    "C61_full"
   ],
   "note": "ccv1, v2, ccv5, Afforest proved for all graphs and interleavings; v1 proved sound (labels stay within the component) and refuted as a components algorithm (C61_v1_refuted); C61_ccv5_star shows why symmetry is needed; C61_full the wraparound of the loop end. Plain accesses of comp count as atomic."
  },
  {
   "property": "C62",
   "status": "proved",
   "theorems": [
    "C62_sv_v6",
    "C62_sv_v9",
    "C62_endless"
   ],
   "note": "sv_v6/v8 share one model, sv_v9 takes any list of pieces with the arcs of the graph. C62_endless: the sweep over the vertices with a counter of W values and W labels returns for no number of steps."
  },
  {
   "property": "C63",
   "status": "proved",
   "theorems": [
    "C63_lpcc",
    "C63_lpcc_cyclic",
    "C63_components",
    "C63_full",
    "C63_any_workers",
    "C63_missing_frontier"
   ],
   "note": "Invariant per round: a label lowered in the round is recorded in the bitmap and in a frontier (or a running task is about to do so), every arc out of a vertex of the round is satisfied or still to come; outer loop by the sum of the labels. The precondition on the workers is tbb::this_task_arena::current_thread_index() < num_bins (C63_ex_workers: otherwise undefined)."
  },
  {
   "property": "C64",
   "status": "proved",
   "theorems": [
    "C64_pieces",
    "C64_blank",
    "C64_first_twice",
    "C64_endless",
    "C64_sizes_overflow",
    "C64_no_newline",
    "C64_exact",
    "C64_any_case",
    "C64_int_range",
    "C64_flags",
    "C64_values_of_a_pattern"
   ],
   "note": "Integer attributes only; byte after the file reads as NUL. The double approximation is any monotone function into the body (C64_exact: the exact one is)."
  },
  {
   "property": "C65",
   "status": "proved",
   "theorems": [
    "C65_levels",
    "C65_bins",
    "C65_bottom_up",
    "C65_v1",
    "C65_v2",
    "C65_v2_garbage",
    "C65_no_queue",
    "C65_flush"
   ],
   "note": "Loop bodies are sequences of atomic accesses, one task per frontier edge, any schedule; plain racy accesses are taken as atomic. bfs_v4 cannot be instantiated."
  },
  {
   "property": "C66",
   "status": "proved",
   "theorems": [
    "C66_whole_rows",
    "C66_row_suffixes",
    "C66_row_suffixes_lower_zero",
    "C66_no_threads",
    "C66_double_exact",
    "C66_double_nearest",
    "C66_double_never_odd",
    "C66_vc_past_the_end",
    "C66_symmetric_six_times"
   ],
   "note": "Counters are unbounded; the set policy is the default sequenced one. Doubles are modelled as non-negative integers rounded to 53 bits, ties to even."
  },
  {
   "property": "C67",
   "status": "proved",
   "theorems": [
    "C67_reduce",
    "C67_init_counted_again",
    "C67_reduce_cyclic",
    "C67_for_each_edge_once",
    "C67_for_cyclic_once"
   ],
   "note": "tbb::parallel_reduce is modelled by its splitting tree with a choice between continuing with the same body and joining a body split off."
  },
  {
   "property": "C68",
   "status": "proved",
   "theorems": [
    "C68_flag_false",
    "C68_any_flag",
    "C68_undefined",
    "C68_v8",
    "C68_v6_one_thread",
    "C68_v6_labels",
    "C68_v6_race_refuted"
   ],
   "note": "v9-v11 and v8 are shown to be runs of the forking pool of C57 (tree of sequential and parallel compositions against the pool of its leaves); v6 has its own model with one step per plain access. Sequential consistency; growing the bins under the lock, and grow_to_at_least, are one step each."
  },
  {
   "property": "C69",
   "status": "proved",
   "theorems": [
    "C69_power_guarantee",
    "C69_power_stops",
    "C69_v1",
    "C69_vc",
    "C69_v4",
    "C69_v4_no_threads",
    "C69_v6",
    "C69_v789",
    "C69_v10",
    "C69_too_long",
    "C69_v2",
    "C69_v2_stops",
    "C69_v12_flat",
    "C69_v12",
    "C69_v14",
    "C69_residual",
    "C69_residual_zero"
   ],
   "note": "Exact rationals, None for a division by zero. The update of one vertex is one action in the Jacobi versions (the array it reads is constant during the sweep); v6 has a step per load and store; v12 a step per access. v12: the total error is bounded for every threshold, and the result is given exactly for thresholds of at least 1/n."
  },
  {
   "property": "C70",
   "status": "proved",
   "theorems": [
    "C70_approx",
    "C70_v0",
    "C70_v1",
    "C70_v2",
    "C70_v2_refuted",
    "C70_v3",
    "C70_v4",
    "C70_v4_no_arcs"
   ],
   "note": "Exact rationals; path counts modulo the range of the counting type, assumed not to wrap. Every atomic or plain access of the level loops is one step; a racy plain read or write in v2 has its sequentially consistent meaning (formally undefined). v3 divides as double even for integral types. The worklist versions (lines 126-1126) are not part of this property."
  },
  {
   "property": "C71",
   "status": "proved",
   "theorems": [
    "C71_worklist_serial"
   ],
   "note": "vmax is the 'infinite' level (2^32 - 1), at least the number of vertices; M the modulus of the counting type. Exact rationals. An empty graph (max_element of nothing) is Ub."
  },
  {
   "property": "C72",
   "status": "proved",
   "theorems": [
    "C72_no_threads",
    "C72_one_arc",
    "C72_self_loop",
    "C72_noabstraction",
    "C72_noabstraction_body"
   ],
   "note": "Statements of what the code does: it does not compute betweenness. The work on one item is one action (the two spinlocks are held); the threads interleave between actions. The backward phase of noabstraction is not modelled: the forward phase never has a defined result."
  },
  {
   "property": "C73",
   "status": "proved",
   "theorems": [
    "C73_flow",
    "C73_below_every_cut",
    "C73_exchanged",
    "C73_not_maximum",
    "C73_not_minimum_cut"
   ],
   "note": "Proved for every graph, capacities and INFINITE_D: termination, no undefined behaviour, a feasible flow of the returned value. Maximality refuted by a witness for the code, proved for the code with the two arcs of lines 308 and 310 exchanged. The header does not compile as it is; null_vertex_v is read as a value."
  },
  {
   "property": "C74",
   "status": "proved",
   "theorems": [
    "C74_flow",
    "C74_rounds",
    "C74_maximum",
    "C74_not_maximum",
    "C74_isolated",
    "C74_same",
    "C74_parallel_refuted"
   ],
   "note": "Built on the models of back_edge_range (C60), filtered_bfs_range and reverse_path. C74_parallel_refuted is a witness outside simple_net (repeated arcs). The header takes const Graph& and calls non-const members; it is read without the const."
  },
  {
   "property": "C75",
   "status": "proved",
   "theorems": [
    "C75_colours",
    "C75_symmetric",
    "C75_two_roots",
    "C75_forest",
    "C75_empty"
   ],
   "note": "Colours characterised for all loop-free graphs; symmetric graphs, two roots and forests as consequences; empty graph UB."
  },
  {
   "property": "C76",
   "status": "proved",
   "theorems": [
    "C76_graph",
    "C76_default_exact",
    "C76_lower",
    "C76_verifier",
    "C76_heuristic_empty",
    "C76_unknown_version"
   ],
   "note": "End to end from the edge list to the reported number; composition of C05/C12/C13/C14/C37/C66 plus renaming invariance of the triangle count."
  },
  {
   "property": "C77",
   "status": "proved",
   "theorems": [
    "C77_oracle",
    "C77_oracle_strict",
    "C77_queue_refuted",
    "C77_verifier",
    "C77_verifier_length",
    "C77_delta_stepping",
    "C77_m1",
    "C77_passes",
    "C77_sources",
    "C77_sources_iterations",
    "C77_heap"
   ],
   "note": "The oracle is right for every queue order; its heap preconditions are broken (witness graph, every heap implementation); the verifier rejects right answers of delta_stepping on graphs with unreachable vertices."
  },
  {
   "property": "C78",
   "status": "proved",
   "theorems": [
    "C78_integer",
    "C78_vertices",
    "C78_vertices_no_newline",
    "C78_assert",
    "C78_truncated",
    "C78_zero",
    "C78_no_sizes",
    "C78_header",
    "C78_load_binary",
    "C78_load_text",
    "C78_load_blank_line"
   ],
   "note": "Integer files in full; real files for integral tokens up to 2^53."
  },
  {
   "property": "C79",
   "status": "proved",
   "theorems": [
    "C79_degrees",
    "C79_degrees_bad_target",
    "C79_random",
    "C79_random_inclusive",
    "C79_random_members",
    "C79_random_no_arcs",
    "C79_bench_graph",
    "C79_file",
    "C79_bc_count",
    "C79_bc_trials",
    "C79_bc_trials_strict",
    "C79_bfs_count",
    "C79_verifier",
    "C79_verifier_count"
   ],
   "note": "The generator and distribution are an arbitrary sequence of values."
  },
  {
   "property": "C80",
   "status": "proved",
   "theorems": [
    "C80_graph",
    "C80_components",
    "C80_lpcc_directed",
    "C80_directed",
    "C80_undefined",
    "C80_verify",
    "C80_unknown",
    "C80_top",
    "C80_top_components"
   ],
   "note": "bench/cc.cpp composed with the theorems about the constructors, relabelling and the component algorithms. Findings: versions 0, 7, 9, 11 and --verify are undefined on the graphs the benchmark builds; 5 and 10 are wrong on directed files."
  },
  {
   "property": "C81",
   "status": "proved",
   "theorems": [
    "C81_parents",
    "C81_v2",
    "C81_source",
    "C81_verify",
    "C81_unknown",
    "C81_trials"
   ],
   "note": "bench/bfs.cpp composed with C02/C04 and C29-C31, C65. Findings: the search runs on the transposed graph; version 2 reads past the graph when it goes bottom-up; unknown version with --verify is undefined."
  },
  {
   "property": "C82",
   "status": "proved",
   "theorems": [
    "C82_sources",
    "C82_others",
    "C82_exact",
    "C82_no_edges",
    "C82_node",
    "C82_verify",
    "C82_verify_passes",
    "C82_unknown",
    "C82_trials"
   ],
   "note": "scores are rationals; path counts must fit the counting type; version 2 only where its unprotected additions cannot collide (C70_v2_refuted otherwise)"
  },
  {
   "property": "C83",
   "status": "proved",
   "theorems": [
    "C83_undefined",
    "C83_degrees",
    "C83_solution",
    "C83_scores",
    "C83_v6",
    "C83_unknown",
    "C83_no_threads",
    "C83_v12",
    "C83_print",
    "C83_runs"
   ],
   "note": "numbers are rationals, 0.85f is 17/20; bounds are for the given degree table, since the program itself is undefined on every file"
  },
  {
   "property": "C84",
   "status": "proved",
   "theorems": [
    "C84_program",
    "C84_sort",
    "C84_rows",
    "C84_same_container",
    "C84_resize",
    "C84_clear",
    "C84_iterators"
   ],
   "note": "The specification is the same program on a list of rows; columns are integers. Shorter columns are undefined behaviour, a container zipped twice is unaffected by exchanges."
  },
  {
   "property": "C85",
   "status": "proved",
   "theorems": [
    "C85_delink",
    "C85_oracle",
    "C85_linked",
    "C85_shortest",
    "C85_unlinked",
    "C85_alone",
    "C85_out_of_range"
   ],
   "note": "Model of the whole program from the parsed lines to the printed reports. Everything is proved without bounds; the undefined cases are theorems."
  },
  {
   "property": "C86",
   "status": "proved",
   "theorems": [
    "C86_every_schedule",
    "C86_in_order",
    "C86_components",
    "C86_merged",
    "C86_split",
    "C86_wraps"
   ],
   "note": "XccModel.v; the parallel loop as a task pool under every schedule. The wrong results are shown for every symmetric graph and every pair of vertices."
  },
  {
   "property": "C87",
   "status": "proved",
   "theorems": [
    "C87_dfs",
    "C87_bfs",
    "C87_bfs_copy",
    "C87_bfs_copy_overflow",
    "C87_seed_range",
    "C87_ranges"
   ],
   "note": "C87_dfs, C87_bfs (every way of reading the graph), C87_bfs_copy and C87_bfs_copy_overflow (int copies: exactly when they work), C87_seed_range, C87_ranges."
  },
  {
   "property": "C88",
   "status": "proved",
   "theorems": [
    "C88_spmv_raw",
    "C88_spmv_integers",
    "C88_reduce",
    "C88_reduce_integers",
    "C88_rows_past_end",
    "C88_edges_past_end",
    "C88_plain_past_end",
    "C88_explicit_size",
    "C88_degrees",
    "C88_ones"
   ],
   "note": "C88_spmv_raw, C88_spmv_integers, C88_reduce, C88_reduce_integers, C88_degrees, C88_ones (what is computed); C88_rows_past_end, C88_edges_past_end, C88_plain_past_end (undefined behaviour on the graphs the benchmarks build); C88_explicit_size (correct with the explicit-size constructor)."
  },
  {
   "property": "C89",
   "status": "proved",
   "theorems": [
    "C89_flist",
    "C89_lists",
    "C89_csr",
    "C89_integers"
   ],
   "note": "All four containers, any arithmetic; the VOV instance is modelled as the commented-out vov class since std::vector has no open_for_push_back."
  },
  {
   "property": "C90",
   "status": "proved",
   "theorems": [
    "C90_dijkstra",
    "C90_no_trial",
    "C90_no_such_source",
    "C90_when_it_ends",
    "C90_negative_cycle",
    "C90_in_bounds",
    "C90_runs_forever"
   ],
   "note": "NaN weights are outside the weak-order hypothesis. The negative-cycle theorem is for exact integers."
  },
  {
   "property": "C91",
   "status": "proved",
   "theorems": [
    "C91_overlap",
    "C91_sequential",
    "C91_members",
    "C91_repeats"
   ],
   "note": "Reading the file is C45; G, H and L are the adjacency structures of C02/C03."
  },
  {
   "property": "C92",
   "status": "proved",
   "theorems": [
    "C92_numbers",
    "C92_alone",
    "C92_out_of_range",
    "C92_unlisted"
   ],
   "note": "All tables of the shape loads, through the search of C85. Parsing by xt::load_csv is not modelled. C92_unlisted and the second case of told are findings."
  },
  {
   "property": "C93",
   "status": "proved",
   "theorems": [
    "C93_dblp",
    "C93_oracle_dblp",
    "C93_alone",
    "C93_unknown",
    "C93_nobody"
   ],
   "note": "Universal over all sorts by key, so the excess is shown to be 0 or 1 and the same for everyone; which of the two depends on the order of a row. Examples show both."
  },
  {
   "property": "C94",
   "status": "proved",
   "theorems": [
    "C94_every_file",
    "C94_numbers",
    "C94_absent"
   ],
   "note": "file given as a string, sort any sort by key; undefined behaviour without Kevin Bacon proved"
  },
  {
   "property": "C95",
   "status": "proved",
   "theorems": [
    "C95_processed",
    "C95_any_text",
    "C95_unread",
    "C95_both"
   ],
   "note": "int and ids of four bytes; messages and timing left out"
  },
  {
   "property": "C96",
   "status": "proved",
   "theorems": [
    "C96_locked",
    "C96_rounds",
    "C96_atomic",
    "C96_permuted",
    "C96_rearranged",
    "C96_never_ends"
   ],
   "note": "count++ as a load and a store under one mutex; rounds give fair termination"
  },
  {
   "property": "C97",
   "status": "proved",
   "theorems": [
    "C97_columns",
    "C97_header",
    "C97_compiler",
    "C97_run_on",
    "C97_long_host",
    "C97_graph_name",
    "C97_dots",
    "C97_table"
   ],
   "note": "outside information (host, date, git, macros, printed numbers) given; host name of 20 characters undefined, proved"
  },
  {
   "property": "C98",
   "status": "proved",
   "theorems": [
    "C98_table",
    "C98_number",
    "C98_no_number",
    "C98_ids"
   ],
   "note": "Times are integer ticks, the mean is a sum and a count; printed digits and clocks are left out."
  }
 ]
}