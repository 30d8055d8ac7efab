{
 "claims": [
  {
   "property": "C01",
   "status": "proved",
   "theorems": [
    "C01_history_simple",
    "C01_four_containers",
    "C01_containers_lawful"
   ],
   "note": "Generic over every lawful container; the four containers of the crate are proved lawful. Also covers init_ring and shuffle_adj."
  },
  {
   "property": "C02",
   "status": "proved",
   "theorems": [
    "C02_edge_count",
    "C01_containers_lawful"
   ],
   "note": ""
  },
  {
   "property": "C03",
   "status": "proved",
   "theorems": [
    "C03_add_edge_exact",
    "C01_containers_lawful"
   ],
   "note": ""
  },
  {
   "property": "C04",
   "status": "proved",
   "theorems": [
    "C04_remove_edge_exact",
    "C01_containers_lawful"
   ],
   "note": ""
  },
  {
   "property": "C05",
   "status": "proved",
   "theorems": [
    "C05_add_then_remove",
    "C05_remove_then_add",
    "C01_containers_lawful"
   ],
   "note": ""
  },
  {
   "property": "C06",
   "status": "proved",
   "theorems": [
    "C06_debug_panics",
    "C06_release_undefined",
    "C06_release_panics_refuted",
    "C01_containers_lawful"
   ],
   "note": "Debug part proved for all graphs; the documented panic is refuted for release builds, where every bad pair is undefined behaviour."
  },
  {
   "property": "C07",
   "status": "proved",
   "theorems": [
    "C07_edits_keep_payloads",
    "C07_at_reads_payload",
    "C01_containers_lawful"
   ],
   "note": ""
  },
  {
   "property": "C08",
   "status": "proved",
   "theorems": [
    "C08_sort_adj",
    "C08_shuffle_adjs",
    "C01_containers_lawful"
   ],
   "note": ""
  },
  {
   "property": "C09",
   "status": "proved",
   "theorems": [
    "C09_complete_graph",
    "C09_complete_graph_empty"
   ],
   "note": "n = 0 panics in debug builds."
  },
  {
   "property": "C10",
   "status": "proved",
   "theorems": [
    "C10_init_ring",
    "C10_init_ring_too_small",
    "C01_containers_lawful"
   ],
   "note": ""
  },
  {
   "property": "C11",
   "status": "proved",
   "theorems": [
    "C11_dfs_visits_component",
    "C11_dfs_mut",
    "C01_containers_lawful"
   ],
   "note": "Covers Dfs, DfsWithIndex and DfsMut (with an arbitrary writing loop body)."
  },
  {
   "property": "C12",
   "status": "proved",
   "theorems": [
    "C12_dfs_order_refuted"
   ],
   "note": "Refuted: the documented depth-first order does not hold; witness on four vertices."
  },
  {
   "property": "C13",
   "status": "proved",
   "theorems": [
    "C13_bfs_distances",
    "C13_bfs_reuse",
    "C13_bfs_mut",
    "C01_containers_lawful"
   ],
   "note": "Covers Bfs, reuse in every reachable iterator state, and BfsMut."
  },
  {
   "property": "C14",
   "status": "proved",
   "theorems": [
    "C14_bfs_filtered",
    "C01_containers_lawful"
   ],
   "note": ""
  },
  {
   "property": "C15",
   "status": "proved",
   "theorems": [
    "C15_reuse_ignores_filter",
    "C15_reuse_refuted",
    "C01_containers_lawful"
   ],
   "note": "Refuted: reuse resets the filter marks and panics at index == vertex_count; the exact behaviour is proved for all graphs."
  },
  {
   "property": "C16",
   "status": "proved",
   "theorems": [
    "C16_is_connected",
    "C01_containers_lawful"
   ],
   "note": ""
  },
  {
   "property": "C17",
   "status": "proved",
   "theorems": [
    "C17_component_ids",
    "C01_containers_lawful"
   ],
   "note": "Ids -1 modelled as None; integer overflow of ids not modelled."
  },
  {
   "property": "C18",
   "status": "proved",
   "theorems": [
    "C18_component_sizes",
    "C01_containers_lawful"
   ],
   "note": ""
  },
  {
   "property": "C19",
   "status": "proved",
   "theorems": [
    "C19_suggest_connections",
    "C01_containers_lawful"
   ],
   "note": ""
  },
  {
   "property": "C20",
   "status": "proved",
   "theorems": [
    "C20_diameter",
    "C01_containers_lawful"
   ],
   "note": ""
  },
  {
   "property": "C21",
   "status": "proved",
   "theorems": [
    "C21_longest_shortest_path",
    "C01_containers_lawful"
   ],
   "note": ""
  },
  {
   "property": "C22",
   "status": "proved",
   "theorems": [
    "C22_q_core",
    "C01_containers_lawful"
   ],
   "note": ""
  },
  {
   "property": "C23",
   "status": "proved",
   "theorems": [
    "C23_q_core_doc_refuted"
   ],
   "note": "Refuted: two disjoint triangles give 3, the set of all six vertices qualifies."
  },
  {
   "property": "C24",
   "status": "proved",
   "theorems": [
    "C24_transitivity",
    "C01_containers_lawful"
   ],
   "note": "Quotient as numerator and denominator."
  },
  {
   "property": "C25",
   "status": "proved",
   "theorems": [
    "C25_vertex_load",
    "C25_flow_unique",
    "C01_containers_lawful"
   ],
   "note": "Exact rationals in place of f64."
  },
  {
   "property": "C26",
   "status": "proved",
   "theorems": [
    "C26_load_sum",
    "C26_load_complete",
    "C01_containers_lawful"
   ],
   "note": "Exact rationals in place of f64."
  },
  {
   "property": "C27",
   "status": "proved",
   "theorems": [
    "C27_closeness",
    "C27_closeness_empty",
    "C01_containers_lawful"
   ],
   "note": "Quotients as numerator and denominator; empty graph panics in debug builds."
  },
  {
   "property": "C28",
   "status": "proved",
   "theorems": [
    "C28_biconnected_refuted"
   ],
   "note": "Refuted: for the edges 0-1, 0-2, 2-3, 3-1, 1-4, 1-2 the result is [4; 3], but no block has three vertices."
  },
  {
   "property": "C29",
   "status": "proved",
   "theorems": [
    "C29_biconnected",
    "C01_containers_lawful"
   ],
   "note": ""
  },
  {
   "property": "C30",
   "status": "proved",
   "theorems": [
    "C30_none",
    "C30_induced",
    "C01_containers_lawful"
   ],
   "note": ""
  },
  {
   "property": "C31",
   "status": "proved",
   "theorems": [
    "C31_clone_topology",
    "C31_graph_from",
    "C31_from_vec",
    "C31_from_iter",
    "C31_reset_from_graph",
    "C01_containers_lawful"
   ],
   "note": ""
  },
  {
   "property": "C32",
   "status": "proved",
   "theorems": [
    "C32_degrees",
    "C32_degree_histogram",
    "C01_containers_lawful"
   ],
   "note": ""
  },
  {
   "property": "C33",
   "status": "proved",
   "theorems": [
    "C33_dot_text",
    "C33_dot_injective",
    "C33_dot_indices_injective",
    "C33_to_dot_injective",
    "C33_dot_returns",
    "C01_containers_lawful"
   ],
   "note": ""
  },
  {
   "property": "C34",
   "status": "proved",
   "theorems": [
    "C34_randomize",
    "C34_new",
    "C34_set_target"
   ],
   "note": "f64 values are rationals; the rounding of c/(n-1), NaN and infinities are not modelled."
  },
  {
   "property": "C35",
   "status": "proved",
   "theorems": [
    "C35_undo",
    "C35_undo_quiet",
    "C35_step_returns"
   ],
   "note": ""
  },
  {
   "property": "C36",
   "status": "proved",
   "theorems": [
    "C36_make_connected",
    "C36_empty"
   ],
   "note": ""
  },
  {
   "property": "C37",
   "status": "proved",
   "theorems": [
    "C37_draw_two",
    "C37_valid",
    "C37_small"
   ],
   "note": ""
  },
  {
   "property": "C38",
   "status": "proved",
   "theorems": [
    "C38_new",
    "C38_history",
    "C38_randomize",
    "C38_empty"
   ],
   "note": "Every history of new, randomize, m_step and matching undo; only n = 0 panics in debug builds."
  },
  {
   "property": "C39",
   "status": "proved",
   "theorems": [
    "C39_undo",
    "C39_undo_quiet",
    "C39_step_returns",
    "C39_step_panics"
   ],
   "note": "Any number of steps; bookkeeping lists are restored entry by entry."
  },
  {
   "property": "C40",
   "status": "proved",
   "theorems": [
    "C40_new",
    "C40_new_small",
    "C40_history",
    "C40_degree",
    "C40_count_root",
    "C40_randomize",
    "C40_ring"
   ],
   "note": "Histories: new, randomize, m_step, undo_step, make_connected, sort_adj, set_r_prob. In release builds undo of an edge that is rooted elsewhere is excluded (a debug assertion forbids it)."
  },
  {
   "property": "C41",
   "status": "proved",
   "theorems": [
    "C41_undo",
    "C41_undo_quiet",
    "C41_undo_any",
    "C41_undo_other",
    "C41_step",
    "C41_reset"
   ],
   "note": ""
  },
  {
   "property": "C42",
   "status": "proved",
   "theorems": [
    "C42_make_connected"
   ],
   "note": ""
  },
  {
   "property": "C43",
   "status": "proved",
   "theorems": [
    "C43_target",
    "C43_edge"
   ],
   "note": ""
  },
  {
   "property": "C44",
   "status": "proved",
   "theorems": [
    "C44_distance_two",
    "C44_distance_one_panics",
    "C44_distance_three_panics",
    "C44_distance_release_steps_panic",
    "C44_every_distance_refuted"
   ],
   "note": "Refuted: distance 1 always panics, distance 3 or more panics in debug builds and gives panicking steps in release builds. Distance 2 is proved to work."
  },
  {
   "property": "C45",
   "status": "proved",
   "theorems": [
    "C45_edges",
    "C45_nodes"
   ],
   "note": ""
  },
  {
   "property": "C46",
   "status": "proved",
   "theorems": [
    "C46_new",
    "C46_randomize",
    "C46_history"
   ],
   "note": "Draws are an arbitrary list; a run that waits for draws is NoFuel. f64 draws are rationals k/2^53."
  },
  {
   "property": "C47",
   "status": "proved",
   "theorems": [
    "C47_returns",
    "C47_smallest_ring",
    "C47_terminates_refuted"
   ],
   "note": "Refuted: n = 2d+1 with probability 1 never returns. Proved for n >= 2d+2: every run can be completed."
  },
  {
   "property": "C48",
   "status": "proved",
   "theorems": [
    "C48_rejects",
    "C48_new",
    "C48_randomize",
    "C48_clone",
    "C48_swap",
    "C48_from_generic",
    "C48_history",
    "C01_containers_lawful"
   ],
   "note": ""
  },
  {
   "property": "C49",
   "status": "proved",
   "theorems": [
    "C49_step",
    "C49_no_edges",
    "C49_undo",
    "C49_undo_quiet"
   ],
   "note": ""
  },
  {
   "property": "C50",
   "status": "proved",
   "theorems": [
    "C50_atomic",
    "C50_quiet",
    "C50_shape"
   ],
   "note": ""
  },
  {
   "property": "C51",
   "status": "proved",
   "theorems": [
    "C51_returns",
    "C51_not_graphical",
    "C51_terminates_refuted",
    "C51_constant"
   ],
   "note": "Refuted: from_vec accepts sequences that no graph has and then never returns; proved to be completable whenever some graph has the sequence."
  },
  {
   "property": "C52",
   "status": "proved",
   "theorems": [
    "C52_new",
    "C52_rejects",
    "C52_from_graph",
    "C52_from_generic",
    "C52_randomize",
    "C52_history",
    "C52_degrees",
    "C01_containers_lawful"
   ],
   "note": ""
  },
  {
   "property": "C53",
   "status": "proved",
   "theorems": [
    "C53_returns",
    "C53_randomize_returns",
    "C53_stuck",
    "C53_terminates_refuted",
    "C53_empty_source_refuted"
   ],
   "note": "Refuted: arguments with m > source_n are accepted and never return (C53_stuck for all of them); an empty source graph is accepted and panics. For m <= source_n every run can be completed (C53_returns)."
  },
  {
   "property": "C54",
   "status": "proved",
   "theorems": [
    "C54_randomize",
    "C54_new",
    "C54_new_returns",
    "C54_step",
    "C54_step_small",
    "C54_undo",
    "C54_undo_quiet",
    "C54_undo_any",
    "C54_quiet",
    "C54_distance"
   ],
   "note": ""
  },
  {
   "property": "C55",
   "status": "proved",
   "theorems": [
    "C55_randomize",
    "C55_panics",
    "C55_special",
    "C55_new",
    "C55_node"
   ],
   "note": "Floating point rounding is not modelled; the edge test is arbitrary."
  },
  {
   "property": "C56",
   "status": "proved",
   "theorems": [
    "C56_points",
    "C56_latin",
    "C56_uniform"
   ],
   "note": ""
  },
  {
   "property": "C57",
   "status": "proved",
   "theorems": [
    "C57_new",
    "C57_cross_lists",
    "C57_multi_add_edge",
    "C57_multi_add_edges",
    "C57_single_add_edge",
    "C57_single_add_edges",
    "C57_single_refuted",
    "C01_containers_lawful"
   ],
   "note": "Refuted for AdjSingle (EdgeExists without that edge, panic); proved for Adj, and the exact behaviour of AdjSingle is proved. The state left behind by the panic is not modelled."
  },
  {
   "property": "C58",
   "status": "proved",
   "theorems": [
    "C58_dfs",
    "C58_dfs_contained",
    "C58_bfs",
    "C58_bfs_reuse",
    "C58_is_connected",
    "C58_diameter",
    "C01_containers_lawful"
   ],
   "note": ""
  },
  {
   "property": "C59",
   "status": "proved",
   "theorems": [
    "C59_sw",
    "C59_neighbors",
    "C59_consume",
    "C59_contained_iter",
    "C59_neighbor_iters",
    "C59_out_of_range",
    "C59_other_graph",
    "C01_containers_lawful"
   ],
   "note": ""
  },
  {
   "property": "C60",
   "status": "proved",
   "theorems": [
    "C60_dfs_size_hint",
    "C60_dfs_index_size_hint",
    "C60_bfs_size_hint",
    "C60_bfs_mut_size_hint",
    "C60_bfs_filtered_size_hint",
    "C01_containers_lawful"
   ],
   "note": ""
  },
  {
   "property": "C61",
   "status": "proved",
   "theorems": [
    "C61_zero_probability_refuted",
    "C61_zero_accepted",
    "C61_rewires_refuted"
   ],
   "note": "Refuted: at probability 0 a draw of exactly 0 is accepted, because the test is draw <= prob."
  },
  {
   "property": "C62",
   "status": "proved",
   "theorems": [
    "C62_undo_detects_refuted"
   ],
   "note": "Refuted: undoing an old step after two newer ones returns without panic and leaves the bookkeeping inconsistent."
  },
  {
   "property": "C63",
   "status": "proved",
   "theorems": [
    "C63_debug",
    "C63_bounds",
    "C63_panics_refuted"
   ],
   "note": "Refuted: undefined behaviour in release builds; rewire_edge(i, j, j) never panics. Debug part proved."
  },
  {
   "property": "C64",
   "status": "proved",
   "theorems": [
    "C64_two_draws_per_edge",
    "C64_one_draw_refuted"
   ],
   "note": "Refuted: every edge not moved at its first end is drawn for a second time."
  },
  {
   "property": "C65",
   "status": "proved",
   "theorems": [
    "C65_reports_removed",
    "C65_added_refuted"
   ],
   "note": "Refuted: Added holds the removed edges."
  },
  {
   "property": "C66",
   "status": "proved",
   "theorems": [
    "C66_same",
    "C66_empty_refuted"
   ],
   "note": "Refuted for size 0 (debug panic); proved for all sizes >= 1."
  },
  {
   "property": "C67",
   "status": "proved",
   "theorems": [
    "C67_weighted",
    "C67_attach",
    "C67_weights",
    "C67_rounds"
   ],
   "note": ""
  },
  {
   "property": "C68",
   "status": "proved",
   "theorems": [
    "C68_node",
    "C68_stuck",
    "C68_edgeless",
    "C68_returns",
    "C68_terminates_refuted"
   ],
   "note": "Refuted: a Poisson sample larger than the number of possible targets makes randomize loop forever. C68_node gives the exact condition, C68_returns the positive part."
  },
  {
   "property": "C69",
   "status": "proved",
   "theorems": [
    "C69_exact_size_refuted",
    "C69_never_exact",
    "C69_hint_valid"
   ],
   "note": "Refuted: size_hint is (0, None) in every state."
  },
  {
   "property": "C70",
   "status": "proved",
   "theorems": [
    "C70_degree",
    "C70_neighbors",
    "C70_single",
    "C01_containers_lawful"
   ],
   "note": ""
  },
  {
   "property": "C71",
   "status": "proved",
   "theorems": [
    "C71_out_of_range",
    "C71_memory_safe_refuted",
    "C01_containers_lawful"
   ],
   "note": "Refuted: undefined behaviour in release builds for every index out of range; C70_single is the positive part."
  },
  {
   "property": "C72",
   "status": "proved",
   "theorems": [
    "C72_same_size",
    "C72_replaced_refuted",
    "C01_containers_lawful"
   ],
   "note": "Refuted: a graph of another size can be stored through graph_1_mut; C72_same_size is the positive part."
  },
  {
   "property": "C73",
   "status": "proved",
   "theorems": [
    "C73_neighbors_mut",
    "C73_neighbors_mut_with_index",
    "C73_contained_iter_mut",
    "C73_write",
    "C01_containers_lawful"
   ],
   "note": ""
  },
  {
   "property": "C74",
   "status": "proved",
   "theorems": [
    "C74_degrees",
    "C74_distances",
    "C74_cores",
    "C74_centralities",
    "C74_reordered",
    "C74_biconnected_refuted",
    "C01_containers_lawful"
   ],
   "note": "Refuted for vertex_biconnected_components (C74_biconnected_refuted: sort_adj changes its result); proved for all the other measures."
  },
  {
   "property": "C75",
   "status": "proved",
   "theorems": [
    "C75_components",
    "C75_connected",
    "C75_diameter",
    "C75_cores",
    "C75_transitivity",
    "C75_edges",
    "C01_containers_lawful"
   ],
   "note": ""
  },
  {
   "property": "C76",
   "status": "proved",
   "theorems": [
    "C76_step",
    "C76_forgets",
    "C76_undo_any"
   ],
   "note": ""
  },
  {
   "property": "C77",
   "status": "proved",
   "theorems": [
    "C77_shuffle",
    "C77_randomize",
    "C77_new",
    "C01_containers_lawful"
   ],
   "note": ""
  },
  {
   "property": "C78",
   "status": "proved",
   "theorems": [
    "C78_step",
    "C78_symmetric",
    "C78_reach",
    "C78_reach_c",
    "C01_containers_lawful"
   ],
   "note": ""
  },
  {
   "property": "C79",
   "status": "proved",
   "theorems": [
    "C79_writer",
    "C79_strings",
    "C79_spacial",
    "C01_containers_lawful"
   ],
   "note": ""
  },
  {
   "property": "C80",
   "status": "proved",
   "theorems": [
    "C80_monotone",
    "C80_add_components",
    "C80_remove_components",
    "C80_add_transitivity",
    "C80_remove_transitivity",
    "C01_containers_lawful"
   ],
   "note": ""
  },
  {
   "property": "C81",
   "status": "proved",
   "theorems": [
    "C81_number",
    "C81_one",
    "C81_whole",
    "C81_edges",
    "C81_isomorphic",
    "C01_containers_lawful"
   ],
   "note": "What holds beside the refutations C28 and C74."
  },
  {
   "property": "C82",
   "status": "proved",
   "theorems": [
    "C82_step",
    "C82_accepted",
    "C82_retry",
    "C82_symmetric",
    "C82_reach",
    "C01_containers_lawful"
   ],
   "note": ""
  },
  {
   "property": "C83",
   "status": "proved",
   "theorems": [
    "C83_round",
    "C83_forgets",
    "C83_rounds",
    "C83_uniform_refuted"
   ],
   "note": "Refuted for uniformity (C83_uniform_refuted); the other theorems say what holds."
  },
  {
   "property": "C84",
   "status": "proved",
   "theorems": [
    "C84_er_c",
    "C84_watts_strogatz",
    "C84_spacial",
    "C84_dog",
    "C84_barabasi",
    "C84_small_world_stays",
    "C84_small_world_refuted",
    "C84_small_world_stuck"
   ],
   "note": "Refuted for the small-world ensemble (C84_small_world_refuted, C84_small_world_stuck); proved for the others. ErM and the configuration model forget the past in distribution, see C77 and C83."
  },
  {
   "property": "C85",
   "status": "proved",
   "theorems": [
    "C85_states",
    "C85_step",
    "C85_balance"
   ],
   "note": "Weights are given up to the common factor; coins is any list of equally likely values of the second draw."
  },
  {
   "property": "C86",
   "status": "proved",
   "theorems": [
    "C86_reach",
    "C86_five"
   ],
   "note": "The target is reached up to the order of adjacency lists (sw_alike)."
  },
  {
   "property": "C87",
   "status": "proved",
   "theorems": [
    "C87_draws",
    "C87_er_c",
    "C87_spacial",
    "C87_er_m"
   ],
   "note": "Floats are rationals; coins is any list of equally likely values of the draw that is compared with the probability. The spacial statement needs a test that is symmetric in the two positions, as prob_unchecked is over the reals."
  },
  {
   "property": "C88",
   "status": "proved",
   "theorems": [
    "C88_counts",
    "C88_unique",
    "C88_tree",
    "C88_zero",
    "C88_betweenness_refuted",
    "C01_containers_lawful"
   ],
   "note": "Refuted in general (C88_betweenness_refuted): load and betweenness differ if shortest paths of different multiplicity meet. Proved: equal when shortest paths are unique and in trees, and zero for the same vertices in every graph. Floats are rationals."
  },
  {
   "property": "C89",
   "status": "proved",
   "theorems": [
    "C89_regular",
    "C89_endpoints",
    "C89_complete",
    "C89_complete_graph",
    "C89_ring",
    "C01_containers_lawful"
   ],
   "note": "Transitivity and closeness are pairs of numerator and denominator; loads are rationals. C89_regular and C89_endpoints hold for all connected (regular) graphs."
  },
  {
   "property": "C90",
   "status": "proved",
   "theorems": [
    "C90_degree",
    "C90_whole",
    "C90_small_world",
    "C90_config",
    "C90_ba",
    "C90_ba_new",
    "C90_ba_tree",
    "C90_watts_strogatz_refuted",
    "C01_containers_lawful"
   ],
   "note": "Refuted for the Watts-Strogatz ensemble only (a vertex can end up without neighbours); the other parts hold as stated."
  },
  {
   "property": "C91",
   "status": "proved",
   "theorems": [
    "C91_config",
    "C91_config_new",
    "C91_barabasi",
    "C91_watts_strogatz",
    "C91_er_m",
    "C91_er_c",
    "C01_containers_lawful"
   ],
   "note": ""
  },
  {
   "property": "C92",
   "status": "proved",
   "theorems": [
    "C92_average_degree",
    "C92_average_degree_refuted",
    "C92_transitivity",
    "C92_closeness",
    "C92_fractions",
    "C92_load_error",
    "C92_load_exact",
    "C92_load_order_refuted",
    "C01_containers_lawful"
   ],
   "note": "average_degree beyond 2^24 and independence of vertex_load of the neighbour order are refuted (C92_average_degree_refuted, C92_load_order_refuted)."
  },
  {
   "property": "C93",
   "status": "proved",
   "theorems": [
    "C93_er_c",
    "C93_er_m",
    "C93_config",
    "C93_small_world",
    "C93_er_c_same_steps",
    "C93_er_m_same_steps",
    "C93_randomize",
    "C93_config_order_refuted",
    "C93_small_world_order_refuted"
   ],
   "note": "That the steps do not depend on the order of neighbours is proved for ErEnsembleC and ErEnsembleM and refuted for ConfigurationModel and SwEnsemble (C93_config_order_refuted, C93_small_world_order_refuted)."
  },
  {
   "property": "C94",
   "status": "proved",
   "theorems": [
    "C94_coin",
    "C94_er_c",
    "C94_er_c_step",
    "C94_small_world",
    "C94_small_world_step",
    "C94_small_world_new",
    "C94_small_world_new_with_distance",
    "C94_watts",
    "C94_watts_new",
    "C94_connectivity",
    "C94_er_c_new",
    "C94_set_connectivity"
   ],
   "note": ""
  },
  {
   "property": "C95",
   "status": "proved",
   "theorems": [
    "C95_edges",
    "C95_transitivity",
    "C95_closeness",
    "C95_suggest",
    "C95_ids",
    "C95_ws_new",
    "C95_ws_distance_refuted",
    "C95_er_m",
    "C95_er_m_refuted",
    "C95_config",
    "C95_config_new",
    "C01_containers_lawful"
   ],
   "note": "Refuted in part: too large a neighbor distance of SmallWorldWS::new is undefined behaviour in release builds (C95_ws_distance_refuted), and n * (n - 1) overflows in ErEnsembleM::new above 2^32 vertices (C95_er_m_refuted); the rest is proved."
  },
  {
   "property": "C96",
   "status": "proved",
   "theorems": [
    "C96_graph",
    "C96_measures",
    "C96_er_c",
    "C96_er_m",
    "C96_small_world",
    "C96_watts",
    "C96_config",
    "C96_ba",
    "C96_spacial",
    "C96_dual_single",
    "C96_probabilities",
    "C96_integers",
    "C96_integers_ensembles",
    "C96_dual",
    "C96_iterators",
    "C96_steps_er_c",
    "C96_steps_er_m",
    "C96_steps_small_world",
    "C96_steps_config",
    "C96_steps_spacial",
    "C96_reach_graph",
    "C96_reach_ensembles",
    "C96_reach_sessions",
    "C96_release_returns",
    "C96_release_undefined",
    "C96_release_panics_refuted",
    "C01_containers_lawful"
   ],
   "note": "Refuted in its last sentence (C96_release_panics_refuted): where a debug build panics a release build may return or be undefined; the rest is proved."
  },
  {
   "property": "C97",
   "status": "proved",
   "theorems": [
    "C97_dog",
    "C97_barabasi_albert",
    "C97_barabasi_albert_new",
    "C97_watts_strogatz",
    "C97_watts_strogatz_new",
    "C97_configuration",
    "C97_configuration_new"
   ],
   "note": ""
  },
  {
   "property": "C98",
   "status": "proved",
   "theorems": [
    "C98_rewired_place",
    "C98_rewired_after",
    "C98_rewiring",
    "C98_one_by_one",
    "C98_next_link",
    "C98_next_link_after",
    "C98_dog_edge",
    "C98_dog_share",
    "C98_dog_edges"
   ],
   "note": ""
  },
  {
   "property": "C99",
   "status": "proved",
   "theorems": [
    "C99_er_c",
    "C99_spacial",
    "C99_er_m",
    "C99_config_draws",
    "C99_config",
    "C99_small_world",
    "C01_containers_lawful"
   ],
   "note": ""
  },
  {
   "property": "C100",
   "status": "proved",
   "theorems": [
    "C100_er_c",
    "C100_er_c_enough",
    "C100_spacial",
    "C100_spacial_enough",
    "C100_er_m",
    "C100_er_m_enough"
   ],
   "note": ""
  },
  {
   "property": "C101",
   "status": "proved",
   "theorems": [
    "C101_choose",
    "C101_er_c_edges",
    "C101_er_c_degrees",
    "C101_mean",
    "C101_target",
    "C101_er_m_degrees",
    "C101_spacial_mean"
   ],
   "note": ""
  },
  {
   "property": "C102",
   "status": "proved",
   "theorems": [
    "C102_edges",
    "C102_er_c",
    "C102_er_m",
    "C102_spacial",
    "C102_config",
    "C102_config_from",
    "C102_config_const",
    "C102_config_generic",
    "C102_sw",
    "C102_sw_distance",
    "C102_ws",
    "C102_ba",
    "C102_undo_er_c",
    "C102_undo_er_m",
    "C102_undo_spacial",
    "C102_undo_config",
    "C102_undo_sw",
    "C102_steps_er_c",
    "C102_steps_er_m",
    "C102_steps_spacial",
    "C102_steps_config",
    "C102_steps_sw",
    "C102_foreign_steps_refuted",
    "C102_made_up_steps_refuted",
    "C01_containers_lawful"
   ],
   "note": "The claim that undo_step is memory safe for every step is false: C102_foreign_steps_refuted and C102_made_up_steps_refuted; the exact conditions are proved."
  },
  {
   "property": "C103",
   "status": "proved",
   "theorems": [
    "C103_er_c",
    "C103_er_m",
    "C103_config",
    "C103_small_world",
    "C103_watts_strogatz",
    "C103_spacial",
    "C103_barabasi_albert",
    "C103_dog",
    "C103_steps",
    "C103_undo",
    "C103_new",
    "C103_data_er_c",
    "C103_data_er_m",
    "C103_data_config",
    "C103_data_small_world",
    "C103_data_watts_strogatz",
    "C103_data_spacial",
    "C103_data_barabasi_albert",
    "C103_data_dog",
    "C103_data_new",
    "C103_without_er_c",
    "C103_without_er_m",
    "C103_without_config",
    "C103_without_small_world",
    "C103_without_watts_strogatz",
    "C103_without_spacial",
    "C103_without_barabasi_albert"
   ],
   "note": ""
  },
  {
   "property": "C104",
   "status": "proved",
   "theorems": [
    "C104_same_results",
    "C104_clear_edges",
    "C104_pair_ensembles",
    "C104_vertex_load",
    "C104_vertex_load_refuted",
    "C104_small_world",
    "C104_small_world_refuted",
    "C01_containers_lawful"
   ],
   "note": "Refuted for SwEnsemble::randomize (quadratic in the worst case, not O(vertices)) and for vertex_load on graphs with isolated vertices; the other documented times and corrected bounds are proved."
  },
  {
   "property": "C105",
   "status": "proved",
   "theorems": [
    "C105_reset",
    "C105_rewire",
    "C105_rewire_release",
    "C105_debug_panics_refuted"
   ],
   "note": "Refuted for the documented debug panics of rewire_edge when the move is blocked or the targets agree; all other cases are proved."
  },
  {
   "property": "C106",
   "status": "proved",
   "theorems": [
    "C106_er_c",
    "C106_er_m",
    "C106_config",
    "C106_small_world",
    "C106_watts_strogatz",
    "C106_barabasi_albert",
    "C106_spacial",
    "C106_dog",
    "C106_new",
    "C106_float",
    "C106_counts",
    "C106_counts_small_world",
    "C106_counts_config"
   ],
   "note": "Proved for all eight ensembles, their constructors and the floating-point versions; the counts for Watts-Strogatz, Barabasi-Albert and DogEnsemble depend on luck and are not given."
  },
  {
   "property": "C107",
   "status": "proved",
   "theorems": [
    "C107_range",
    "C107_uniform_range",
    "C107_uniform",
    "C107_shares",
    "C107_draws",
    "C107_er_c",
    "C107_er_c_float",
    "C107_er_m",
    "C107_small_world",
    "C107_watts_strogatz",
    "C107_barabasi_albert",
    "C107_barabasi_albert_insert",
    "C107_config",
    "C107_spacial",
    "C107_constructors",
    "C107_chains",
    "C01_containers_lawful"
   ],
   "note": "Proved. The algorithms of rand and Pcg64 are modelled from their documented versions (0.8 and 0.3), not from sources in /repo; Replay.v checks them, as a test, against six stored graphs. DogEnsemble is on draws only, since its Poisson samples are arbitrary numbers."
  },
  {
   "property": "C108",
   "status": "proved",
   "theorems": [
    "C108_draws",
    "C108_er_c",
    "C108_er_c_float",
    "C108_er_m",
    "C108_small_world",
    "C108_watts_strogatz",
    "C108_barabasi_albert",
    "C108_config",
    "C108_spacial",
    "C108_constructors",
    "C108_chains"
   ],
   "note": "Proved for the model of rand 0.8 of C107. DogEnsemble is on draws only. That nothing but the order is fixed by a kind of draw is closed by C107: the kinds must be fair and every draw must be reached."
  },
  {
   "property": "C109",
   "status": "proved",
   "theorems": [
    "C109_draws",
    "C109_er_c",
    "C109_er_m",
    "C109_small_world",
    "C109_spacial",
    "C109_barabasi_albert",
    "C109_barabasi_albert_new",
    "C109_watts_strogatz",
    "C109_watts_strogatz_new",
    "C109_configuration",
    "C109_configuration_new"
   ],
   "note": "Proved for the model of rand 0.8 of C107. The mean is shown to be finite; C110 has bounds for the calls without loops of their own. DogEnsemble is on draws only (C97)."
  },
  {
   "property": "C110",
   "status": "proved",
   "theorems": [
    "C110_draws",
    "C110_er_c",
    "C110_er_m",
    "C110_small_world",
    "C110_spacial"
   ],
   "note": "Proved for the model of rand 0.8 of C107, with the mean as in C97. Calls with loops of their own (WattsStrogatz, BarabasiAlbert, ConfigurationModel) have a finite mean by C109, not a bound here."
  },
  {
   "property": "C111",
   "status": "proved",
   "theorems": [
    "C111_draws",
    "C111_er_c",
    "C111_er_m",
    "C111_small_world",
    "C111_spacial",
    "C111_rounds"
   ],
   "note": "Proved for the model of rand 0.8 of C107. Given for the draws and for the calls whose kinds depend on the number of the draw alone, and for the rounds of the loops of WattsStrogatz, BarabasiAlbert and ConfigurationModel; for the other calls C108 says that there are kinds."
  }
 ]
}