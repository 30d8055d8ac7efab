{"id": "C01", "title": "Every history of graph edits leaves a simple undirected graph", "statement": "After any sequence of new / from_vec / add_edge / remove_edge / clear_edges / sort_adj / shuffle_adjs / at_mut calls that does not panic, container(i).id() is i, every neighbour index is below vertex_count(), no vertex neighbours itself, no neighbour is listed twice, and i lists j exactly when j lists i. This holds for each of the four containers (Graph, SwGraph, WSGraph, SpacialGraph).", "quantifier": "all start sizes, all finite operation sequences, all arguments, all four container types, debug and release builds", "why_tests_cant": "Tests exercise a few edit histories; the invariant must survive unboundedly many interleavings, and swap_remove reorders lists on every removal.", "anchors": ["src/generic_graph/generic_graph.rs: new, from_vec, add_edge, remove_edge, clear_edges, sort_adj, shuffle_adjs, at_mut", "src/graph.rs: push, remove", "src/sw_graph.rs: push, remove", "src/watts_strogatz/ws_container.rs: push, remove", "src/spacial/spacial_graph.rs: push, remove"]}
{"id": "C02", "title": "edge_count is always the true number of edges", "statement": "After any such history edge_count() equals the number of unordered pairs {i,j} that are adjacent, and the degrees sum to twice edge_count().", "quantifier": "all start sizes and all finite operation sequences", "why_tests_cant": "edge_count is a cached counter; a drift shows up only after a specific interleaving.", "anchors": ["src/generic_graph/generic_graph.rs: edge_count, add_edge, remove_edge, clear_edges, average_degree"]}
{"id": "C03", "title": "add_edge is exact", "statement": "On a simple graph with in-range distinct indices add_edge(i,j) returns Ok iff i and j were not adjacent; on Ok the new set of edges is the old one plus {i,j} and edge_count grows by one; on Err(EdgeExists) the whole graph is unchanged.", "quantifier": "all graphs, all index pairs", "why_tests_cant": "The claim is about every graph and every pair, including what does not change.", "anchors": ["src/generic_graph/generic_graph.rs: add_edge, get_2_mut", "src/graph.rs: push", "src/traits/graph_traits.rs: push"]}
{"id": "C04", "title": "remove_edge is exact", "statement": "On a simple graph with in-range distinct indices remove_edge(i,j) returns Ok iff i and j were adjacent; on Ok the new set of edges is the old one minus {i,j} and edge_count drops by one; on Err(EdgeDoesNotExist) the whole graph is unchanged.", "quantifier": "all graphs, all index pairs", "why_tests_cant": "The claim is about every graph and every pair, including what does not change.", "anchors": ["src/generic_graph/generic_graph.rs: remove_edge", "src/graph.rs: remove, swap_remove_element"]}
{"id": "C05", "title": "Adding and removing an edge cancel out", "statement": "add_edge(i,j) followed by remove_edge(i,j) returns the graph to exactly the state before, including neighbour order; remove_edge followed by add_edge restores the topology and edge_count, with each neighbour list a permutation of the old one.", "quantifier": "all graphs, all index pairs", "why_tests_cant": "Neighbour order after swap_remove depends on the whole list; samples cannot cover all lists.", "anchors": ["src/generic_graph/generic_graph.rs: add_edge, remove_edge", "src/graph.rs: push, remove"]}
{"id": "C06", "title": "Bad indices passed to add_edge / remove_edge panic", "statement": "The documentation of add_edge and remove_edge promises a panic for out-of-range or equal indices. In a debug build this holds for every graph. In a release build the bounds are only debug_assert!ed before raw pointer arithmetic, so the documented panic does not happen (undefined behaviour reachable from safe code).", "quantifier": "all graphs, all out-of-range or equal index pairs, both build profiles", "why_tests_cant": "Undefined behaviour is not observable by a test, and tests run in one profile.", "anchors": ["src/generic_graph/generic_graph.rs: get_2_mut, get_3_mut, add_edge, remove_edge"]}
{"id": "C07", "title": "Topology edits never touch vertex data", "statement": "add_edge, remove_edge, clear_edges, sort_adj and shuffle_adjs leave vertex_count() and the data at(i) of every vertex unchanged; at_mut(i) changes only the data of vertex i and no adjacency.", "quantifier": "all graphs, all operation sequences, all payload types", "why_tests_cant": "Frame conditions quantify over everything that must not change.", "anchors": ["src/generic_graph/generic_graph.rs: at, at_mut, add_edge, remove_edge, clear_edges, sort_adj, shuffle_adjs, get_contained, get_contained_mut"]}
{"id": "C08", "title": "Sorting or shuffling adjacency lists preserves topology", "statement": "sort_adj makes every neighbour list strictly increasing and leaves the set of edges and edge_count unchanged; shuffle_adjs permutes each list and leaves the set of edges and edge_count unchanged for every outcome of the random generator.", "quantifier": "all simple graphs, all four containers, all random outcomes", "why_tests_cant": "Random permutations cannot be enumerated by tests.", "anchors": ["src/generic_graph/generic_graph.rs: sort_adj, shuffle_adjs", "src/graph.rs: sort_adj, shuffle_adj", "src/watts_strogatz/ws_container.rs: sort_adj, shuffle_adj"]}
{"id": "C09", "title": "complete_graph(n) is the complete graph", "statement": "For n >= 1 Graph::complete_graph(n) is a simple graph with n vertices, any two different vertices are adjacent, and edge_count() is n(n-1)/2. For n = 0 a debug build panics on arithmetic underflow, while a release build returns the empty graph.", "quantifier": "all n", "why_tests_cant": "Must hold for every n.", "anchors": ["src/graph.rs: complete_graph"]}
{"id": "C10", "title": "init_ring builds exactly the ring lattice", "statement": "On a graph with n vertices init_ring(d) succeeds if n >= 2d+1 and then i and j are adjacent exactly when their cyclic distance is between 1 and d; edge_count is n*d and every degree is 2d. Earlier edges are discarded. For d >= 1 and d < n <= 2d it returns Err(EdgeExists); for 1 <= n <= d it does not succeed (debug: panic).", "quantifier": "all n, d, all starting graphs", "why_tests_cant": "Needs arithmetic over all n and d, including the wrap-around cases.", "anchors": ["src/generic_graph/generic_graph.rs: init_ring", "src/sw_graph.rs: init_ring_2", "src/watts_strogatz/ensemble.rs: new"]}
{"id": "C11", "title": "Depth-first iterators visit exactly one component, each vertex once", "statement": "dfs(i), dfs_with_index(i) and dfs_mut(i) terminate and yield every vertex reachable from i exactly once and nothing else, starting with i; they yield the right payload/container for each index; for i >= vertex_count() they yield nothing. The three iterators visit in the same order.", "quantifier": "all simple graphs, all start indices", "why_tests_cant": "Universal over graphs; termination and completeness are not finite facts.", "anchors": ["src/generic_graph/iterators.rs: new, next", "src/generic_graph/generic_graph.rs: dfs, dfs_mut, dfs_with_index"]}
{"id": "C12", "title": "The iteration order of dfs is a depth-first order", "statement": "The documentation of dfs says the order is guaranteed to be depth first. A depth-first order only backtracks when the current vertex has no unvisited neighbour.", "quantifier": "all simple graphs, all start indices", "why_tests_cant": "The guarantee quantifies over all graphs; on small examples the produced order happens to be depth first.", "anchors": ["src/generic_graph/iterators.rs: next", "src/generic_graph/generic_graph.rs: dfs, dfs_with_index"]}
{"id": "C13", "title": "Breadth-first iterator reports shortest-path distances", "statement": "bfs_index_depth(i) terminates and yields every vertex reachable from i exactly once, together with its payload and a depth that is the length of a shortest path from i; depths never decrease along the iteration; reuse(i) on a used iterator behaves like a fresh one. bfs_index_depth_mut agrees.", "quantifier": "all simple graphs, all start indices, all earlier uses of the iterator", "why_tests_cant": "Minimality of distances quantifies over all walks.", "anchors": ["src/generic_graph/iterators.rs: new, reuse, next", "src/generic_graph/generic_graph.rs: bfs_index_depth, bfs_index_depth_mut"]}
{"id": "C14", "title": "Filtered breadth-first search respects the filter", "statement": "bfs_filtered(i, f) is None iff i is out of range or rejected by f; otherwise it yields exactly the vertices reachable from i through vertices accepted by f, each once, with their distance in the subgraph of accepted vertices.", "quantifier": "all simple graphs, all start indices, all (pure) filters", "why_tests_cant": "Universal over graphs and filters.", "anchors": ["src/generic_graph/iterators.rs: new, next, is_handled", "src/generic_graph/generic_graph.rs: bfs_filtered"]}
{"id": "C15", "title": "BfsFiltered::reuse respects the filter", "statement": "After reuse(i, f) on an existing filtered search, a returned Ok iterator yields only vertices accepted by f, and an out-of-range index gives Err rather than a panic.", "quantifier": "all graphs, all filters, all start indices", "why_tests_cant": "Tests for reuse would need to combine a filter that rejects reachable vertices with a reuse call.", "anchors": ["src/generic_graph/iterators.rs: reuse"]}
{"id": "C16", "title": "is_connected is correct", "statement": "is_connected() returns None iff the graph has no vertices, Some(true) iff every two vertices are joined by a path, and Some(false) otherwise.", "quantifier": "all simple graphs", "why_tests_cant": "Universal over graphs and walks.", "anchors": ["src/generic_graph/generic_graph.rs: is_connected"]}
{"id": "C17", "title": "connected_components_ids labels components", "statement": "connected_components_ids() returns (k, ids) with one non-negative id below k per vertex; two vertices get the same id iff they are joined by a path; every id below k is used.", "quantifier": "all simple graphs", "why_tests_cant": "Universal over graphs and walks.", "anchors": ["src/generic_graph/generic_graph.rs: connected_components_ids"]}
{"id": "C18", "title": "connected_components lists component sizes", "statement": "connected_components() is sorted in descending order and is, as a multiset, the list of the sizes of the connected components; the entries are positive and sum to vertex_count().", "quantifier": "all simple graphs", "why_tests_cant": "Universal over graphs and walks.", "anchors": ["src/generic_graph/generic_graph.rs: connected_components"]}
{"id": "C19", "title": "suggest_connections returns one vertex per component", "statement": "suggest_connections() returns exactly one representative of each connected component.", "quantifier": "all simple graphs", "why_tests_cant": "Universal over graphs and walks.", "anchors": ["src/generic_graph/generic_graph.rs: suggest_connections"]}
{"id": "C20", "title": "diameter is correct", "statement": "diameter() is None iff the graph is empty or disconnected; otherwise it is Some(d) where d is the largest shortest-path distance between two vertices, although the search from vertex 0 is skipped.", "quantifier": "all simple graphs", "why_tests_cant": "Needs the symmetry argument over all graphs that skipping one start vertex is harmless.", "anchors": ["src/generic_graph/generic_graph.rs: diameter"]}
{"id": "C21", "title": "longest_shortest_path_from_index is the eccentricity within the component", "statement": "longest_shortest_path_from_index(i) is None iff i is out of range; otherwise it is the largest distance from i to a vertex of its component.", "quantifier": "all simple graphs, all indices", "why_tests_cant": "Universal over graphs and walks.", "anchors": ["src/generic_graph/generic_graph.rs: longest_shortest_path_from_index"]}
{"id": "C22", "title": "q_core returns the largest connected piece of the q-core", "statement": "q_core(q) is None for q < 2 (and for the empty graph); otherwise it is Some(s), where s is the size of the largest connected component of the largest vertex set in which every vertex has at least q neighbours inside the set (0 if that set is empty).", "quantifier": "all simple graphs, all q", "why_tests_cant": "Maximality quantifies over all vertex subsets.", "anchors": ["src/generic_graph/generic_graph.rs: q_core"]}
{"id": "C23", "title": "q_core counts the biggest set with q neighbours inside", "statement": "The documentation defines the result of q_core(q) as the number of nodes in the biggest possible set of nodes where every node is connected with at least q other nodes of the set.", "quantifier": "all simple graphs, all q", "why_tests_cant": "Maximality quantifies over all vertex subsets; a counterexample needs a disconnected core.", "anchors": ["src/generic_graph/generic_graph.rs: q_core"]}
{"id": "C24", "title": "transitivity counts closed and open paths", "statement": "transitivity() is the quotient closed/total where total is the number of ordered paths a-b-c of length two with a != c, and closed is the number of those with a adjacent to c; both are independent of neighbour order.", "quantifier": "all simple graphs", "why_tests_cant": "Universal over graphs.", "anchors": ["src/generic_graph/generic_graph.rs: transitivity"]}
{"id": "C25", "title": "vertex_load obeys the load recursion", "statement": "In exact arithmetic vertex_load(true)[v] is the sum over sources s != v in the component of v of the flow through v, where each vertex w != s sends one unit plus all it received to the neighbours one step nearer to s in equal shares; vertex_load(false)[v] is that minus the size of the component of v without v.", "quantifier": "all simple graphs, all vertices", "why_tests_cant": "Universal over graphs; the tests compare only complete graphs and a few small cases.", "anchors": ["src/generic_graph/generic_graph.rs: vertex_load"]}
{"id": "C26", "title": "vertex_load conserves flow", "statement": "In exact arithmetic the entries of vertex_load(true) sum to the sum of d(s,t) over all ordered pairs of connected vertices; on the complete graph with N vertices every entry is N-1 with endpoints and 0 without.", "quantifier": "all simple graphs; all N", "why_tests_cant": "Universal over graphs and N.", "anchors": ["src/generic_graph/generic_graph.rs: vertex_load"]}
{"id": "C27", "title": "closeness_centrality uses true distances", "statement": "In exact arithmetic closeness_centrality()[i] is (N-1) divided by the sum of the distances from i to all vertices in its component. On the empty graph a debug build panics (underflow).", "quantifier": "all simple graphs, all vertices", "why_tests_cant": "Universal over graphs and walks.", "anchors": ["src/generic_graph/generic_graph.rs: closeness_centrality"]}
{"id": "C28", "title": "vertex_biconnected_components returns the sizes of the biconnected components", "statement": "vertex_biconnected_components(false) is the descending list of the vertex counts of the maximal biconnected subgraphs (blocks).", "quantifier": "all simple graphs, all neighbour orders", "why_tests_cant": "The result depends on neighbour order; a counterexample needs a particular graph together with a particular order.", "anchors": ["src/generic_graph/generic_graph.rs: vertex_biconnected_components"]}
{"id": "C29", "title": "vertex_biconnected_components terminates and is internally consistent", "statement": "vertex_biconnected_components terminates without panicking on every simple graph; the result is sorted descending; every entry is at least 2; the result with alternative_definition = true is the result with false restricted to entries larger than 2; every edge contributes to exactly one reported component.", "quantifier": "all simple graphs, all neighbour orders", "why_tests_cant": "Termination and absence of panics on all graphs cannot be tested.", "anchors": ["src/generic_graph/generic_graph.rs: vertex_biconnected_components"]}
{"id": "C30", "title": "cloned_subgraph is the induced subgraph", "statement": "cloned_subgraph(indices) is None iff the list is empty or contains an out-of-range index; otherwise, with the indices sorted and deduplicated as v_0 < ... < v_k, the result is a simple graph whose vertex a carries the data of v_a and whose vertices a, b are adjacent iff v_a and v_b are, with correct edge_count.", "quantifier": "all simple graphs, all index lists", "why_tests_cant": "Universal over graphs and lists.", "anchors": ["src/generic_graph/generic_graph.rs: cloned_subgraph"]}
{"id": "C31", "title": "Converting or cloning a topology preserves it", "statement": "clone_topology and Graph::from(&graph) produce a simple graph with the same vertex_count, the same edges and edge_count, and the payloads given by the conversion function; from_vec and collect number payloads in order with no edges; reset_from_graph makes the first vertices carry exactly the edges of the source.", "quantifier": "all simple graphs, all payload maps", "why_tests_cant": "Universal over graphs.", "anchors": ["src/generic_graph/generic_graph.rs: clone_topology, from_vec", "src/graph.rs: from, from_iter, reset_from_graph"]}
{"id": "C32", "title": "Degree statistics agree with adjacency", "statement": "degree(i) is None iff i is out of range and otherwise the number of neighbours; degree_vec and degree_iter list all degrees in order; leaf_count is the number of vertices of degree one; average_degree is 2*edge_count/vertex_count as an exact quotient; degree_histogram panics iff the graph has no vertices, and otherwise counts for each d between the smallest and the largest degree the vertices of degree d.", "quantifier": "all simple graphs", "why_tests_cant": "Universal over graphs.", "anchors": ["src/generic_graph/generic_graph.rs: degree, degree_vec, degree_iter, leaf_count, average_degree, degree_histogram"]}
{"id": "C33", "title": "dot output determines the graph", "statement": "dot output lists every vertex once in order and every edge exactly once, as `i -- j` with i < j; two graphs on the same vertices with different edge sets never produce the same text.", "quantifier": "all simple graphs", "why_tests_cant": "Injectivity quantifies over pairs of graphs.", "anchors": ["src/generic_graph/generic_graph.rs: to_dot", "src/traits/dot_traits.rs: dot_with_indices, dot_from_indices"]}
{"id": "C34", "title": "ErEnsembleC::randomize is exact", "statement": "After randomize, for every outcome of the random generator, i and j are adjacent exactly when the draw for the pair accepted it; the graph is simple and edge_count is the number of accepted draws; each pair is drawn exactly once; old edges have no influence.", "quantifier": "all sizes, all previous states, all random outcomes", "why_tests_cant": "2^(n(n-1)/2) outcomes.", "anchors": ["src/er_c.rs: randomize, new, set_target_connectivity"]}
{"id": "C35", "title": "ErEnsembleC undo_step reverts m_step", "statement": "Undoing a sequence of Monte Carlo steps in reverse order restores the edge set and edge_count of the ensemble exactly (neighbour lists up to order), for any number of steps and any random outcome; no undo in that order reports an error; undo_step returns the inverse step.", "quantifier": "all graphs, all step sequences, all random outcomes", "why_tests_cant": "Unbounded histories and random outcomes.", "anchors": ["src/er_c.rs: m_step, undo_step, undo_step_quiet"]}
{"id": "C36", "title": "ErEnsembleC make_connected", "statement": "make_connected on a non-empty graph yields a connected graph, keeps every old edge and adds exactly (number of components - 1) edges; it never panics on a non-empty graph and panics on the empty one.", "quantifier": "all simple graphs", "why_tests_cant": "Universal over graphs and walks.", "anchors": ["src/er_c.rs: make_connected", "src/generic_graph/generic_graph.rs: suggest_connections"]}
{"id": "C37", "title": "Random pair drawing is unbiased", "statement": "The mapping from the two uniform range draws to the pair of vertices used by ErEnsembleC::m_step hits every ordered pair of distinct vertices exactly once, never an equal pair and never an out-of-range index; with fewer than two vertices it panics.", "quantifier": "all n", "why_tests_cant": "Uniformity is a counting claim over all draws.", "anchors": ["src/er_c.rs: draw_two_from_range"]}
{"id": "C38", "title": "ErEnsembleM always has exactly m edges", "statement": "ErEnsembleM::new(n,m) fails by panic iff m > n(n-1)/2; afterwards, for any sequence of randomize / m_step / undo, the graph is simple with exactly m edges, and the tracked list of current edges is the edge set of the graph while the list of possible edges is its complement.", "quantifier": "all n >= 1, m, all histories, all random outcomes", "why_tests_cant": "Unbounded histories and random outcomes.", "anchors": ["src/er_m.rs: new, randomize, m_step, step, undo_step"]}
{"id": "C39", "title": "ErEnsembleM undo restores the exact state", "statement": "Undoing Monte Carlo steps in reverse order restores the edge set, and the current/possible edge bookkeeping exactly, entry by entry; no step panics if 0 < m < n(n-1)/2, and m_step panics for m = 0 or m = n(n-1)/2.", "quantifier": "all states, all step sequences, all random outcomes", "why_tests_cant": "Unbounded histories and random outcomes.", "anchors": ["src/er_m.rs: m_step, step, undo_step, undo_step_quiet"]}
{"id": "C40", "title": "Small-world ensemble keeps two rooted edges per vertex", "statement": "After SwEnsemble::new (n >= 5) and any sequence of randomize, m_step, undo and make_connected, every vertex has exactly two edges rooted at it (count_root returns 2), with original targets i+1 and i+2 (mod n), every edge is rooted at exactly one of its endpoints, edge_count is 2n, every degree is at least two (no leaves), and the graph is simple.", "quantifier": "all n >= 5, all histories, all random outcomes", "why_tests_cant": "Unbounded histories and random outcomes.", "anchors": ["src/sw.rs: new, randomize, m_step, undo_step, make_connected", "src/sw_graph.rs: rewire, reset, rewire_edge, reset_edge, count_root"]}
{"id": "C41", "title": "Small-world undo_step reverts m_step", "statement": "Undoing SwEnsemble steps in reverse order restores edges, roots and original targets (up to neighbour order); undoing never reports an error and m_step never returns GError or InvalidAdjecency.", "quantifier": "all states, all step sequences, all random outcomes", "why_tests_cant": "Unbounded histories and random outcomes.", "anchors": ["src/sw.rs: m_step, undo_step, undo_step_quiet, randomize_edge"]}
{"id": "C42", "title": "Small-world make_connected terminates with a connected graph", "statement": "SwEnsemble::make_connected terminates without panic for every state reachable from new (n >= 5), and the resulting graph is connected, with the root invariants intact.", "quantifier": "all reachable states", "why_tests_cant": "Termination on all states; resets can temporarily disconnect further parts.", "anchors": ["src/sw.rs: make_connected", "src/sw_graph.rs: reset_edge"]}
{"id": "C43", "title": "Small-world draws are unbiased", "statement": "The map used to draw a rewiring target hits every vertex other than the root exactly once; the map used to draw an edge hits every rooted edge exactly once.", "quantifier": "all n, all reachable states", "why_tests_cant": "Uniformity is a counting claim over all draws and states.", "anchors": ["src/sw.rs: draw_remaining, draw_edge"]}
{"id": "C44", "title": "SwEnsemble::new_with_distance works for every distance", "statement": "The constructor new_with_distance(n, p, rng, distance) accepts a distance; for n >= 2*distance+1 it should return an ensemble.", "quantifier": "all n, all distances", "why_tests_cant": "Requires considering every distance.", "anchors": ["src/sw.rs: new_with_distance, randomize"]}
{"id": "C45", "title": "Long-range edge counting", "statement": "count_long_ranging_edges() is the number of edges whose current target differs from their original target (fewer than or equal to edge_count); count_nodes_with_long_ranging_edges() is the number of vertices incident to one.", "quantifier": "all reachable small-world states", "why_tests_cant": "Unbounded histories.", "anchors": ["src/sw_graph.rs: count_long_ranging_edges, count_nodes_with_long_ranging_edges"]}
{"id": "C46", "title": "Watts-Strogatz randomize preserves edge count and simplicity", "statement": "Whenever SmallWorldWS randomization terminates the graph is simple with exactly n*d edges and correct edge_count; every entry flagged as at its origin joins the pair it started with; the neighbour list and the bookkeeping list of each vertex stay in lockstep.", "quantifier": "all n >= 2d+1, all random outcomes, all repetitions", "why_tests_cant": "Random outcomes and unbounded repetitions.", "anchors": ["src/watts_strogatz/ensemble.rs: new, randomize, add_random_edge", "src/watts_strogatz/ws_container.rs: push, remove"]}
{"id": "C47", "title": "Watts-Strogatz construction terminates", "statement": "SmallWorldWS::new(n, d, p, rng) accepts every n >= 2d+1 and should return.", "quantifier": "all n >= 2d+1, all random outcomes", "why_tests_cant": "Non-termination cannot be observed by a test.", "anchors": ["src/watts_strogatz/ensemble.rs: new, add_random_edge, randomize"]}
{"id": "C48", "title": "Configuration model realises its degree sequence", "statement": "Whenever ConfigurationModel randomization terminates, the graph is simple and degree(i) is degree_vec[i] for every i, for every random outcome. swap_degree_vec and degree_vec_from_generic_graph panic for another number of vertices, and the latter does the same as the former without its check and without giving the old vector back.", "quantifier": "all degree sequences with even sum, all random outcomes", "why_tests_cant": "All shuffles and all degree sequences.", "anchors": ["src/configuration_model.rs: randomize, init_edge_halfs, add_multiple_random_edges, from_vec_unchecked, swap_degree_vec, swap_degree_vec_unchecked, degree_vec_from_generic_graph"]}
{"id": "C49", "title": "Configuration model steps preserve degrees and can be undone", "statement": "m_step preserves every degree and simplicity, and returns Error only with the graph unchanged (including neighbour order); undoing steps in reverse order restores the edge set; no undo in that order reports an error; m_step panics if the graph has no edges.", "quantifier": "all states, all step sequences, all random outcomes", "why_tests_cant": "Unbounded histories and random outcomes.", "anchors": ["src/configuration_model.rs: m_step, undo_step, undo_step_quiet"]}
{"id": "C50", "title": "Configuration model undo is atomic", "statement": "For every step value with in-range distinct endpoints (also one that does not belong to this graph) undo_step either applies the complete swap or reports an error with edge set and edge_count unchanged; it never panics.", "quantifier": "all states, all step values", "why_tests_cant": "Foreign or stale steps cannot be enumerated.", "anchors": ["src/configuration_model.rs: undo_step"]}
{"id": "C51", "title": "An accepted degree sequence can be realised", "statement": "ConfigurationModel::from_vec checks the degree sequence with degree_vec_is_valid and should return for every accepted sequence.", "quantifier": "all degree sequences", "why_tests_cant": "Non-termination cannot be observed by a test.", "anchors": ["src/configuration_model.rs: degree_vec_is_valid, from_vec, randomize"]}
{"id": "C52", "title": "Barabasi-Albert structure", "statement": "Whenever BAensemble randomization terminates, the source graph is the induced subgraph on the first vertices, every later vertex is joined to exactly m earlier vertices, edge_count is that of the source plus m times the number of new vertices, the graph is simple, and the weights used for attachment equal the current degrees.", "quantifier": "all source graphs, all m and n, all random outcomes", "why_tests_cant": "Random outcomes and all sizes.", "anchors": ["src/barabasi_albert.rs: randomize, new, new_from_graph, new_from_generic_graph", "src/graph.rs: reset_from_graph"]}
{"id": "C53", "title": "Barabasi-Albert construction terminates", "statement": "BAensemble::new(n, rng, m, source_n) checks source_n >= 2 and n > source_n, and should return for all accepted arguments.", "quantifier": "all accepted arguments, all random outcomes", "why_tests_cant": "Non-termination cannot be observed by a test.", "anchors": ["src/barabasi_albert.rs: new, randomize"]}
{"id": "C54", "title": "Spacial ensemble steps", "statement": "SpacialEnsemble::randomize and m_step keep a simple graph; undoing steps in reverse order restores edges and edge_count; m_steps_quiet(k) has the same effect as k calls of m_step with the same random draws; positions never change in steps.", "quantifier": "all graphs, all step sequences, all random outcomes", "why_tests_cant": "Unbounded histories and random outcomes.", "anchors": ["src/spacial/spacial_ensemble.rs: randomize, m_step, m_steps_quiet, undo_step, undo_step_quiet", "src/spacial/spacial_graph.rs: push, remove"]}
{"id": "C55", "title": "Dog ensemble randomize keeps a simple graph", "statement": "Whenever DogEnsemble randomization terminates the graph is simple, edge_count is right, and positions are those of the sampled hypercube.", "quantifier": "all sizes, all random outcomes", "why_tests_cant": "Random outcomes.", "anchors": ["src/spacial/dog_networks.rs: randomize"]}
{"id": "C56", "title": "Latin hypercube sampling is Latin", "statement": "For every outcome of the shuffles the n sampled points use every x coordinate 0..n-1 exactly once and every y coordinate exactly once, and exactly n points are produced.", "quantifier": "all n, all shuffles", "why_tests_cant": "n!^2 outcomes.", "anchors": ["src/spacial/dog_networks.rs: new, next, len"]}
{"id": "C57", "title": "Dual-graph cross edges are symmetric", "statement": "After any sequence of add_edge calls on a dual graph, j is a cross neighbour of i in graph 1 exactly when i is a cross neighbour of j in graph 2; add_edge returns EdgeExists iff the cross edge exists; nothing else changes.", "quantifier": "all sizes, all add_edge sequences, both adjacency kinds", "why_tests_cant": "Unbounded sequences.", "anchors": ["src/dual_graph/dual_graph.rs: add_edge, is_adjacent, slice"]}
{"id": "C58", "title": "Dual-graph traversals see the union graph", "statement": "dfs_index and dfs_contained on a dual graph yield every vertex reachable in the union of both graphs and the cross edges exactly once, bfs_index does so with shortest distances in order (also after reuse); is_connected and diameter of the dual graph are those of the union graph.", "quantifier": "all dual graphs with symmetric cross edges", "why_tests_cant": "Universal over graphs and walks.", "anchors": ["src/dual_graph/dual_graph.rs: is_connected, diameter, dfs_index, dfs_contained, bfs_index", "src/dual_graph/dual_graph_iterators.rs: new, next"]}
{"id": "C59", "title": "Neighbour iterators obey the iterator contract", "statement": "For the small-world neighbour iterator and the contained-data iterators, any interleaving of next, next_back and nth yields the same items as the same calls on the plain neighbour list; len is the exact number of remaining items.", "quantifier": "all neighbour lists, all call sequences", "why_tests_cant": "Unbounded call sequences.", "anchors": ["src/sw_graph.rs: next, next_back, nth, size_hint", "src/iter.rs: next, next_back, nth, nth_back, size_hint"]}
{"id": "C60", "title": "size_hint of the traversal iterators is valid", "statement": "At any time during a dfs or bfs iteration the lower bound of size_hint is at most, and its upper bound at least, the number of items still to come.", "quantifier": "all simple graphs, all start indices, all iteration states", "why_tests_cant": "All states of all iterations.", "anchors": ["src/generic_graph/iterators.rs: size_hint"]}
{"id": "C61", "title": "A connection probability of zero gives no edges", "statement": "With connectivity 0 the acceptance test `draw <= prob` should never accept, so ErEnsembleC never creates an edge and small-world edges are never rewired at probability 0.", "quantifier": "all draws of a uniform number in [0,1)", "why_tests_cant": "The offending draw has probability 2^-53.", "anchors": ["src/er_c.rs: randomize, m_step", "src/sw.rs: randomize_edge"]}
{"id": "C62", "title": "ErEnsembleM undo detects an invalid step", "statement": "undo_step_quiet is documented to panic on an invalid result state; so whenever it returns, the lists of current and possible edges should still describe the graph.", "quantifier": "all states, all step values previously returned by m_step, in any order", "why_tests_cant": "The failing order of undo calls needs particular coincidences of drawn positions.", "anchors": ["src/er_m.rs: undo_step_quiet, step"]}
{"id": "C63", "title": "rewire_edge and reset_edge panic out of bounds", "statement": "SwGraph::rewire_edge and SwGraph::reset_edge are documented to panic if an index is out of bounds.", "quantifier": "all small-world graphs, all indices, debug and release builds", "why_tests_cant": "Tests run with debug assertions; the release behaviour is undefined and the silent case needs equal out-of-range indices.", "anchors": ["src/sw_graph.rs: reset_edge, rewire_edge", "src/generic_graph/generic_graph.rs: get_2_mut, get_3_mut"]}
{"id": "C64", "title": "Each ring edge is rewired with the rewire probability", "statement": "WS::new documents that each edge will be rewired with a probability of rewire_probability, i.e. one decision per edge of the ring.", "quantifier": "all n >= 2d+1, all draws", "why_tests_cant": "A bias in a random decision needs all draws, not a sample.", "anchors": ["src/watts_strogatz/ensemble.rs: new, randomize"]}
{"id": "C65", "title": "ConfigurationModelStep::Added holds the newly added edges", "statement": "As documented, the value Added(e1, e2) returned by m_step contains the edges that the step added.", "quantifier": "all models, all random outcomes", "why_tests_cant": "A documented meaning of a result; no test looks at the contents.", "anchors": ["src/configuration_model.rs: m_step, undo_step"]}
{"id": "C66", "title": "from_const is from_vec on the constant vector", "statement": "ConfigurationModel::from_const(c, n, rng) returns what from_vec(vec![c; n], rng) returns, in particular None when the degree vector is invalid.", "quantifier": "all c and n, all random outcomes", "why_tests_cant": "All sizes, all outcomes.", "anchors": ["src/configuration_model.rs: from_const, from_vec, degree_vec_is_valid"]}
{"id": "C67", "title": "Preferential attachment", "statement": "When BAensemble adds a vertex, each draw proposes vertex k with a probability equal to the degree k had before the vertex was added, divided by twice the number of edges: of the list_sum(weights) equally likely numbers exactly weight(k) lead to k, the weights are the degrees before the vertex is added, sum to twice edge_count, and are the degrees again afterwards; new vertices are only joined to vertices that had a neighbour before.", "quantifier": "all graphs, all weights, all vertices, all random outcomes", "why_tests_cant": "A distribution cannot be read off finitely many samples, and the bookkeeping must be right in every round for every size.", "anchors": ["src/barabasi_albert.rs: randomize"]}
{"id": "C68", "title": "Dog ensemble randomization returns", "statement": "DogEnsemble::randomize (and so new) should return for all accepted arguments: the loop that attaches the Poisson-distributed number of further edges of a special vertex should end with probability one.", "quantifier": "all accepted arguments, all outcomes of the earlier draws", "why_tests_cant": "Non-termination depends on rare samples and cannot be told from slowness by a test.", "anchors": ["src/spacial/dog_networks.rs: randomize"]}
{"id": "C69", "title": "The hypercube iterator has an exact size", "statement": "LatinHypercubeSampling2D implements ExactSizeIterator, so size_hint must return (len, Some(len)) at all times.", "quantifier": "all iterator states", "why_tests_cant": "All states; nothing in the crate calls size_hint.", "anchors": ["src/spacial/dog_networks.rs: new, next, len"]}
{"id": "C70", "title": "Degrees and neighbour iterators of a dual graph describe the union graph", "statement": "degree_1/degree_2 are the number of neighbours of a vertex in the union of both graphs and the cross edges, and panic exactly for an index out of range; contained_iter_neighbors_1/2 and all neighbour iterators of SingleDualGraph give the payload of every such neighbour exactly once, the mutable ones with the right graph and index.", "quantifier": "all dual graphs with symmetric cross edges, all vertices, both build profiles", "why_tests_cant": "Universal over graphs and vertices.", "anchors": ["src/dual_graph/dual_graph.rs: degree_1, degree_2, contained_iter_neighbors_1, graph_1_contained_iter, graph_1_contained_iter_mut_which_graph_with_index"]}
{"id": "C71", "title": "Safe neighbour iterators of SingleDualGraph are memory safe", "statement": "graph_1_contained_iter, graph_1_contained_iter_mut and graph_2_contained_iter are safe functions, so an index out of range must not cause undefined behaviour in any build profile.", "quantifier": "all indices, both build profiles", "why_tests_cant": "Tests run with debug assertions, where the check is present.", "anchors": ["src/dual_graph/dual_graph.rs: graph_1_contained_iter, graph_1_contained_iter_mut, graph_2_contained_iter"]}
{"id": "C72", "title": "Changing a graph through graph_1_mut or graph_2_mut keeps the dual graph usable", "statement": "Whatever safe code writes through graph_1_mut and graph_2_mut, the searches and neighbour iterators of the dual graph started at existing vertices neither panic nor cause undefined behaviour.", "quantifier": "all replacements of either graph", "why_tests_cant": "Universal over replacements; tests do not replace graphs.", "anchors": ["src/dual_graph/dual_graph.rs: graph_1_mut, graph_2_mut, graph_1_contained_iter_neighbors_in_other_graph_mut"]}
{"id": "C73", "title": "References handed out by the mutable payload iterators never alias", "statement": "A client of contained_iter_mut, contained_iter_neighbors_mut or contained_iter_neighbors_mut_with_index may interleave all iterator calls with writes through any reference it still holds: the raw pointers stay in range, live references point to pairwise different vertices and never to the vertex whose adjacency list is borrowed, and only the payloads written change.", "quantifier": "all graphs, vertices, client programs, both build profiles", "why_tests_cant": "Unbounded client programs; aliasing is invisible to assertions.", "anchors": ["src/iter.rs: new, next, next_back", "src/generic_graph/generic_graph.rs: contained_iter_neighbors_mut, contained_iter_neighbors_mut_with_index, contained_iter_mut"]}
{"id": "C74", "title": "Measures do not depend on vertex numbering or neighbour order", "statement": "is_connected, component sizes, diameter, longest shortest path, q-core sizes, transitivity, leaf count, degree distribution and edge count agree on isomorphic graphs, and closeness centrality and vertex load are carried along by the isomorphism; in particular all of them are unchanged by sort_adj, shuffle_adj and by switching the container type. vertex_biconnected_components is documented as a property of the graph too, so it should be invariant as well.", "quantifier": "all pairs of graphs, all isomorphisms, all container types", "why_tests_cant": "Quantifies over all relabelings of all graphs; the algorithms start at vertex 0 and follow the stored order, so a dependence on the order shows up only for particular graphs.", "anchors": ["src/generic_graph/generic_graph.rs: connected_components, diameter, q_core, transitivity, closeness_centrality, vertex_load, vertex_biconnected_components, sort_adj, shuffle_adjs"]}
{"id": "C75", "title": "The measures of one graph are consistent with each other", "statement": "Component sizes are positive and sum to the vertex count; is_connected holds iff there is one component; diameter is defined iff the graph is connected and not empty, and is then attained, below the vertex count and at most twice any eccentricity; q_core is at most the vertex count, antitone in q, and larger than q when it is not 0; the transitivity lies between 0 and 1; vertices are at most edges plus components, with equality exactly when the 2-core is empty, i.e. for forests.", "quantifier": "all graphs of all container types", "why_tests_cant": "Relations between independent algorithms over all graphs.", "anchors": ["src/generic_graph/generic_graph.rs: connected_components, is_connected, diameter, longest_shortest_path_from_index, q_core, transitivity"]}
{"id": "C76", "title": "ErEnsembleC::m_step resamples exactly one pair", "statement": "A Monte Carlo step draws a pair of different vertices and a number; afterwards the pair is joined iff the number is at most the edge probability, whatever it was before, no other pair changes, and the returned step says precisely what was changed. Undoing a step that does not fit the current graph is reported as an error that changes nothing by undo_step and panics in undo_step_quiet.", "quantifier": "all graphs with two vertices or more, all draws, all steps to undo", "why_tests_cant": "All states times all random outcomes; statistical tests see only marginals.", "anchors": ["src/er_c.rs: m_step, undo_step, undo_step_quiet"]}
{"id": "C77", "title": "ErEnsembleM draws every graph with m edges with the same probability", "statement": "Given independent uniform draws, ErEnsembleM::new and randomize produce every graph with n vertices and m edges from the same number of the equally likely outcomes of the draws, m!(N-m)! of N! with N = n(n-1)/2, whatever the ensemble was before; the underlying shuffle produces every arrangement from exactly one outcome.", "quantifier": "all n and m, all states of the ensemble, all target graphs", "why_tests_cant": "Uniformity over a combinatorially large set cannot be established by sampling.", "anchors": ["src/er_m.rs: new, randomize, shuffle_all_edges"]}
{"id": "C78", "title": "The Markov chains of the Erdos-Renyi ensembles are symmetric and reach every graph", "statement": "A step of ErEnsembleM leads from a graph to another one with exactly one of the m(N-m) equally likely outcomes if they differ by one exchanged edge and with none otherwise, so it is as likely as the step back; from any state every graph with n vertices and m edges is reached with one step per missing edge. A chain of ErEnsembleC steps reaches every graph on the vertices if the probability is not negative and some draw exceeds it.", "quantifier": "all states, all target graphs", "why_tests_cant": "Detailed balance and irreducibility quantify over all pairs of states and all paths between them.", "anchors": ["src/er_m.rs: m_step, step", "src/er_c.rs: m_step"]}
{"id": "C79", "title": "Dot output: all variants write the same drawing, also into failing writers", "statement": "Every dot function of a graph or ensemble writes the same text up to the labels, and calls the label closure once per vertex in the order of the indices; into a writer that fails, a beginning of that text is written and an error is returned; the functions returning a String return exactly that text and panic only if the closure does; the spacial ensembles append the position of the vertex to its label.", "quantifier": "all simple graphs, all closures with state, all writers, all points of failure", "why_tests_cant": "Arbitrary closures and writers failing at any byte.", "anchors": ["src/traits/dot_traits.rs: dot, dot_with_indices, dot_from_indices, dot_from_contained, dot_from_container", "src/generic_graph/generic_graph.rs: dot_from_container_index, dot_from_contained_index, dot_from_indices, to_dot_with_labels_from_contained, to_dot_with_labels_from_container", "src/spacial/spacial_ensemble.rs: dot_from_indices", "src/spacial/dog_networks.rs: dot_from_indices"]}
{"id": "C80", "title": "What a single edge does to the measures", "statement": "Adding an edge inside a component leaves the list of component sizes unchanged, adding one between two components replaces their two sizes by the sum; removing an edge is the converse. The two counts behind the transitivity grow by six times the number of common neighbours and by twice the sum of the degrees. A graph with the same vertices and more edges has degrees and q-cores at least as large, a diameter at most as large, and is connected if the smaller one is.", "quantifier": "all simple graphs, all container types, all edges, all q", "why_tests_cant": "Relates measures of two graphs for arbitrary graphs and edges.", "anchors": ["src/generic_graph/generic_graph.rs: add_edge, remove_edge, connected_components, transitivity, diameter, q_core, is_connected"]}
{"id": "C81", "title": "What vertex_biconnected_components gets right", "statement": "Although single sizes can be wrong (C28), the number of entries is the number of blocks of the graph and so does not depend on how the vertices are numbered or the neighbours ordered. A graph with exactly one block gets exactly its size, the vertex count is the only entry exactly when the whole graph is biconnected, and all entries are 2 (the alternative definition gives nothing) exactly when every block is a single edge.", "quantifier": "all simple graphs, all container types, both build profiles, all isomorphisms", "why_tests_cant": "Quantifies over all graphs and compares the run of the search with the maximal biconnected vertex sets.", "anchors": ["src/generic_graph/generic_graph.rs: vertex_biconnected_components, sort_adj"]}
{"id": "C82", "title": "The Markov chain of the configuration model is symmetric and connects all graphs with the degrees", "statement": "Let g and h be different simple graphs with the same degrees. The number of draws with which one m_step turns g into h is proportional to the number of ways to choose two directed edges a-b, c-d of g whose replacement by a-c, b-d gives h; this number is the same for h and g exchanged, so a step and the step back are equally likely. How many pairs of vertices are accepted depends on the degrees only, and a rejected pair has no effect. From every graph the chain can reach every other simple graph with the same degrees. So the uniform distribution is stationary.", "quantifier": "all degree vectors, all states with these degrees, all simple target graphs, all draws, both build profiles", "why_tests_cant": "Counts all draws for all graphs and needs a connectedness argument over all graphs with given degrees.", "anchors": ["src/configuration_model.rs: m_step"]}
{"id": "C83", "title": "randomize of the configuration model forgets the past, but is not uniform", "statement": "Each shuffle in randomize either makes a graph or is followed by another shuffle; how many shuffles make a given graph depends neither on the graph before, nor on the order of the stored half edges, nor on how many shuffles failed before. So the distribution of randomize is given by the counts of one shuffle. These counts are not equal for all graphs with the degrees.", "quantifier": "all degree vectors, all states, all target graphs, any number of failed rounds, both build profiles", "why_tests_cant": "Counts all shuffles for all states and all numbers of rounds; a sampling test cannot tell 4224/40320 from 4288/40320 without about a million samples.", "anchors": ["src/configuration_model.rs: randomize, add_multiple_random_edges"]}
{"id": "C84", "title": "randomize gives a sample that does not depend on the graph before", "statement": "For the Erdős–Rényi ensemble with a connectivity target, Watts–Strogatz, Barabási–Albert, the spacial and the DOG ensembles: two ensembles with the same parameters and the same vertex data, whatever their edges, are turned into the same ensemble by randomize with the same draws. This is false for the small-world ensemble: it starts from the graph it has, and an edge is not put back if its original place is taken at that moment. If the original place of every long-range edge is taken, draws against rewiring leave the graph as it is; such graphs are reached, also one that has the neighbours of the ring while half of its edges are counted as long-range.", "quantifier": "all parameters, all pairs of ensembles with simple graphs, all sequences of draws, both build profiles", "why_tests_cant": "Compares all pairs of states for all draws; the failing case needs two particular moves before.", "anchors": ["src/er_c.rs: randomize", "src/watts_strogatz/ensemble.rs: randomize", "src/barabasi_albert.rs: randomize", "src/spacial/spacial_ensemble.rs: randomize", "src/spacial/dog_networks.rs: randomize", "src/sw.rs: randomize"]}
{"id": "C85", "title": "The small-world Markov chain satisfies detailed balance", "statement": "A state of the chain is given by the place of every edge, that is, the target that the edge with a given root and first target has now. A step leads to another state only if exactly one edge is at another place there. Counting the draws for a step (edge, decision, target), with a decisions for rewiring and b against it: a of them lead to that state if the edge is then away from its first target, a + b(n-1) if it is at its first target. Hence the chain is in detailed balance with weights that are products over the edges, of a + b(n-1) for an edge at its first target and of a for another one.", "quantifier": "all numbers of vertices, all pairs of different states, all rewiring probabilities, all lists of decisions, both build profiles", "why_tests_cant": "It is an equation between exact numbers of draws for every pair of states; a simulation only shows frequencies for small systems.", "anchors": ["src/sw.rs: m_step", "src/sw.rs: randomize_edge", "src/sw.rs: draw_edge", "src/sw_graph.rs: rewire_edge", "src/sw_graph.rs: reset_edge"]}
{"id": "C86", "title": "Small-world steps reach every state from every state, if there are six vertices", "statement": "For six or more vertices and a rewiring probability that is not negative, there is for each pair of small-world graphs with the same vertex data a finite sequence of steps that leads from one to the other, up to the order of adjacency lists. For five vertices, the smallest number that is accepted, the graph is complete, and neither a step nor randomize ever changes anything.", "quantifier": "all numbers of vertices from six, all pairs of states, all rewiring probabilities, both build profiles", "why_tests_cant": "Reachability between all pairs of states of unbounded size; moves can be blocked, so that other edges have to be moved out of the way first.", "anchors": ["src/sw.rs: m_step", "src/sw.rs: randomize", "src/sw_graph.rs: rewire_edge", "src/sw_graph.rs: reset_edge"]}
{"id": "C87", "title": "Markov steps keep the distribution that randomize samples from", "statement": "Take randomize followed by k Markov steps, started from any valid ensemble, and count the outcomes of all random draws. For ErEnsembleC, where a of the equally likely values of a draw are at most the probability and b are not, each graph with m of the N pairs joined is the result of exactly (n(n-1)(a+b))^k a^m b^(N-m) outcomes. For ErEnsembleM each graph with m edges is the result of exactly m!(N-m)! (m(N-m))^k outcomes. For SpacialEnsemble the number is a product over the pairs, if the probability does not depend on the order of the two ends. So for every k the graph has the same distribution as directly after randomize.", "quantifier": "all numbers of vertices, edges and steps, all probabilities, all target graphs, all valid starting ensembles, both build profiles", "why_tests_cant": "It is an exact equation between numbers of outcomes for every number of steps and every graph; simulations only give frequencies for small cases.", "anchors": ["src/er_c.rs: randomize", "src/er_c.rs: m_step", "src/er_m.rs: randomize", "src/er_m.rs: m_step", "src/spacial/spacial_ensemble.rs: randomize", "src/spacial/spacial_ensemble.rs: m_step"]}
{"id": "C88", "title": "When vertex_load is the betweenness", "statement": "The betweenness of a vertex is the sum over pairs of other vertices of the share of their shortest paths that pass it. vertex_load, which the documentation calls most of the time equal to betweenness, is equal to it if there is at most one shortest path between any two vertices, so in particular in every tree. In every graph, vertex_load(false) and the betweenness are zero for the same vertices, those whose neighbours are all joined to each other. In general the two are different.", "quantifier": "all simple graphs, all vertices, with and without endpoints", "why_tests_cant": "An equation between rational sums over all shortest paths for every graph of the class; tests compare a few graphs with stored numbers.", "anchors": ["src/generic_graph/generic_graph.rs: vertex_load"]}
{"id": "C89", "title": "Measures of complete graphs and ring lattices", "statement": "In a complete graph the diameter is 1 (0 for one vertex), the transitivity is 1, the q-core is the whole graph for q up to n-1 and empty above, every closeness is 1, and there is one biconnected component with all vertices. In the ring lattice that init_ring(d) builds on n > 2d vertices, the distance of two vertices that are k places apart is min(k, n-k)/d rounded up, the diameter is n/2 (rounded down) divided by d (rounded up), the q-core is the whole graph for q up to 2d and empty above, the transitivity is n(3d(d-1) + t(t+1)) closed paths of n 2d(2d-1) with t = 3d+1-n (0 if n > 3d), all vertices have the same closeness and the same load, given by the sum of the distances, and the ring is biconnected.", "quantifier": "all n and d with 1 <= d, 2d < n, all adjacency containers, both build profiles", "why_tests_cant": "Closed formulas for two infinite families; tests check single sizes.", "anchors": ["src/generic_graph/generic_graph.rs: init_ring", "src/generic_graph/generic_graph.rs: diameter", "src/generic_graph/generic_graph.rs: q_core", "src/generic_graph/generic_graph.rs: transitivity", "src/generic_graph/generic_graph.rs: closeness_centrality", "src/generic_graph/generic_graph.rs: vertex_load", "src/generic_graph/generic_graph.rs: vertex_biconnected_components", "src/graph.rs: complete_graph"]}
{"id": "C90", "title": "Connectedness, cores and blocks of the random ensembles", "statement": "If every vertex has at least q >= 2 neighbours, q_core(q) is the size of the largest component, so it is the number of vertices exactly if the graph is connected; this holds for q = 2 in every small-world ensemble and for configuration models whose smallest degree is at least q, after any sequence of calls. A Barabasi-Albert graph with m edges per new vertex is connected if its source is (m >= 1), has the same q-core as its source for every q > m, and is biconnected if its source is (m >= 2); built by BAensemble::new from s vertices it has s(s-1)/2 + m(n-s) edges, all n vertices form the q-core for 2 <= q <= m, the s first ones for m < q < s, and none above; for m = 1, s = 2 it is a tree.", "quantifier": "all graphs, all degrees, all n, m, s, all draws, all sequences of calls", "why_tests_cant": "Holds for every outcome of the random draws; tests see single seeds.", "anchors": ["src/generic_graph/generic_graph.rs: q_core", "src/generic_graph/generic_graph.rs: connected_components", "src/generic_graph/generic_graph.rs: is_connected", "src/generic_graph/generic_graph.rs: vertex_biconnected_components", "src/barabasi_albert.rs: new", "src/barabasi_albert.rs: randomize", "src/sw.rs: new, randomize, make_connected", "src/configuration_model.rs: from_vec, randomize", "src/watts_strogatz/ensemble.rs: add_random_edge"]}
{"id": "C91", "title": "Exactly which graphs randomize can produce", "statement": "For a graph h on the vertices of the ensemble, some sequence of draws makes randomize end with exactly the edges of h if and only if: configuration model - every vertex of h has its prescribed degree (the same for a model made from a valid degree vector); Barabasi-Albert - h can be grown from the source, the remaining vertices being added in some order, each with m edges to vertices that are already there; Watts-Strogatz with a rewiring probability of at least 0 and below the largest draw - h has n*d edges, whatever is left of the ring; Erdos-Renyi with m edges - h has m edges; Erdos-Renyi with independent edges - always.", "quantifier": "all graphs h, all n, m, d, degree vectors, probabilities, all prior histories of the ensemble", "why_tests_cant": "That a rare graph is reachable at all, or that an illegal one never is, cannot be seen from samples.", "anchors": ["src/configuration_model.rs: randomize", "src/barabasi_albert.rs: randomize", "src/watts_strogatz/ensemble.rs: randomize", "src/er_m.rs: randomize", "src/er_c.rs: randomize"]}
{"id": "C92", "title": "The measures as floating point numbers", "statement": "With f64 and f32 as IEEE binary64 and binary32 numbers rounded to nearest: transitivity is NaN exactly for graphs without a path of length two; otherwise it is in [0,1], it is 0 exactly without triangles, and up to 2^53 paths it is the correctly rounded quotient and 1 exactly if every path is closed. closeness_centrality is NaN for the only vertex of a graph, infinite for an isolated vertex among others and otherwise the correctly rounded quotient; in a connected graph it is in (0,1], and 1 exactly for a vertex joined to all others. average_degree is NaN for the empty graph, otherwise correctly rounded while 2*edge_count is at most 2^24, so it is exactly d for a d-regular graph; beyond that this is false: complete_graph(5794) gives less than 5793. The fractions of a small-world graph are in [0,1], 0 exactly without long-range edges, 1 exactly if all edges (vertices) have the property. Every entry of vertex_load is non-negative and differs from the value in exact arithmetic by at most 4n*2^-52 times that value (without end points: that value plus n). It is exactly the betweenness if there is at most one shortest path between any two vertices. In general the result depends on the order of the neighbours: sort_adj can change it.", "quantifier": "all simple graphs with at most 2^47 vertices (load), 2^26 (exact load), counts below 2^64", "why_tests_cant": "Rounding errors appear only for particular values and orders of summation; a bound on them for all graphs and a proof that 0, 1, NaN and infinity are reported exactly when they should be need an argument about every rounding.", "anchors": ["src/generic_graph/generic_graph.rs: vertex_load", "src/generic_graph/generic_graph.rs: closeness_centrality", "src/generic_graph/generic_graph.rs: transitivity", "src/generic_graph/generic_graph.rs: average_degree", "src/sw_graph.rs: frac_nodes_wlre", "src/sw_graph.rs: frac_long_ranging_edges"]}
{"id": "C93", "title": "Steps, undoing and sort_adj in any order", "statement": "With ErEnsembleC, ErEnsembleM, ConfigurationModel and SwEnsemble one may mix Markov steps, undoing the last step not yet undone (with or without report) and sort_adj in any way: the ensemble stays consistent, sort_adj returns, and at any time undo_steps and undo_steps_quiet with the steps left return, report the inverse steps and give back the ensemble one started with up to the order of neighbours. In particular this holds right away if no step is left. The order of neighbours has no influence on the steps of the two Erdos-Renyi ensembles: the same draws give the same records, for any number of steps. Nor has it on randomize of these and of the configuration model, whose results are equal. It has on the steps of ConfigurationModel and SwEnsemble (refuted there): after sort_adj the same draws can exchange other edges.", "quantifier": "all consistent ensembles, all sequences of operations of any length, all draws, both build profiles", "why_tests_cant": "The number of interleavings is unbounded and a step reorders the lists in a way that matters only for a later undo; a test sees a few sequences.", "anchors": ["src/er_c.rs: sort_adj", "src/er_m.rs: sort_adj", "src/configuration_model.rs: sort_adj", "src/sw.rs: sort_adj", "src/er_m.rs: undo_step", "src/sw.rs: undo_step", "src/configuration_model.rs: undo_step"]}
{"id": "C94", "title": "Probabilities in f64 arithmetic", "statement": "The ensembles compare a random f64 of the unit interval with an f64 probability x. Of the 2^53 possible random numbers exactly the first k are accepted, where k is 0 if x is negative, NaN or minus infinity, 2^53 if x is at least 1 or infinity, and otherwise the integer part of x times 2^53, plus one. Hence ErEnsembleC, SwEnsemble and SmallWorldWS with an f64 probability do exactly what they do with a rational probability, so that all statements about randomize, m_step and new carry over. ErEnsembleC with n vertices and connectivity c accepts each pair with a probability that differs from c/(n-1) by at most 3/2 times 2^-53 although the division is rounded; with c at least n-1 every pair is joined, whatever c is, and with c = NaN none.", "quantifier": "all f64 values of the probability and the connectivity (zeros, subnormal numbers, infinities and NaN included), all ensembles, all random numbers, 2 to 2^53 + 1 vertices for the connectivity", "why_tests_cant": "The claim is about 2^64 values of the probability times 2^53 random numbers, and the differences it speaks of are of the size 2^-53.", "anchors": ["src/er_c.rs: randomize, m_step, new, set_target_connectivity", "src/sw.rs: randomize_edge, randomize, new, new_with_distance", "src/watts_strogatz/ensemble.rs: new, randomize"]}
{"id": "C95", "title": "Integers of limited size", "statement": "On a 64-bit target the counters and products of the library fit as long as there are at most 2^32 vertices: add_edge, init_ring, average_degree, closeness_centrality, connected_components_ids, ErEnsembleM::new and the configuration model compute what they would compute with unbounded integers, and transitivity does up to 2642245 vertices (beyond that exactly if the number of paths of length two is below 2^64; otherwise it panics in debug builds and returns the quotient of the wrapped counters in release builds). suggest_connections numbers components with an i32: with 2^31 components or more a debug build panics, while a release build wraps and is still right below 2^32 components. The parity check of a degree vector survives wrapping, so in release builds it is right for every vector. The request for a ring whose neighbor distance is too large for the number of vertices is answered by an error.", "quantifier": "all graphs, vertex counts, distances, numbers of edges and degree vectors, both build profiles", "why_tests_cant": "The numbers at which something overflows need more memory than a test machine has, or a debug and a release build of each test.", "anchors": ["src/generic_graph/generic_graph.rs: init_ring, average_degree, add_edge, connected_components_ids, suggest_connections, closeness_centrality, transitivity", "src/watts_strogatz/ensemble.rs: new", "src/er_m.rs: new", "src/configuration_model.rs: degree_vec_is_valid, from_const, from_vec"]}
{"id": "C96", "title": "Debug and release builds", "statement": "For equal arguments and equal random draws, every function of the library whose behaviour depends on the build profile either panics in a debug build or does the same in both builds: same value, same new state, same remaining draws. This holds for graphs, measures, iterators, dual graphs and all ensembles, for any number of Markov steps and their undoing, with probabilities in floating point, and with counters that overflow. So whatever graph or ensemble a debug build can reach, a release build reaches too. Where a debug build panics, so does a release build.", "quantifier": "all graphs (well-formed or not), ensembles, arguments and random draws, all histories", "why_tests_cant": "A test runs in one build profile, on chosen inputs; that no debug assertion and no overflow check has an effect on a run that passes is a statement about all runs in two builds.", "anchors": ["src/generic_graph/generic_graph.rs: get_2_mut, get_3_mut, add_edge, remove_edge, init_ring", "src/sw_graph.rs: rewire, reset, push_single", "src/sw.rs: new_with_distance, randomize, m_step, undo_step", "src/iter.rs: next, nth", "src/dual_graph/dual_graph.rs: graph_1_contained_iter, graph_1_contained_iter_mut", "src/er_c.rs: m_step", "src/spacial/spacial_ensemble.rs: m_step"]}
{"id": "C97", "title": "Randomization returns with probability one", "statement": "Drawing a graph returns with probability one, and after finitely many draws on average, whenever a graph of the wanted kind exists: BAensemble::new and randomize if each new vertex gets at most as many edges as the start graph has vertices; the Watts-Strogatz ensemble if the ring is larger than the smallest one (n at least 2*distance + 2); ConfigurationModel if some simple graph has the wanted degrees; the further edges of a special vertex of DogEnsemble if there are enough vertices with a neighbour that it is not yet joined to. In the other cases the loops never end: for the configuration model, BA and DogEnsemble with certainty, for the smallest ring with a positive probability for every rewiring probability that is not negative.", "quantifier": "all sizes, degrees, rewiring probabilities and states; all independent uniform draws", "why_tests_cant": "A test that returns says nothing about the chance that it does not; a run that does not return cannot be told from a slow one.", "anchors": ["src/barabasi_albert.rs: new, randomize", "src/watts_strogatz/ensemble.rs: new, randomize", "src/configuration_model.rs: from_vec, randomize", "src/spacial/dog_networks.rs: randomize"]}
{"id": "C98", "title": "Rejected draws do not distort the distribution", "statement": "The loops that draw until a draw can be used give each usable result its share: a rewired Watts-Strogatz edge goes to each pair of different vertices that are not adjacent and are not its original ends with the same probability, and the next link of a new Barabasi-Albert vertex goes to each vertex not yet linked with a probability proportional to the degree of that vertex; a further edge of a special vertex of DogEnsemble goes to each vertex it can lead to with a probability proportional to the number of random f64 values below the share of the degree of that vertex, which is the degree up to the rounding to the grid of these values.", "quantifier": "all states in the middle of a randomization, all places and targets; independent uniform draws", "why_tests_cant": "Probabilities of a loop without a bound are limits over infinitely many runs; a test sees frequencies of a few.", "anchors": ["src/watts_strogatz/ensemble.rs: randomize", "src/barabasi_albert.rs: randomize", "src/spacial/dog_networks.rs: randomize"]}
{"id": "C99", "title": "Markov chains converge from every start", "statement": "Whatever graph a Markov chain starts from, after many steps the graph has the distribution the ensemble stands for. ErEnsembleC: probability c^m (1-c)^(N-m) for each graph with m of the N pairs, where c is the share of the draws that are at most the probability; SpacialEnsemble: the product over the pairs of the share of draws with which the pair is joined or not; ErEnsembleM: one over the number of ways to choose m of N pairs, if 0 < m < N; ConfigurationModel: one over the number of simple graphs with the wanted degrees; SwEnsemble with at least six vertices: the probabilities of any two states get into the ratio of the weights with which the chain is in detailed balance. The first three are the distributions of randomize.", "quantifier": "all sizes, probabilities, degrees, starts and target graphs; all numbers of steps beyond a bound that depends on the wanted precision; independent uniform draws", "why_tests_cant": "A limit over the number of steps and over all draws; a test sees some frequencies of a few chains.", "anchors": ["src/er_c.rs: m_step", "src/er_m.rs: m_step", "src/spacial/spacial_ensemble.rs: m_step", "src/configuration_model.rs: m_step", "src/sw.rs: m_step"]}
{"id": "C100", "title": "How many Markov steps are enough", "statement": "The number of steps after which a chain can be taken as a fresh sample has an explicit bound. With N pairs of vertices, the probability of anything that can be said about the edges differs after k steps from any graph from the one after randomize by at most N (1 - 1/N)^k for ErEnsembleC and SpacialEnsemble, and by at most m (1 - (N-2) / (m (N-m)))^k for ErEnsembleM with m edges, 0 < m < N. So N j steps leave at most N / 2^j, and q j steps of ErEnsembleM at most m / 2^j if m (N-m) <= q (N-2), for example q = m if m is at least two.", "quantifier": "all sizes, probabilities, acceptance rules, starts, numbers of steps and predicates on the edges; independent uniform draws", "why_tests_cant": "The bound is about the total variation distance of distributions over all graphs; a test cannot measure it.", "anchors": ["src/er_c.rs: m_step, randomize", "src/er_m.rs: m_step, randomize", "src/spacial/spacial_ensemble.rs: m_step, randomize"]}
{"id": "C101", "title": "Degrees and numbers of edges of sampled graphs", "statement": "After randomize of ErEnsembleC the number of edges and the degree of each vertex are binomially distributed, and the mean degree is the target connectivity that the documentation promises, up to less than (n-1)/2^53 (a draw that equals the probability is accepted, so the mean is a little larger, never smaller). The degrees of ErEnsembleM are hypergeometrically distributed. The mean degree in SpacialEnsemble is the sum of the connection probabilities.", "quantifier": "all sizes, probabilities, targets, vertices and degrees; independent uniform draws", "why_tests_cant": "Statements about the exact distribution over all draws; a test sees a sample mean.", "anchors": ["src/er_c.rs: randomize, set_target_connectivity", "src/er_m.rs: randomize", "src/spacial/spacial_ensemble.rs: randomize", "src/generic_graph/generic_graph.rs: degree"]}
{"id": "C102", "title": "Memory safety of the ensembles", "statement": "No program of calls to the constructors, randomize, m_step, undo_step, undo_step_quiet, make_connected, swap_degree_vec, set_target_connectivity, sort_adj and at_mut of the seven ensembles executes undefined behaviour in a debug build; in a release build it does so only (a) in SwEnsemble::new with one or two vertices and new_with_distance with 1 <= n <= distance, and (b) in undo_step of a step naming a vertex that is not there or two equal vertices, for which the exact condition is given per ensemble. Steps returned by m_step of an ensemble with at most as many vertices never are of that kind. add_edge and remove_edge of a simple graph are undefined in a release build exactly for equal or missing vertices.", "quantifier": "all programs (lists of calls of any length with any arguments), sizes, build profiles, draws, degree vectors, connection rules and source graphs", "why_tests_cant": "Undefined behaviour need not show in a test, tests run with debug assertions on, and no test ranges over all sequences of calls.", "anchors": ["src/generic_graph/generic_graph.rs: get_2_mut, get_3_mut, add_edge, remove_edge, init_ring", "src/er_c.rs: m_step, undo_step, undo_step_quiet, randomize, make_connected", "src/er_m.rs: m_step, undo_step, randomize", "src/sw.rs: new, new_with_distance, m_step, undo_step, make_connected", "src/configuration_model.rs: from_vec_unchecked, randomize, m_step, undo_step", "src/barabasi_albert.rs: new_from_graph, randomize", "src/watts_strogatz/ensemble.rs: new, randomize", "src/spacial/spacial_ensemble.rs: m_step, m_steps_quiet, undo_step"]}
{"id": "C103", "title": "The data of the vertices have no influence on the ensembles", "statement": "Two programs that make the same calls to an ensemble with the same random draws end alike, whatever the types and values of the vertex data: both return, both panic or both hang, every step and report returned is the same, the adjacency lists are equal including their order, and the same draws are left. At the end vertex i holds what was last assigned to it through at_mut, or what new_from_index made if nothing was; no randomize, m_step, undo_step, make_connected, swap_degree_vec or sort_adj changes data or moves them to another vertex, and the source of a BarabasiAlbert keeps its own data. Leaving out all assignments to existing vertices changes nothing but the data.", "quantifier": "all pairs of data types, relations between the data of each vertex, programs of any length with any arguments, sizes, build profiles, draws and constructors of the eight ensembles", "why_tests_cant": "It compares two runs for all pairs of payload types and all programs; a test has a handful of payload types and one seed at a time.", "anchors": ["src/generic_graph/generic_graph.rs: at_mut, sort_adj, add_edge, remove_edge, clear_edges, init_ring", "src/graph.rs: push, remove, clear_edges, sort_adj, reset_from_graph, complete_graph", "src/er_c.rs: new, randomize, m_step, undo_step, undo_step_quiet, make_connected, set_target_connectivity", "src/er_m.rs: new, randomize, m_step, undo_step, undo_step_quiet", "src/sw.rs: new, new_with_distance, randomize, m_step, undo_step, undo_step_quiet, make_connected", "src/watts_strogatz/ensemble.rs: new, randomize", "src/configuration_model.rs: from_vec_unchecked, from_vec, from_const, randomize, m_step, undo_step, undo_step_quiet, swap_degree_vec", "src/barabasi_albert.rs: new, new_from_graph, randomize, sort_adj", "src/spacial/spacial_ensemble.rs: new, randomize, m_step, m_steps_quiet, undo_step, undo_step_quiet", "src/spacial/dog_networks.rs: new, randomize"]}
{"id": "C104", "title": "Documented running times", "statement": "Counting loop rounds, elements looked at, random numbers and accesses by index: clear_edges takes one step if there are no edges and at most 2n+3 otherwise, however many edges there are; randomize of ErEnsembleC and of SpacialEnsemble takes between n(n-1)/2 and 8n^2+8 steps; vertex_load takes at most 27n(n+m)+1 steps and at least 4n(n-1), so the documented O(edges * vertices) holds if no vertex is isolated (81nm+1); randomize of SwEnsemble runs in the documented O(vertices) in the worst case.", "quantifier": "all sizes, simple graphs with all containers, reachable small-world ensembles, build profiles and random draws", "why_tests_cant": "An asymptotic bound speaks of all sizes, and the worst case of the small-world ensemble needs particular draws that have vanishing probability.", "anchors": ["src/generic_graph/generic_graph.rs: clear_edges, vertex_load", "src/er_c.rs: randomize", "src/spacial/spacial_ensemble.rs: randomize", "src/sw.rs: randomize", "src/sw_graph.rs: rewire, reset"]}
{"id": "C105", "title": "rewire_edge and reset_edge, case by case", "statement": "On a small-world graph reset_edge(i, j) reports EdgeDoesNotExist for a missing edge, panics in both build profiles for an edge that is rooted at j, and otherwise reports Nothing, BlockedByExistingEdge or Reset(i, j, o), the last exactly if the original target o is neither j nor adjacent to i; then exactly this edge has moved. rewire_edge(i, j, k) reports Nothing for j = k, InvalidAdjecency for a missing edge, BlockedByExistingEdge if i and k are adjacent, and otherwise moves exactly this edge, which has to be rooted at i. In debug mode it panics if the edge is not rooted at i and if i = k, as documented.", "quantifier": "all small-world graphs of any size and ring distance, all three indices, both build profiles", "why_tests_cant": "The result depends on where both ends of the edge and the new target lie in an arbitrary graph; the tests follow the ensemble, which never asks for an edge at its other end.", "anchors": ["src/sw_graph.rs: rewire_edge, reset_edge, rewire, reset, is_at_root, is_root"]}
{"id": "C106", "title": "A call is settled by the random numbers it uses", "statement": "Whatever a program of calls on an ensemble does depends only on the random numbers it uses, and these are the next ones of the generator: with the same next numbers it returns the same and leaves the generator just behind them, whatever follows. A panic is not averted by further numbers. randomize of ErEnsembleC and SpacialEnsemble uses exactly n(n-1)/2 numbers, that of ErEnsembleM one less than there are pairs, that of SwEnsemble one for each of the 2n rooted edges and another one if the first is at most the probability; Markov steps of ErEnsembleC, ErEnsembleM and SpacialEnsemble use 3, 2 and 3; ConfigurationModel uses whole shuffles of its half edges in randomize and an even number, at least four, in a step.", "quantifier": "all eight ensembles and the functions that make them, all programs of calls with all arguments, all generators, both build profiles", "why_tests_cant": "It compares runs on all possible continuations of the generator; a dependence on numbers not yet drawn, or a loop that ends only because of a bound, shows on none of the runs a test makes.", "anchors": ["src/er_c.rs: new, randomize, m_step, undo_step", "src/er_m.rs: new, randomize, m_step", "src/sw.rs: new, randomize, m_step, draw_edge, randomize_edge", "src/watts_strogatz/ensemble.rs: new, randomize, add_random_edge", "src/configuration_model.rs: from_vec, from_const, randomize, m_step", "src/barabasi_albert.rs: new, new_from_graph, randomize", "src/spacial/spacial_ensemble.rs: new, randomize, m_step, m_steps_quiet", "src/spacial/dog_networks.rs: new, randomize"]}
{"id": "C107", "title": "Random draws from 64-bit words are uniform and reach every draw", "statement": "gen_range(0..n) of rand 0.8, as the ensembles use it, throws words away until the lower half of the product with n is below the largest n*2^j of 64 bits and gives the upper half of the product; every value below n then has the same number of words, 2^j consecutive ones, and at least half of all words are taken. The same holds with 32 bits for shuffle and choose. Uniform takes floor(2^b/n) integers for every value and leaves out fewer than n. ErEnsembleC, ErEnsembleM, SwEnsemble and SpacialEnsemble have exactly the same runs (results, panics) on words of the generator as on abstract draws, each run on words having a run on no more draws and the other way round, and words being short only where draws are: new, randomize and m_step; so have randomize and the constructors of WattsStrogatz and BarabasiAlbert, and the constructors, randomize and m_step of ConfigurationModel, and chains of any number of steps.", "quantifier": "for all range sizes below 2^64, all lists of words, all sizes, probabilities and ensembles whose counts fit in usize (in u32 for WattsStrogatz and for the step of ConfigurationModel), debug and release", "why_tests_cant": "Uniformity is a statement about all 2^64 words, and equality of the sets of runs about all words and all draws.", "anchors": ["src/er_c.rs: draw_two_from_range, randomize, m_step, new", "src/er_m.rs: randomize, m_step, new", "src/sw.rs: randomize, randomize_edge, draw_edge, draw_remaining, m_step, new", "src/watts_strogatz/ensemble.rs: new, randomize, add_random_edge", "src/barabasi_albert.rs: new, new_from_graph, new_from_generic_graph, randomize", "src/configuration_model.rs: from_vec, from_vec_unchecked, from_const, randomize, m_step", "src/spacial/spacial_ensemble.rs: new, randomize, m_step"]}
{"id": "C108", "title": "Words of the generator are read in the order of the draws", "statement": "A call that makes random draws reads the words of the generator from the front: what the next draw is (an integer below n from 32 or 64 bits, by a rule that takes at least half of the integers and the same number for every value, or 53 bits of a word) depends on the draws before it only; each draw throws words away until one is taken and the next draw goes on behind it. The result is what the call gives for these draws and the words left are those not read; it panics only where the draws read so far say so, and it waits for words only if the next draw cannot be read. This holds for all draws used and for new, randomize and m_step of ErEnsembleC, ErEnsembleM, SwEnsemble, SpacialEnsemble, for randomize and the constructors of WattsStrogatz and BarabasiAlbert, for the constructors, randomize and m_step of ConfigurationModel, and for chains of any number of steps; in particular two independent draws are never read in the other order.", "quantifier": "for all lists of words, all sizes (no bound by the width of usize), all ensembles and states, debug and release", "why_tests_cant": "The order is fixed for every list of words and every state; stored graphs show it for single seeds, and statistical tests cannot see two independent draws swapped.", "anchors": ["src/er_c.rs: draw_two_from_range, randomize, m_step, new", "src/er_m.rs: randomize, m_step, new", "src/sw.rs: randomize, randomize_edge, draw_edge, draw_remaining, m_step, new", "src/watts_strogatz/ensemble.rs: new, randomize, add_random_edge", "src/barabasi_albert.rs: new, new_from_graph, new_from_generic_graph, randomize", "src/configuration_model.rs: from_vec, from_vec_unchecked, from_const, randomize, m_step", "src/spacial/spacial_ensemble.rs: new, randomize, m_step"]}
{"id": "C109", "title": "With random words of the generator the calls return with probability one", "statement": "If the 64-bit words of the generator are independent and uniform, the rejection samplers of rand and the loops of the ensembles end: gen_range, gen_index, Uniform, the floats and shuffle return with probability one and the number of words they take has a finite mean, and so do new, randomize and m_step of ErEnsembleC, ErEnsembleM, SwEnsemble and SpacialEnsemble and randomize and m_step of ConfigurationModel (with an edge), in states their constructors and steps reach. BarabasiAlbert::new and randomize do if every new vertex adds no more edges than the start graph has vertices, and new never returns otherwise. WattsStrogatz::new does exactly if n >= 2d+2; for n = 2d+1 it runs forever with positive probability. ConfigurationModel::from_vec does if some simple graph has the degrees; for other degree vectors it accepts it never returns, whatever the words.", "quantifier": "for all sizes below the width of usize (u32 where choose is used), all probabilities and states, all lists of words, debug and release", "why_tests_cant": "A test sees one sequence of words; that almost every infinite sequence ends a loop without a bound, at two levels of rejection, is a statement about all of them.", "anchors": ["src/er_c.rs: draw_two_from_range, randomize, m_step, new", "src/er_m.rs: randomize, m_step, new", "src/sw.rs: randomize, randomize_edge, draw_edge, draw_remaining, m_step, new", "src/watts_strogatz/ensemble.rs: new, randomize, add_random_edge", "src/barabasi_albert.rs: new, randomize", "src/configuration_model.rs: from_vec, from_vec_unchecked, randomize, m_step", "src/spacial/spacial_ensemble.rs: new, randomize, m_step"]}
{"id": "C110", "title": "Mean number of 64-bit words a call takes", "statement": "If the words of the generator are independent and uniform, a random number below n costs at most two words in the mean, whatever n, from gen_range, choose and Uniform alike, and a shuffle of k items at most 2(k-1). ErEnsembleC::new and randomize and SpacialEnsemble::randomize take at most n(n-1) words in the mean, their Markov step at most 6 and k steps at most 6k; ErEnsembleM::new at most n(n-1), its randomize at most n(n-1)-2 (none without pairs), its step at most 4 and k steps at most 4k; SwEnsemble::new and randomize at most 8n, its step at most 6 and k steps at most 6k. One word is not enough in the mean for a number below three.", "quantifier": "for all n, all sizes and states reached by the calls, all numbers of steps, debug and release", "why_tests_cant": "The mean is over all infinite sequences of words, and no run has a bound on the words it may take.", "anchors": ["src/er_c.rs: draw_two_from_range, randomize, m_step, new", "src/er_m.rs: randomize, m_step, new", "src/sw.rs: randomize, randomize_edge, draw_edge, draw_remaining, m_step, new", "src/spacial/spacial_ensemble.rs: randomize, m_step"]}
{"id": "C111", "title": "How every random draw is made from a word", "statement": "gen_range(0..h) takes 64 bits of a word and the h*2^(64-bits of h) integers of them that the rejection rule admits; an index of choose, and the draw number i of a shuffle of k items, which is below k-i, take 32 bits if the bound is below 2^32 and 64 bits otherwise; choose_multiple of two takes 32 bits, below k-1 and then below k; a Uniform distribution takes h*floor(2^b/h) integers, of 64 bits for usize and 32 for u32; a float takes the upper 53 bits. Hence: ErEnsembleC::new and randomize and SpacialEnsemble::new and randomize read floats only; their Markov steps read a number below n, one below n-1, both of 64 bits, and a float; ErEnsembleM::randomize reads the indices of a shuffle of all pairs, its step a number below the number of edges and one below the number of pairs without edge, of 64 bits; SwEnsemble::randomize reads a float for each edge and, if it is at most the probability, a number below n-1 of 64 bits behind it, and its step a number below the number of edges before that; WattsStrogatz reads 32-bit uniform numbers below n until an edge fits; BarabasiAlbert reads 64-bit uniform numbers below the sum of the weights.", "quantifier": "for all lists of words, all sizes for which the draw is defined, all ensembles and states, debug and release", "why_tests_cant": "The number of bits and the rule of rejection show in no statistic, and stored graphs show them for single seeds.", "anchors": ["src/er_c.rs: draw_two_from_range, randomize, m_step, new", "src/er_m.rs: randomize, m_step", "src/sw.rs: randomize, randomize_edge, draw_edge, draw_remaining, m_step", "src/watts_strogatz/ensemble.rs: add_random_edge", "src/barabasi_albert.rs: randomize", "src/configuration_model.rs: m_step", "src/spacial/spacial_ensemble.rs: new, randomize, m_step"]}
