# Design of the verification of net_ensembles

The subject is the Rust crate `net_ensembles` in `/repo` (read as text, never
built or run).  The properties are in `properties.jsonl`.  The model and the
proofs are a Rocq (Coq 8.16.1) development in `rocq/theories`, logical name
`Verif`.

## Modelling conventions

* **Results.**  A function that can panic, hit undefined behaviour, or loop
  returns `outcome A := Done a | Panic | UB | NoFuel`.  `Panic` is a Rust panic
  (failed `assert!`, `unwrap`, `expect`, index out of bounds, and in a debug
  build a failed `debug_assert!` or arithmetic underflow).  `UB` is a use of
  raw pointers that Rust does not define.  `NoFuel` says that the recursion
  bound or the supplied list of random draws was used up before the function
  returned.  A Rust `Result` is the sum type `result`.
* **Profiles.**  `profile := Debug | Release`.  `debug_assert!` and underflow
  panic only under `Debug`.
* **Mutation.**  `&mut self` functions return the new value.
* **Loops.**  `for` loops are structural recursion over the sequence; `while`
  loops are recursion on fuel.  Theorems that claim termination give a fuel
  bound computed from the input and hold for all larger fuel.
* **usize** is `nat` without a bound, underflow panics or wraps; Overflow.v (C95) has the functions whose sums and products can exceed 2^64, with the bound.
* **Randomness.**  The generator is a list of numbers, over which every theorem
  quantifies; each draw takes the next one.  `gen_range(0..k)` is the number modulo
  `k`, a uniform `f64` is the number modulo 2^53 divided by 2^53 (an exact rational),
  `shuffle` is the Fisher-Yates loop of `rand` (one `gen_range` per element).  A list
  that is too short gives `NoFuel`.
  Probability statements are proved as counting statements (bijection between
  uniform draws and outcomes).
* **Floats.**  Results that are quotients are modelled by their integer
  numerator and denominator, vertex_load by exact rationals.  `Float.v` models the same
  functions in IEEE arithmetic (`spec_float` of the standard library, round to nearest,
  NaN without payload); C92 relates the two.  `Prob.v` does it for the probabilities of
  the ensembles (C94).  Elsewhere rounding is not modelled.
* **Containers.**  The Rust trait `AdjContainer` is a Coq class
  with one record of functions.  The four implementations (NodeContainer,
  SwContainer, WSContainer, SpacialNodeContainer) are modelled field by field,
  and each is proved to satisfy the laws that the generic theorems use.
* **Iterators** are state records with a `next` function, drained by a fuelled loop.

## Trusted base

* The Coq kernel (8.16.1).
* `Print Assumptions` is issued beneath each theorem in the `Properties*.v`
  files and says "Closed under the global context" for every one of them.
* `coqchk -o` lists the abstract fields of the module `Under_rel` in
  `Coq.ssr.ssrunder` because the standard library's tactic files load it.  No
  definition or theorem here uses them.
* The reading of the Rust sources: every model definition cites file and lines.  As tests of this
  reading, `RepoTests.v` has the tests of /repo that need no generator and `Replay.v` the stored
  graphs of its tests with seeds: the model gives what the tests expect of the code, down to the
  rounding of `vertex_load`, the DOT files and the order of the neighbours.
* Modelled external code: `Vec` (push, pop, swap_remove, sort_unstable,
  position, contains), `VecDeque`, slices and iterators of `std`, `shuffle` / `choose_multiple` (Floyd's algorithm) /
  `choose` / `gen_range` / `WeightedIndex` of `rand` (as oracles with their
  documented range; C107 and C108 have `gen_range`, `gen::<f64>`, `Uniform`, `shuffle` and `choose` down to the words of the
  generator, and `Replay.v` compares them with the stored data of the tests), `permutation::sort`, and the order in which
  `sampling::MarkovChain::undo_steps` undoes steps (reverse).
* Arbitrary functions in place of floating point formulas: the edge test of
  `SpacialEnsemble` and `DogEnsemble` (`powf`, `hypot`, `exp_m1`) is any test of
  two positions and a draw; a sample of `rand_distr::Poisson` is any number.
* Not modelled: serde, `Display`, capacity, and performance beyond the counts of C104,
  `Clone`, memory layout, the `sampling` crate, the stepsize/energy machinery,
  floating point rounding other than in the measures (C92) and probabilities (C94), usize overflow other than in C95.

## Plan per property

* **C01** Every history of graph edits leaves a simple undirected graph. Graph model (adjacency vectors with order). Invariant `wf` proved for each constructor and preserved by each operation; induction over operation lists.
* **C02** edge_count is always the true number of edges. Same induction; edge_count compared with the number of adjacent pairs i<j counted by a separate spec function.
* **C03** add_edge is exact. Direct lemma on add_edge from `wf`.
* **C04** remove_edge is exact. Direct lemma on remove_edge from `wf`.
* **C05** Adding and removing an edge cancel out. List lemmas about push followed by swap_remove of the last element, and permutations.
* **C06** Bad indices passed to add_edge / remove_edge panic. Profile-indexed model of get_2_mut; Debug part proved, Release part refuted with a witness.
* **C07** Topology edits never touch vertex data. Frame lemmas over operation lists.
* **C08** Sorting or shuffling adjacency lists preserves topology. sort modelled as an insertion sort (any sorted permutation is equal to it on duplicate-free lists), shuffle as an arbitrary permutation.
* **C09** complete_graph(n) is the complete graph. Direct model of complete_graph.
* **C10** init_ring builds exactly the ring lattice. Model of init_ring on top of add_edge; loop invariant describing the edges so far.
* **C11** Depth-first iterators visit exactly one component, each vertex once. Abstract stack search over any decidable vertex type, proved once; Dfs, DfsMut, DfsWithIndex refine it.
* **C12** The iteration order of dfs is a depth-first order. Depth-first order defined separately; witness graph.
* **C13** Breadth-first iterator reports shortest-path distances. Abstract two-queue search with distance invariant; Bfs and BfsMut refine it.
* **C14** Filtered breadth-first search respects the filter. Same abstract search over the filtered successor function.
* **C15** BfsFiltered::reuse respects the filter. Model of reuse; witness.
* **C16** is_connected is correct. From C11.
* **C17** connected_components_ids labels components. Loop invariant over start vertices, using the search theorem relative to an already visited closed set.
* **C18** connected_components lists component sizes. As C17 with a counting argument.
* **C19** suggest_connections returns one vertex per component. As C17.
* **C20** diameter is correct. From C13 plus symmetry of distance.
* **C21** longest_shortest_path_from_index is the eccentricity within the component. From C13.
* **C22** q_core returns the largest connected piece of the q-core. Peeling invariant: degree[v] is the number of unremoved neighbours; maximality by induction over removals; then components.
* **C23** q_core counts the biggest set with q neighbours inside. Witness: two disjoint triangles.
* **C24** transitivity counts closed and open paths. Counting with lists of triples.
* **C25** vertex_load obeys the load recursion. Rationals (QArith); BFS with predecessor lists; accumulation in reverse order.
* **C26** vertex_load conserves flow. Consequence of C25 by exchanging sums.
* **C27** closeness_centrality uses true distances. From C13.
* **C28** vertex_biconnected_components returns the sizes of the biconnected components. Executable model, witness by computation, separate definition of blocks.
* **C29** vertex_biconnected_components terminates and is internally consistent. Invariant on edge stack and remaining edges.
* **C30** cloned_subgraph is the induced subgraph. Direct model.
* **C31** Converting or cloning a topology preserves it. Direct model.
* **C32** Degree statistics agree with adjacency. Direct model; the histogram type of the external crate is its list of counts.
* **C33** dot output determines the graph. Strings; a parser as left inverse.
* **C34** ErEnsembleC::randomize is exact. Loop over pairs with a boolean per pair.
* **C35** ErEnsembleC undo_step reverts m_step. Single step lemma and induction over histories.
* **C36** ErEnsembleC make_connected. From C19 plus add_edge.
* **C37** Random pair drawing is unbiased. Bijection lemma.
* **C38** ErEnsembleM always has exactly m edges. Invariant relating edge lists and graph.
* **C39** ErEnsembleM undo restores the exact state. Step lemma and induction.
* **C40** Small-world ensemble keeps two rooted edges per vertex. Invariant over SwContainer graphs.
* **C41** Small-world undo_step reverts m_step. Step lemma and induction, equality up to permutation of adjacency lists.
* **C42** Small-world make_connected terminates with a connected graph. Termination measure: number of root edges at their ring position.
* **C43** Small-world draws are unbiased. Bijection lemmas.
* **C44** SwEnsemble::new_with_distance works for every distance. Witness: distance 1 always panics.
* **C45** Long-range edge counting. Counting lemma.
* **C46** Watts-Strogatz randomize preserves edge count and simplicity. Invariant on the entries (neighbour, original edge) of all vertices: partner entries, origin flags, and the multiset of original edges equals the ring; stages pick, remove, add.
* **C47** Watts-Strogatz construction terminates. Counting gives a free pair for n >= 2d+2, so every run can be completed; for n = 2d+1 and probability 1 the last edge has no place, for every list of draws.
* **C48** `Config.v` models the whole of configuration_model.rs; `ConfigFacts.v`/`ConfigRun.v` show by induction on the half edges that an attempt keeps `degree + half edges left` constant, so whatever is returned has the degrees asked for (`C48_new`, `C48_randomize`, `C48_swap`, `C48_clone`, `C48_from_generic`, `C48_history`), and that `from_vec` rejects exactly the documented vectors (`C48_rejects`).
* **C49** `ConfigStep.v`: the effect of a step on the edge set, a failing step leaves the whole model equal, and chains of undos restore it (`C49_step`, `C49_undo`, `C49_undo_quiet`); without edges a step panics (`C49_no_edges`).
* **C50** `undo_step` for every step value of the right shape, by going through all its branches (`C50_atomic`, `C50_quiet`); the steps a model makes have that shape (`C50_shape`).
* **C51** Refuted: `[2, 2, 0, 0]` is accepted and never returns (`C51_terminates_refuted`, `C51_not_graphical`). For sequences that some graph has, every run can be completed (`C51_returns`), and constant sequences always are of that kind (`C51_constant`, by a circulant graph).
* **C52** model Ba.v of the whole ensemble; the growth is described by `grown` in BaSpec.v (an order of insertion, the source as induced subgraph, m earlier neighbours each). Invariant `growing` along the shuffled order, loop invariant `attaching` for one vertex (BaFacts.v). Holds for every constructor and every history of calls.
* **C53** refuted for m > source_n: C53_stuck shows that no sequence of draws lets `new` return. C53_returns proves that for m <= source_n no run panics and every unfinished run can be completed.
* **C54** Model Spacial.v with rational coordinates; the edge probability (powf, hypot) is an arbitrary test of two positions and a draw. C54_randomize: every pair is visited once and joined exactly if its own draw passes. C54_step/undo/undo_quiet/quiet cover steps, undo chains and m_steps_quiet, each with positions unchanged; graphs with fewer than two vertices panic (C54_step_small).
* **C55** Model Dog.v; the edge probability is an arbitrary test of two positions and a draw, a Poisson sample any natural number. C55_randomize gives the result for all draws and the exact conditions of a panic (C55_panics: they happen), C55_node the further edges of one special vertex, C55_new the Latin cells of the positions.
* **C56** C56_points/C56_latin by induction over the calls of next with the invariant that used and unused coordinates together are 0..n; C56_uniform: every pair of orders comes from exactly one sequence of draws in range.
* **C57** Model Dual.v. C57_multi_add_edge(s): invariant (both sides agree, no repetitions, in range) over any sequence of calls, with the exact results. AdjSingle: C57_single_add_edge gives every case, C57_single_add_edges the invariant as long as no call panics, C57_single_refuted the failures.
* **C58** The iterators refine the abstract searches of Search.v with vertices of both graphs; the invariant of C57 makes the union graph undirected. diameter skips vertex 0 of graph 2, which is justified by symmetry of distances.
* **C59** Model Iter.v, method by method. An iterator behaves as a list if every sequence of calls (next, nth, next_back, nth_back, all, any, len, size_hint) gives the same answers (IterSpec.v); shown by a simulation relation, and a general lemma for the default methods and for iterators that look up the indices of another one.
* **C60** size_hint of the traversal iterators is valid. From the search invariants.
* **C61** A connection probability of zero gives no edges. Witness draw 0.
* **C62** ErEnsembleM undo detects an invalid step. Witness of three steps.
* **C63** rewire_edge and reset_edge panic out of bounds. Case analysis on the bounds checks, witness on three vertices.
* **C64** Each ring edge is rewired with the rewire probability. Exact description of the draws of runs that keep the ring; witness on five vertices.
* **C65** Refuted: `Added` holds the edges that were removed (`C65_reports_removed`, `C65_added_refuted`).
* **C66** Proved for `n >= 1` (`C66_same`); refuted for `n = 0`, where `size - 1` underflows (`C66_empty_refuted`).
* **C67** `weighted_pick` models WeightedIndex; C67_weighted counts the draws leading to an index, C67_attach lifts this to one round of the while loop, C67_weights shows that the weights are the degrees before and after each insertion.
* **C68** Refuted. C68_node: the loop of one vertex can be finished iff the sample is at most the number of vertices that are not joined to it and have a neighbour. C68_stuck, C68_edgeless: runs of randomize that no further draws finish; C68_returns: other draws do let it return.
* **C69** Refuted: size_hint is the default (0, None); direct.
* **C70** The neighbour list of the union has no repetitions and contains exactly the linked vertices; every iterator is shown to walk this list.
* **C71** Refuted: the bounds check is a debug_assert in front of a raw pointer offset; C71_out_of_range gives the outcome for every index out of range.
* **C72** C72_same_size: the invariant survives any replacement by a simple graph of the same size. Refuted for other sizes.
* **C73** A mutable reference is represented by the index of its vertex; the client is a list of calls and writes. The items of any call sequence are a sub-multiset of the neighbour list, which has no repetitions.
* **C74** MeasureSpec.v defines isomorphism by vertex_count and adjacency only. Walks are mapped along the isomorphism and every characterisation proved for C19-C29 is transported. The biconnected sizes are refuted: a graph whose adjacency order alone changes the answer.
* **C75** From the characterisations of the single measures: walks, counting of classes, greedy removal of leaves for forests, and an edge-by-edge argument for edges plus components.
* **C76** The model of m_step with its draws as explicit inputs, and a case analysis over the four combinations of presence and draw.
* **C77** UniformSpec.v defines the list of all outcomes of independent draws and counts those leading to a given edge set. The shuffle is shown to be a bijection from outcomes to arrangements; arrangements starting with a given set are counted as a product.
* **C78** The effect of one step for given draws; a unique pair of positions leads to the target. Reachability by induction on the number of edges missing or differing.
* **C79** DotWriter.v threads an abstract writer and the state of the closure through the loops; the proof composes pieces, each of which writes a beginning of its text. For a vector as writer the result is an equation that includes panicking closures.
* **C80** add_edge and remove_edge give two graphs whose adjacency differs by one pair (one_more, EditSpec.v); the classes of the relation joined are merged explicitly, new paths of length two are listed explicitly and counted; monotone measures through their specifications.
* **C81** the run of the search is paired with a ghost run that files every edge under the block it belongs to (BlockRun.v); the two stacks split into segments of the same number and the ghost segments are shown to be the maximal biconnected sets; counting, single-block and all-edges statements follow from both listing every edge once.
* **C82** SwitchSpec.v counts the switches between two graphs; SwitchStep.v follows the four draws of an accepted round (two positions, two neighbours) and sums over them: a vertex is drawn as often as its degree says, its neighbours are drawn with one over the degree, so every directed edge has the same weight. The switch back exchanges the two middle vertices. SwitchFacts.v proves that switches connect all graphs with the same degrees: the rows are made equal one after the other, each switch lowering the number of differences in the row.
* **C83** ConfigRounds.v: shuffling commutes with renaming the positions, so the multiset of arrangements does not depend on the order of the list; a failing round leaves the cleared graph, which is determined by the payloads; induction over the rounds. Non-uniformity is refuted by counting all 8! shuffles for the degrees 2, 2, 2, 1, 1.
* **C84** FreshFacts.v: clear_edges depends only on the vertex data, so the runs are equal; for Barabási–Albert the weight vector is overwritten completely. For the small-world ensemble randomize is rewritten as a fold of resets when no draw decides to rewire; two reachable states with six vertices refute the claim.
* **C85** PlaceSpec.v, PlaceFacts.v: the places determine the state; a step changes the place of one edge; the draws are counted per edge, and only the displaced edge contributes. Detailed balance follows by comparing the numbers of edges at their first target.
* **C86** SwReach.v: moves and their reversal; an edge away from its first target can be vacated although its vertex may be adjacent to all others, by moving another edge first (layers of vertices, and a counting argument that no set of vertices is closed and full for n >= 6); so all edges are brought home one by one, and the way back from home is the reversal. For n = 5 the graph is complete by the number of edges.
* **C87** BalanceSpec.v, BalanceFacts.v, BalanceFixed.v: outcomes of a run that are not consumed do not matter; for a step that resamples one pair the result is t exactly if the verdict is right and the graph before was t up to that pair; for an exchange of an edge the graph before is one exchange away from t. Induction on the number of steps over all targets t.
* **C88** BetweenSpec.v, BetweenFacts.v: the betweenness is defined by counting walks of a given length, shown to count lists of vertices; with one shortest path per pair the flow of LoadSpec is the number of vertices behind a vertex. Trees: the inward degrees of all vertices but the source sum to n-1. A graph with 7 vertices refutes equality in general.
* **C89** FamilySpec.v, FamilyFacts.v, FamilyMeasures.v, FamilyRing.v, FamilyComplete.v: the distance on the circle obeys the triangle inequality and can be shortened by d in one step; triangles are counted around vertex 0 as four intervals and turned to the others; equal loads follow from the rotations and C74, their value from C26.
* **C90** EnsembleCores.v: added vertices are peeled off from last to first (each has only m earlier neighbours), so a set with inner degrees above m lies in the source; connectedness and biconnectedness go along the order of insertion; a complete source with s = m gets its missing edges from the first added vertex.
* **C91** ConfigReach.v, BaReach.v, WsReach.v: the draws that lead to a given graph are constructed: for the configuration model an arrangement of the half-edges that pairs the ends of each edge; for Barabasi-Albert the order of growth and for each new vertex its earlier neighbours one after the other; for Watts-Strogatz every edge of the ring is moved in turn to an edge of h that is missing, or left where it is if h has it (the edges still missing number as many as the ring edges still to come). SupportFacts.v: equal edges carry over degrees, edge counts and growth.
* **C92** Float.v models the functions over `spec_float`, the standard library's executable definition of IEEE arithmetic. Rounding.v proves from those definitions that addition and subtraction (of numbers with the signs that occur), division and conversion from an integer return a number of the format nearest to the exact result, with the relative error bound. FloatLoad.v runs vertex_load in exact and in floating point arithmetic side by side; what the vertices still to be processed hold sums up to at most n, every entry takes at most n additions per source.
* **C93** Sorting.v models the four `sort_adj`. SessionSpec.v defines `session`, the runs with the stack of steps left, and `recoverable`. The invariant is that every ensemble like the current one can be led back step by step; it needs that undoing works on any ensemble equal to the one after the step up to order. `same_steps` by induction on the number of steps.
* **C94** Prob.v has the ensembles with `spec_float` probabilities. FloatValid.v proves from the standard library's definitions that rounding gives valid numbers and that `SFleb` on valid numbers is the order of their values. A random number is a multiple of 2^-53, hence exact. The outcomes agree with the rational model by simulation (`same_outcome`). For the connectivity the rounded quotient is nearest to c/(n-1), and the multiples of 2^-53 in the unit interval are representable; c of the largest binade divided by 1 is computed.
* **C95** Overflow.v has these functions with `uadd` and `umul`, which panic (Debug) or wrap (Release) at 2^64, and signed ids that wrap at 2^31 or 2^63. Each loop on bounded integers is shown to mirror the loop on unbounded ones (`mirror_foldM`): the bounded state is a function of the unbounded state, the counters only grow. The sizes follow from the number of edges, of triples and from the distances being less than the number of vertices. The last sentence of the statement is refuted (C95_ws_distance_refuted): 2 times the distance wraps.
* **C96** `builds_agree f` says that f Debug is Panic or equals f Release. It is closed under bind, foldM, mapM and the fuelled loops, and holds for usub, debug_assert, get_2_mut and the other places that look at the profile, so it is shown for each of the 120 functions that take a profile, from the bottom up (BuildFacts.v), with no assumption on the state. Sequences of steps, sessions and the histories of C01, C20 and so on follow by induction (BuildHistories.v). For a small-world history undoing any step must be shown to be allowed in a release build, where an assertion is missing: if a debug build returns, the edge is rooted at the right end or nothing changes. The last sentence of the statement is refuted (C96_release_panics_refuted).
* **C97** `swift h B Q m`: at most B more draws below h complete every run of m that has run out of draws. It is closed under bind, foldM, shuffle and the fuelled loop (SurelyFacts.v). The number of sequences of k draws with which the run has not returned then falls at least by the factor 1 - h^-B every B draws, so its share tends to zero (ends_surely) and the sum of the shares is at most B * h^B (mean_draws_at_most). SurelyBa.v, SurelyWs.v and SurelyConfig.v show swift for three ensembles, FairDog.v for the further edges of a special vertex of the dog ensemble. For the smallest ring a prefix of draws is given after which the loop can find no place (ring_trap); it needs h of at least 2^53, the number of values a random f64 has.
* **C98** A round of draws either ends the loop or leaves everything as it was. Then the number of sequences of k draws that end with a given result satisfies a recurrence whose solution differs from its share only by the sequences that have not ended (limit_balance), and these tend to zero. The numbers of draws that lead to each result in one round are counted directly. C98_rewiring, C67_rounds and C98_dog_edges say that randomize is made of these loops. For the dog ensemble a round takes one draw or two (two_probability in FairFacts.v). Its random f64 values are modelled as multiples of 2^-53; `Uniform` gives multiples of 2^-52, so the real numbers of values below a share are those for half as many values.
* **C99** `tends_to num den m_step D s P`: among the sequences of k draws of D, the share with which k steps from s lead to a state with P comes arbitrarily close to num / den. ConvergeFacts.v: two chains that can meet within L steps from any pair of starts forget their starts (the difference of the arrivals falls by a factor every L steps); with a start distribution that steps keep (C87) this gives the limit. ConvergeBack.v: a chain with detailed balance, some step that stays and a path between all states approaches the ratio of the weights. ConvergePairs.v, ConvergeErM.v, ConvergePlace.v and ConvergeSwitch.v show the hypotheses for the ensembles. For the configuration model D are the draws that a step takes (C99_config_draws, C82_retry: all others are drawn again from the same state); for the small-world ensemble a draw without target is counted as often as there are targets. The number of graphs with given degrees is the length of an explicit list of edge sets (`realizations`).
* **C100** `differs_by a b` (RateSpec.v) compares the share of draws of k steps with the share of draws of randomize that lead to a predicate on the pairs i < j < n. ConvergeRate.v couples two chains by the same draws: they agree on every pair that was drawn, and a pair is missed by k steps with the share (1 - 1/N)^k. ConvergeRateM.v is a path coupling: for two states that differ in one edge all but 1 + (m-1)(N-m-1) of the m (N-m) pairs of draws can be matched with the same result and the others again differ in one edge; states that differ in c edges are joined by a path of c moves. The sampled distribution stays the same under steps (C87), so the distance to it is the mean distance of two starts.
* **C101** `degree_is` and `degrees_total` (DegreeSpec.v) ask the model's `degree` for the sampled graphs; `choose` is Pascal's triangle, with the factorial formula as a theorem. DegreeFacts.v: the degree of v is the number of accepted draws among those for pairs that contain v, of which there are n - 1; the count over all words follows by induction over the draws. For ErEnsembleM the orders of the pairs are sorted by the set of the first m pairs (C77), and the sets with k pairs at v are counted. The probability is the exact quotient of target and n - 1; what rounding it to f64 does is C94. In `C101_target` the number M of values of a draw is a variable with Z.of_nat M = 2^53, since such a unary number cannot be written down.
* **C102** `safe P m` (SafeSpec.v) says that m is not undefined and what it returns satisfies P; a program is a list of calls, run by folding. SafeFacts.v proves one rule per operation of the model (indexing, drawing, loops on fuel) and then an invariant per ensemble: a simple graph with n vertices, and for ErEnsembleM and ConfigurationModel what their vectors hold. SafeRings.v does the same for the two ring ensembles with a weaker invariant (every entry names another vertex), since steps that were never made can leave graphs that are not simple. The exact conditions for undo_step follow by cases. The state left behind by a panic that a program catches is not modelled.
* **C103** `both R m m'` (PayloadSpec.v) says that two runs end in the same way with results related by R; `erc_like n R` and its analogues say that two ensembles with n vertices agree in everything but the data and that the data of vertex i are related by R i. PayloadFacts.v proves one rule per operation of the model, with a class for the four containers, PayloadRuns.v and PayloadRings.v one lemma per function of the ensembles. Programs are those of C102. The statement on the data takes as R i that the data equal d i, and relates a run to itself; assignments are treated separately. The statement on leaving out assignments relates all data.
* **C104** Cost.v repeats the modelled functions with a count of steps; CostFacts.v proves that the results are those of the model. CostLoad.v bounds the steps of clear_edges, vertex_load and the two pairwise randomize from both sides; the breadth-first search pays per vertex taken from the queue, each at most once, and the degrees sum to 2m. CostSw.v bounds randomize of the small-world ensemble by 33n^2+1. CostHub.v refutes the linear bound: draws for new join n-6 vertices to vertex 0, and draws for a second randomize move half of them to vertex 1; the entry to be removed lies ever deeper in the list of vertex 0, because swap_remove fills the gaps from the end, so the searches add up to more than h(h-1)/2 with h=(n-6)/2. What a step is stands at the top of Cost.v; growing a vector and the library's own generation of random numbers are not modelled.
* **C105** C105_reset and C105_rewire decide all cases for a graph with sw_ok (SwSpec.v), with the whole set of rooted edges afterwards. C105_rewire_release says what a release build does with an edge that is rooted at its other end: it is moved and rooted nowhere, and its former root has one edge less. C105_debug_panics_refuted gives the two calls that do not panic.
* **C106** settled (DrawsSpec.v) says that a function of the generator is determined by a prefix of it. It is closed under bind, folds and loops that use a draw in each round (DrawsFacts.v), so it holds for all programs of the calls of SafeSpec.v, for the constructors and for the versions in floating point. As the loops of the model have the number of draws left as their fuel, this also shows that the fuel never decides anything. DrawsCount.v counts the draws.
* **C107** Words.v has the generator as a list of 64-bit words, the samplers of rand 0.8 and three ensembles on them, WordsMore.v the other ones and WordsChain.v chains of steps and the other constructors. sampler_uniform (WordsFacts.v) is arithmetic on N. same_runs (WordsSpec.v) relates calls on words and on draws in both directions, with what they return, what they leave and what they still lack, and is closed under bind, folds with an invariant and loops whose rounds use draws (WordsLoop.v). Words.v also has Pcg64, and Replay.v shows, as a test of the model, that it reproduces six stored graphs of /repo/TestData exactly: order of neighbours, edge count, probability and final state of the generator (for the larger graphs the values computed by the build are compared, not proved by the kernel).
* **C108** OrderSpec.v says what it is to read draws from words one after the other (reads) and when a program on words follows a program on draws (in_order). OrderFacts.v builds the kinds of draws of a program from those of its parts, for bind, folds and loops; OrderRuns.v goes through the draws and the ensembles of Words.v and WordsMore.v, WordsChainFacts.v through chains and constructors. As an example, two draws made in the other order have the same runs but are not in order.
* **C109** ends_on_words (WordsEndSpec.v) is C97's ends_surely with a mean, for the 2^64 words. prompt (WordsEndFacts.v) says that whatever was drawn, a bounded number of further draws ends the call; by the waiting clauses of same_runs the same number of words does (words_swift), so that C97's argument applies to words. Draws that never end are turned into words that never do (words_hang).
* **C110** order_mean (MeanFacts.v): a call that reads its draws in order (C108) and returns with any B draws takes at most 2B words in the mean. half_taken counts the words a fair draw takes, by the intervals of C107 and, for 32 bits, by residues; lacking_mean is an induction on the words, one word at a time, for the mean number of words until B draws are read. How many draws are enough is from C34 to C41 and C54, made exact by the number of draws used (tight).
* **C111** asks (KindSpec.v) is the relation follows of C108 with the kinds written out by the number of the draw. The draws have theirs by the reading of one word (asks_sampler, asks_bits); asks_bind counts the draws of the first call; randomize of the small world has kinds that depend on the floats drawn (sw_next), by follows_bind_to; loops and folds all of whose draws are of one kind have that kind (asks_same_loop, asks_same_foldM). Only the draws before a call returns matter (follows_ext).

## Findings

Statements from the documentation that are false of the code, each proved with a
witness (`*_refuted`) or as an exact description of the wrong behaviour.

* **C06** `get_2_mut`, and with it `add_edge` and `remove_edge`, checks its indices
  only with `debug_assert!`.  In a release build equal or out-of-range indices
  reach raw pointer arithmetic: undefined behaviour instead of the documented panic
  (`C06_release_undefined`, `C06_release_panics_refuted`).
* **C09** `complete_graph(0)` computes `0 - 1` and panics in debug builds
  (`C09_complete_graph_empty`).
* **C12** `dfs` marks a vertex when it is pushed, not when it is visited.  The order
  is not depth first: with edges 0-1, 0-2, 0-3, 1-3 it visits 0, 3, 2, 1, although
  3 has the unvisited neighbour 1 when 2 is visited (`C12_dfs_order_refuted`).
* **C15** `BfsFiltered::reuse` computes the filter marks and then overwrites all of
  them by `false`, so the new search ignores the filter.  Its range check is
  `index > len`, so `index == len` panics instead of returning `Err`
  (`C15_reuse_ignores_filter`, `C15_reuse_refuted`).
* **C27** `closeness_centrality` of the empty graph underflows and panics in debug
  builds (`C27_closeness_empty`).
* **C23** `q_core` documents the size of the biggest set in which every vertex has at
  least `q` neighbours.  It returns the size of the largest connected piece of that set:
  3 instead of 6 for two disjoint triangles (`C23_q_core_doc_refuted`; the exact result
  is `C22_q_core`).
* **C28** `vertex_biconnected_components` pops the edges of a component by comparing
  depth numbers instead of stopping at the tree edge, and so puts edges of an outer
  component into an inner one.  For the edges 0-1, 0-2, 2-3, 3-1, 1-4, 1-2 it returns
  [4, 3]; the blocks have 4 and 2 vertices (`C28_biconnected_refuted`).  What does hold
  is `C29_biconnected`.
* **C61** The acceptance test is `draw <= prob` with draws in [0, 1), so probability 0
  accepts the draw 0 (one of 2^53 values), and an ensemble with connectivity 0 can have
  edges (`C61_zero_probability_refuted`, `C61_zero_accepted`).  Likewise a step of
  `SwEnsemble` with rewire probability 0 can move an edge (`C61_rewires_refuted`).
* **C38** `ErEnsembleM::new(0, m)` computes `0 - 1` and panics in debug builds
  (`C38_empty`).
* **C39** `ErEnsembleM::m_step` panics for `m == 0` and for the complete graph, both
  accepted by `new` (`C39_step_panics`).
* **C62** `ErEnsembleM::undo_step_quiet` is documented to panic on an invalid result
  state.  Undoing a step after two later ones can return without panic although the
  lists of current and possible edges no longer describe the graph, and a later
  `m_step` then panics (`C62_undo_detects_refuted`).
* **C44** `SwEnsemble::new_with_distance` only works for distance 2.  Distance 1
  panics for every n and every draw.  A distance of 3 or more panics in debug builds;
  in release builds it returns an ensemble whose `m_step` panics for every drawn
  index from 2n on, because `draw_edge` assumes two rooted edges per vertex
  (`C44_every_distance_refuted` and the theorems before it).
* **C63** `rewire_edge` and `reset_edge` are documented to panic for indices out of
  bounds.  `rewire_edge(i, j, j)` returns `Nothing` without looking at the indices,
  and in release builds the other calls are undefined behaviour
  (`C63_panics_refuted`).
* **C40** `SwEnsemble::new` needs at least five vertices: three or four panic, one or
  two panic in debug builds and are undefined behaviour in release builds
  (`C40_new_small`).
* **C47** `WS::new` accepts n = 2d+1, where the ring is the complete graph.  With rewire
  probability 1 it never returns, whatever the draws: the last edge to be rewired may
  not go back and no other pair is free (`C47_smallest_ring`, `C47_terminates_refuted`).
  From n = 2d+2 on every run can be completed (`C47_returns`).
* **C64** Each edge is documented to be rewired with probability p.  An edge that is kept
  when its first end is visited is drawn for again when its second end is visited, so
  it is kept only if both draws decide so, i.e. with probability (1-p)^2
  (`C64_two_draws_per_edge`, `C64_one_draw_refuted`).
* **C51** `ConfigurationModel::from_vec(vec![2, 2, 0, 0], rng)` passes `degree_vec_is_valid` and then loops for ever in `randomize`: no simple graph has these degrees, and the code retries without a bound. `from_vec` and `swap_degree_vec` are affected for every even, non-graphical vector.
* **C49** `ConfigurationModel::m_step` panics (`vertex_list[0]` of an empty list) for a model without edges, e.g. one made by `from_vec(vec![0, 0], rng)`, which is accepted.
* **C65** The documentation of `ConfigurationModelStep::Added` says that it contains the newly added edges; it contains the removed ones.
* **C66** `ConfigurationModel::from_const(c, 0, rng)` computes `size - 1` with `size = 0` and panics in debug builds instead of returning `None`.
* **C53** `BAensemble::new(10, rng, 3, 2)` passes both assertions and never returns: the first new vertex can only be attached to the two source vertices, and the `while degree < m` loop goes on forever. Every `m > source_n` behaves like this (`C53_stuck`).
* **C53** `BAensemble::new_from_graph` (and the generic version) accepts a source graph without vertices, for which the documented conditions hold, and panics in `WeightedIndex::new(..).unwrap()` since all weights are zero (`C53_empty_source_refuted`).
* **C68** `DogEnsemble::randomize` can loop forever. The number of further edges of a special vertex is a Poisson sample without upper bound; if it exceeds the number of vertices that are not yet joined to the vertex and have at least one neighbour, the inner `loop` never ends (`C68_node`, `C68_stuck`). If the first phase made no edges, `degree_sum` is 0, and already one further edge hangs (`C68_edgeless`).
* **C55** `DogEnsemble::new` panics for `n == 0`, for `lambda == 0` (`Poisson::new(..).unwrap()`), and if the rounded `n * (1 - tau)` exceeds `n`, which needs a negative `tau` (`C55_randomize`, `C55_panics`, `C55_special`). None of this is documented.
* **C69** `LatinHypercubeSampling2D` implements `ExactSizeIterator` without overriding `size_hint`, which stays `(0, None)`; the contract of the trait asks for the exact size (`C69_exact_size_refuted`).
* **C57** With `AdjSingle`, `DualGraph::add_edge(i, j)` returns `EdgeExists` whenever `i` has any cross edge, also if `i`-`j` does not exist, and it panics (`unreachable!()`) if only `j` has one (`C57_single_refuted`, exact cases in `C57_single_add_edge`). At that point the first half of the edge is already stored, so a caller that catches the panic is left with an asymmetric graph.
* **C71** `SingleDualGraph::graph_1_contained_iter`, `graph_1_contained_iter_mut` and `graph_2_contained_iter` are safe functions that dereference a raw pointer at any index; only a `debug_assert!` guards it, so an index out of range is undefined behaviour in release builds (`C71_out_of_range`, `C71_memory_safe_refuted`). The `_which_graph` variants use `assert!` and are fine.
* **C72** `graph_1_mut` and `graph_2_mut` allow to replace a graph by one of another size while the cross edges keep the old size: searches then panic, and `graph_1_contained_iter_neighbors_in_other_graph_mut` writes out of bounds in release builds (`C72_replaced_refuted`).
* **C74** The sizes reported by vertex_biconnected_components depend on the order of the adjacency lists: sort_adj changes the answer from [4;3] to [4;2] for the graph in C74_biconnected_refuted. This has the same cause as the finding for C28. All other measures are invariant.
* **C81** Of the result of `vertex_biconnected_components` only the number of entries, the answer for a single block, and whether all blocks are single edges can be relied on (`C81_number`, `C81_one`, `C81_edges`); for the sizes see C28 and C74.
* **C83** `ConfigurationModel::randomize` (and so `from_vec`) does not draw the simple graphs with the given degrees uniformly: for the degrees 2, 2, 2, 1, 1 the triangle beside an edge arises from 4224 of the 40320 shuffles, each of the six paths from 4288 (10368 shuffles are discarded). The reason is that a half edge whose partner would be the same vertex takes another partner instead of the whole arrangement being discarded. The Markov chain of the same type is symmetric (C82), so the two ways of sampling have different distributions.
* **C84** `SwEnsemble::randomize` does not start from the ring but from the present graph, and resets that find their place taken are skipped silently. So its result depends on the graph before. With rewiring probability 0 it need not give back the ring, and there is a reachable state (the edge of each vertex i that belongs to i+1 lies at i-1) which it never leaves. This state has exactly the edges of the ring, but `count_long_ranging_edges` is 6 for 6 vertices. All other ensembles clear their edges first. A detail beside it: the comment of `m_step` says that the edge is reset with probability `r_prob` and rewired otherwise; the code does it the other way round.
* **C85, C86** A stationary distribution of the small-world chain is that of edges placed independently (first target with weight a + b(n-1), each other vertex with weight a), conditioned on a simple graph, and from six vertices on the chain connects all states. `randomize` does not sample from it, see C84: it treats the edges one after the other. With five vertices, which the documentation allows, the ensemble consists of the complete graph alone, and all steps are blocked or do nothing.
* **C88** (`C88_betweenness_refuted`): `vertex_load` hands the count of a vertex to its predecessors in equal shares, also if different numbers of shortest paths lead to them. On 7 vertices with the edges 0-1, 0-2, 0-3, 1-4, 2-4, 3-5, 4-6, 5-6 vertex 5 has a load that is not its betweenness. The documentation cites the erratum with the corrected weights; the code follows the first version. It is the betweenness if shortest paths are unique (`C88_unique`).
* **C90** In `SmallWorldWS` both ends of a rewired edge are drawn anew
  (`src/watts_strogatz/ensemble.rs` 136-184), whereas an edge of the Watts-Strogatz model keeps
  one end, which leaves every vertex at least `neighbor_distance` neighbours.  Here a vertex can
  lose all of them: `C90_watts_strogatz_refuted`.
* **C92** `average_degree` computes in f32: once `2 * edge_count` exceeds 2^24 it can be off even if all vertices have the same degree. The complete graph with 5794 vertices has average degree 5793, the function returns 5792.9995.
* **C92** `vertex_load` adds floating point fractions in the order of the adjacency lists, so graphs that are equal up to this order (`sort_adj`, `shuffle_adj`, an undone Markov step) can have different loads. Witness: 6 vertices, edges added in the order (4,3), (4,0), (1,0), (2,0), (5,4), (5,1), (3,1); vertex 0 has load 13.666666666666668 before and 13.666666666666666 after `sort_adj`. C74 states the independence in exact arithmetic; C92 bounds the difference.
* **C93** In `ConfigurationModel` and `SwEnsemble` a step finds its edges by their place in a list of neighbours. A simulation with a fixed seed therefore takes another course after `sort_adj` (or after an undone step) although the graph is the same; in the Erdos-Renyi ensembles it does not. Witness: `C93_config_order_refuted`, `C93_small_world_order_refuted`.
* **C94** `ErEnsembleC::new` accepts any connectivity: NaN and minus infinity give the empty graph, infinity and any c >= n-1 the complete graph, and a negative c either no edges or, if c/(n-1) underflows to -0, edges with probability 2^-53. Rounding never makes a probability below 1 out of c >= n-1.
* **C95** `SmallWorldWS::new(n, d, ..)` computes `1 + 2 * d` without a check. For d >= 2^63 a debug build panics with an overflow, and a release build wraps to `1 + 2 * (d - 2^63)`: with d = 2^63 and any n >= 1 the request is accepted, and `init_ring` joins vertex 0 with itself, which is undefined behaviour in `get_2_mut`, instead of returning `ImpossibleRingRequest` (C95_ws_distance_refuted).
* **C95** `ErEnsembleM::new` with more than 2^32 vertices refuses possible numbers of edges, because `n * (n - 1)` is computed before the division by 2; every debug build panics there (C95_er_m_refuted).
* **C96** A panic in a debug build can be a value in a release build (`SmallWorld::new_with_distance` with distance 3 or more, C96_release_panics_refuted) or undefined behaviour (`add_edge` with an index that is too large, C96_release_undefined). In the other direction the builds agree.
* **C97** `Ws::new` with n = 2*distance + 1, which it accepts, hangs with positive probability for every rewiring probability, not only for 1 (C47): if in the first vertex exactly one edge is chosen for rewiring, there is no place for it. `BAensemble::new` with m > s and `ConfigurationModel` with degrees that no graph has hang with certainty.
* **C102** (`C102_foreign_steps_refuted`, `C102_made_up_steps_refuted`). `undo_step` and `undo_step_quiet` are safe functions, yet in a release build a step of a larger ensemble, or one built by hand (`ErStepC`, `SpacialStep`, `ConfigurationModelStep` and `SwChangeState` are public enumerations, and with `serde_support` every step can be read from a file), makes them form an out-of-bounds or a second mutable reference through `get_2_mut` or `get_3_mut`. For the configuration model the step may even name only vertices that exist, `Added((0, 2), (1, 2))`. A debug build panics. Checking the indices in `get_2_mut` and `get_3_mut` unconditionally would close all of them; `C102_sw` and `C102_sw_distance` show that rings around too few vertices are the only other way.
* **C104** `SwEnsemble::randomize` is documented as `O(vertices)` (sw.rs 462). In the worst case it is quadratic: `rewire` searches the adjacency list of the old target with `position`, and a vertex can have nearly all others as neighbours (`C104_small_world_refuted`, for every factor K there are draws that take more than K(n+1) steps, in both profiles, starting from a freshly constructed ensemble). The bound 33n^2+1 always holds.
* **C104** `vertex_load` is documented as O(edges * vertices) (generic_graph.rs 1294, graph_traits.rs 251). Every source resets vectors of length n, so a graph without edges takes at least 4n(n-1) steps (`C104_vertex_load_refuted`). O(vertices * (vertices + edges)) is right, and the documented bound is right for graphs without isolated vertices.
* **C105** `SwGraph::rewire_edge` is documented to panic in debug mode if the edge is not rooted at `index0` and if `index0 == index2`. It reports `BlockedByExistingEdge` before it looks at the root, and `Nothing` if `index1 == index2` before it looks at the indices (`C105_debug_panics_refuted`). In release builds an edge rooted at its other end is moved and belongs to no root afterwards, which breaks the invariant that every vertex keeps its rooted edges (`C105_rewire_release`); `reset_edge` panics on such an edge in release builds too, although the documentation mentions only debug.
