(** The tests of /repo that need no generator and give numbers, as tests of the model: it gives the
    numbers the tests expect of the code. *)
From Verif Require Import Base Containers Graph Traversal Components Subgraph Biconnected Transitivity Load Float Iter
  Dot DotWriter Sw Dual.
From Coq Require Import ZArith SpecFloat String Ascii.
Local Open Scope nat_scope.
Local Open Scope list_scope.

(** [Graph::new(n)] and [add_edge(i, j).unwrap()] for each pair. *)
Definition build {A} {C : AdjContainer nat A} (n : nat) (l : list (nat * nat)) : outcome (graph A) :=
  foldM (fun g ij => do ' (r, g') <- add_edge Debug g (fst ij) (snd ij); do _ <- unwrap r; Done g')
    (graph_new (fun i => i) n) l.
Definition graph_of (n : nat) (l : list (nat * nat)) : outcome (graph (node_container nat)) := build n l.
(** All pairs. *)
Definition pairs (n : nat) : list (nat * nat) :=
  flat_map (fun i => map (pair i) (seq (i + 1) (n - (i + 1)))) (seq 0 n).
Definition cycle (n : nat) : list (nat * nat) := map (fun i => (i, Nat.modulo (i + 1) n)) (seq 0 n).
Definition path (n : nat) : list (nat * nat) := map (fun i => (i, i + 1)) (seq 0 (n - 1)).

(** /repo/tests/integration_test_graph.rs 7-26, [create_graph_1]. *)
Definition graph_1 : outcome (graph (node_container nat)) :=
  graph_of 20 ([(0, 1); (0, 2); (1, 2); (5, 6); (6, 7); (7, 8); (8, 9); (9, 10);
                (11, 12); (11, 13); (11, 14); (12, 13); (12, 14); (13, 14)]).

Example test_leaf_count :
  (do g <- graph_1; Done (leaf_count g)) = Done 2 /\ (do g <- graph_of 20 []; Done (leaf_count g)) = Done 0.
Proof. vm_compute. auto. Qed.

Example test_connected_components :
  (do g <- graph_of 20 []; connected_components g) = Done (repeat 1 20) /\
  (do g <- graph_of 0 []; connected_components g) = Done [] /\
  (do g <- graph_1; connected_components g) = Done ([6; 4; 3] ++ repeat 1 7).
Proof. vm_compute. auto. Qed.

Example test_q_core_empty :
  (do g <- graph_of 0 []; q_core g 1) = Done None /\ (do g <- graph_of 0 []; q_core g 2) = Done None /\
  (do g <- graph_of 1 []; q_core g 1) = Done None /\ (do g <- graph_of 1 []; q_core g 2) = Done (Some 0).
Proof. vm_compute. auto. Qed.

Example test_q_core_components :
  map (fun q => do g <- graph_1; q_core g q) [2; 3; 4; 1] = [Done (Some 4); Done (Some 4); Done (Some 0); Done None] /\
  (do g <- graph_of 20 [(0, 1); (0, 2); (1, 2)]; q_core g 2) = Done (Some 3).
Proof. vm_compute. auto. Qed.

Example test_q_core_complete :
  map (fun q => do g <- graph_of 20 (pairs 20); q_core g q) (seq 2 19) = repeat (Done (Some 20)) 18 ++ [Done (Some 0)].
Proof. vm_compute. reflexivity. Qed.

Example test_is_connected :
  (do g <- graph_of 10 []; is_connected g) = Done (Some false) /\
  (do g <- graph_of 10 (path 9); is_connected g) = Done (Some false) /\
  (do g <- graph_of 10 (path 10); is_connected g) = Done (Some true).
Proof. vm_compute. auto. Qed.

(** /repo/TestData/dotTest.dot. *)
Example test_dot : (do g <- graph_1; to_dot g) = Done ("graph{
	0 1 2 3 4 5 6 7 8 9 10 11 12 13 14 15 16 17 18 19 
	0 -- 1
	0 -- 2
	1 -- 2
	5 -- 6
	6 -- 7
	7 -- 8
	8 -- 9
	9 -- 10
	11 -- 12
	11 -- 13
	11 -- 14
	12 -- 13
	12 -- 14
	13 -- 14
}")%string.
Proof. vm_compute. reflexivity. Qed.

(** /repo/TestData/label_test.dot, with the options of /repo/src/dot_constants.rs 44-46. *)
Example test_dot_labels :
  (do g <- graph_1; to_dot_with_labels_from_contained g ("bgcolor=""transparent"";
	fontsize=50;
	node [shape=ellipse, penwidth=1, fontname=""Courier"", pin=true ];
	splines=true;")%string
     (fun _ index => "Hey " ++ show index ++ "!")%string) = Done ("graph G{
	bgcolor=""transparent"";
	fontsize=50;
	node [shape=ellipse, penwidth=1, fontname=""Courier"", pin=true ];
	splines=true;
	0 1 2 3 4 5 6 7 8 9 10 11 12 13 14 15 16 17 18 19 ;
	""0"" [label=""Hey 0!""];
	""1"" [label=""Hey 1!""];
	""2"" [label=""Hey 2!""];
	""3"" [label=""Hey 3!""];
	""4"" [label=""Hey 4!""];
	""5"" [label=""Hey 5!""];
	""6"" [label=""Hey 6!""];
	""7"" [label=""Hey 7!""];
	""8"" [label=""Hey 8!""];
	""9"" [label=""Hey 9!""];
	""10"" [label=""Hey 10!""];
	""11"" [label=""Hey 11!""];
	""12"" [label=""Hey 12!""];
	""13"" [label=""Hey 13!""];
	""14"" [label=""Hey 14!""];
	""15"" [label=""Hey 15!""];
	""16"" [label=""Hey 16!""];
	""17"" [label=""Hey 17!""];
	""18"" [label=""Hey 18!""];
	""19"" [label=""Hey 19!""];
	0 -- 1
	0 -- 2
	1 -- 2
	5 -- 6
	6 -- 7
	7 -- 8
	8 -- 9
	9 -- 10
	11 -- 12
	11 -- 13
	11 -- 14
	12 -- 13
	12 -- 14
	13 -- 14
}", tt)%string.
Proof. vm_compute. reflexivity. Qed.

(** /repo/TestData/phase_test.dot. *)
Example test_dot_phase :
  (do g <- graph_of 4 (cycle 4); to_dot_with_labels_from_contained g ""%string
     (fun i index => "Phase: " ++ nth i ["0"; "0.5"; "1"; "1.5"] "" ++ " at index " ++ show index)%string) = Done ("graph G{
	
	0 1 2 3 ;
	""0"" [label=""Phase: 0 at index 0""];
	""1"" [label=""Phase: 0.5 at index 1""];
	""2"" [label=""Phase: 1 at index 2""];
	""3"" [label=""Phase: 1.5 at index 3""];
	0 -- 1
	0 -- 3
	1 -- 2
	2 -- 3
}", tt)%string.
Proof. vm_compute. reflexivity. Qed.

Example test_average_degree :
  (do g <- graph_of 20 (pairs 20); Done (average_degree_f32 g)) = Done (S754_finite false 9961472 (-19))%Z /\
  (do g <- graph_of 20 []; Done (average_degree_f32 g)) = Done (S754_zero false).
Proof. vm_compute. auto. Qed.

Example test_diameter :
  (do g <- graph_of 5 (path 5); diameter g) = Done (Some 4) /\
  (do g <- graph_of 4 (cycle 4); diameter g) = Done (Some 2) /\
  (do g <- graph_of 40 (cycle 40); diameter g) = Done (Some 20) /\
  (do g <- graph_of 40 (pairs 40); diameter g) = Done (Some 1).
Proof. vm_compute. auto. Qed.

Example test_biconnected :
  (do g <- graph_of 6 [(0, 1); (1, 2); (2, 0); (3, 4); (5, 4)]; vertex_biconnected_components Debug g false) = Done [3; 2; 2] /\
  (do g <- graph_of 6 [(0, 1); (1, 2); (2, 0); (3, 4); (5, 4)]; vertex_biconnected_components Debug g true) = Done [3] /\
  (do g <- graph_of 6 []; vertex_biconnected_components Debug g false) = Done [] /\
  (do g <- graph_of 6 [(0, 1); (1, 2); (2, 0)]; vertex_biconnected_components Debug g false) = Done [3] /\
  (do g <- graph_of 5 [(0, 1); (1, 2); (2, 0); (2, 3); (4, 3); (4, 0)]; vertex_biconnected_components Debug g false) = Done [5].
Proof. vm_compute. repeat split. Qed.

(** The last one is sensitive to rounding: 4.666666666666666 and 8.666666666666668. *)
Example test_vertex_load :
  (do g <- graph_of 4 (pairs 4); vertex_load_f64 g true) = Done (repeat (S754_finite false 6755399441055744 (-51))%Z 4) /\
  (do g <- graph_of 4 (pairs 4); vertex_load_f64 g false) = Done (repeat (S754_zero false) 4) /\
  (do g <- graph_of 4 []; vertex_load_f64 g true) = Done (repeat (S754_zero false) 4) /\
  (do g <- graph_of 8 [(0, 1); (0, 2); (2, 1); (5, 1); (2, 3); (2, 4); (4, 3); (5, 3); (4, 5); (4, 7); (4, 6); (5, 7); (5, 6); (6, 7)];
   vertex_load_f64 g false) = Done ([S754_zero false; S754_finite false 5254199565265578 (-50); S754_finite false 4503599627370496 (-49); S754_finite false 6004799503160660 (-53); S754_finite false 4878899596318038 (-49); S754_finite false 5629499534213120 (-49); S754_zero false; S754_zero false])%Z.
Proof. vm_compute. repeat split. Qed.

Example test_transitivity :
  (do g <- graph_of 3 []; transitivity_f64 g) = Done S754_nan /\
  (do g <- graph_of 3 [(0, 1); (0, 2)]; transitivity_f64 g) = Done (S754_zero false) /\
  (do g <- graph_of 3 [(0, 1); (0, 2); (2, 1)]; transitivity_f64 g) = Done (S754_finite false 4503599627370496 (-52))%Z /\
  (do g <- graph_of 6 [(0, 1); (1, 2); (2, 3); (3, 4); (4, 0); (4, 1); (3, 5)]; transitivity_f64 g) = Done (S754_finite false 4913017775313268 (-54))%Z /\
  (do g <- graph_of 6 [(1, 2); (2, 3); (3, 4); (4, 5); (5, 1); (5, 2); (4, 0)]; transitivity_f64 g) = Done (S754_finite false 4913017775313268 (-54))%Z.
Proof. vm_compute. repeat split. Qed.

(** [iter_neighbors] of the tests, after [sort_adj]; and its panic. *)
Example test_iter_neighbors :
  (do g <- graph_of 6 (cycle 6); do g' <- sort_adj g; Done (map (@nc_adj nat) (vertices g'))) =
    Done [[1; 5]; [0; 2]; [1; 3]; [2; 4]; [3; 5]; [0; 4]] /\
  (do g <- graph_of 6 []; iter_neighbors g 6) = Panic.
Proof. vm_compute. auto. Qed.

(** /repo/src/generic_graph.rs 21-103: [degree_dist], [subgraph]. *)
Example test_degree_histogram :
  (do g <- graph_of 10 []; do ' (_, g') <- init_ring Debug g 1; degree_histogram g') = Done (2, [10]) /\
  (do g <- graph_of 1 []; degree_histogram g) = Done (0, [1]).
Proof. vm_compute. auto. Qed.

Example test_subgraph :
  (do g <- complete_graph Debug (fun i => i) 10; do h <- cloned_subgraph g [3; 2; 1; 9; 3];
   Done (option_map (fun h => (vertex_count h, edge_count h, option_map (@nc_adj nat) (nth_error (vertices h) 1))) h)) =
    Done (Some (4, 6, Some [0; 2; 3])) /\
  (do g <- complete_graph Debug (fun i => i) 10; do h <- cloned_subgraph g [0];
   Done (option_map (fun h => (vertex_count h, edge_count h)) h)) = Done (Some (1, 0)) /\
  (do g <- graph_of 7 [(0, 3); (0, 1); (2, 3); (0, 5)]; do h <- cloned_subgraph g [0; 1; 3];
   do h <- expect h; do h <- sort_adj h; Done (vertex_count h, edge_count h, map (@nc_adj nat) (vertices h))) =
    Done (3, 2, [[1; 2]; [0]; [0]]) /\
  (do g <- graph_of 7 [(0, 3); (0, 1); (2, 3); (0, 5)]; cloned_subgraph g []) = Done None /\
  (do g <- graph_of 7 [(0, 3); (0, 1); (2, 3); (0, 5)]; cloned_subgraph g [199; 199; 329]) = Done None.
Proof. vm_compute. repeat split. Qed.

(** /repo/src/sw_graph.rs 573-590, [long_ranging_edges_test]. *)
Definition sw_before : outcome (graph (sw_container nat)) := sw_init_ring_2 Debug (graph_new (fun i => i) 10).
Definition sw_after : outcome (graph (sw_container nat)) :=
  do g <- sw_before; do ' (_, g') <- sw_rewire_edge Debug g 0 1 5; Done g'.
Example test_long_ranging_edges :
  (do g <- sw_before; do a <- count_nodes_with_long_ranging_edges g; do c <- frac_nodes_wlre_f64 g;
   Done (a, count_long_ranging_edges g, c, frac_long_ranging_edges_f64 g)) = Done (0, 0, S754_zero false, S754_zero false) /\
  (do g <- sw_after; do a <- count_nodes_with_long_ranging_edges g; do c <- frac_nodes_wlre_f64 g;
   Done (a, count_long_ranging_edges g, c, frac_long_ranging_edges_f64 g)) = Done (2, 1, (S754_finite false 7205759403792794 (-55))%Z, (S754_finite false 7205759403792794 (-57))%Z).
Proof. vm_compute. auto. Qed.

(** /repo/src/dual_graph/dual_graph.rs 766-877, the tests of the dual graph.  [MultiDualGraph] and
    [SingleDualGraph]. *)
Definition dual_add {J} {A : AdjTrait J} (d : dual J (node_container nat) (sw_container nat)) (l : list (nat * nat)) :=
  foldM (fun d ij => do ' (r, d') <- dual_add_edge d (fst ij) (snd ij); do _ <- unwrap r; Done d') d l.
Definition dual_case (J : Type) {A : AdjTrait J} (l : list (nat * nat)) : outcome bool :=
  do g1 <- graph_of 5 [(0, 1); (1, 2); (3, 4)]; do g2 <- sw_init_ring_2 Debug (graph_new (fun i => i) 5);
  do d <- dual_add (J := J) (dual_new g1 g2) l; dual_is_connected d.
Example test_dual_basic :
  map (dual_case adj_single) [[]; [(1, 0)]; [(1, 0); (3, 4)]] = [Done false; Done false; Done true] /\
  map (dual_case adj_multi) [[]; [(1, 0)]; [(1, 0); (3, 4)]] = [Done false; Done false; Done true].
Proof. vm_compute. auto. Qed.

Definition ring (n d : nat) : outcome (graph (node_container nat)) :=
  do ' (r, g) <- init_ring Debug (graph_new (fun i => i) n) d; do _ <- unwrap r; Done g.
Definition sum (l : outcome (list nat)) : outcome nat := do l <- l; Done (list_sum l).
Example test_dual_dfs :
  (do g <- ring 5 2; sum (dfs_all g 0)) = Done 10 /\ (do g <- ring 11 1; sum (dfs_all g 0)) = Done 55 /\
  (do g1 <- ring 5 2; do g2 <- ring 11 1; let d := dual_new (J := adj_multi) g1 g2 in
   do a <- sum (dual_dfs_1_contained d 0); do b <- sum (dual_dfs_2_contained d 0);
   do ' (_, d') <- dual_add_edge d 0 0; do c <- sum (dual_dfs_contained d' (Graph1 0)); Done (a, b, c)) = Done (10, 55, 65).
Proof. vm_compute. auto. Qed.

Example test_dual_depth :
  (do g <- ring 6 1; do ' (_, d) <- dual_add_edge (dual_new (J := adj_multi) g g) 0 0;
   do l <- dual_bfs_index d (Graph1 3); do c <- dual_is_connected d; do m <- dual_diameter Debug d;
   Done (option_map snd (nth_error (rev l) 0), c, m)) = Done (Some 7, true, Some 7).
Proof. vm_compute. reflexivity. Qed.
