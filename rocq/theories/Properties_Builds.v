(** C96: a debug build panics or does what a release build does. *)
From Verif Require Import Base Containers ContainerSpec Graph GraphSpec GraphFacts GraphOps Traversal Components Transitivity Biconnected Rng ErC ErM ErMSpec Sw SwSpec Ws WsSpec Config ConfigSpec Ba BaSpec Spacial Dog Dual Iter Float Prob Overflow Markov SessionSpec BuildSpec BuildFacts BuildHistories Properties_Sw.
From Coq Require Import QArith SpecFloat.
Set Implicit Arguments.
Local Open Scope nat_scope.

(** The graph itself: edges, rings, complete graphs. *)
Theorem C96_graph {T A : Type} {C : AdjContainer T A} :
  (forall (g : graph A) (i : nat) (j : nat),
    builds_agree (fun p => get_2_mut p g i j)) /\
  (forall (g : graph A) (i : nat) (j : nat),
    builds_agree (fun p => add_edge p g i j)) /\
  (forall (g : graph A) (i : nat) (j : nat),
    builds_agree (fun p => remove_edge p g i j)) /\
  (forall (g : graph A) (distance : nat),
    builds_agree (fun p => init_ring p g distance)) /\
  (forall (T0 : Type) (mk : nat -> T0) (n : nat),
    builds_agree (fun p => complete_graph p mk n)).
Proof.
  splits; intros.
  - builds. apply ag_get_2_mut.
  - builds. apply ag_add_edge.
  - builds. apply ag_remove_edge.
  - builds. apply ag_init_ring.
  - builds. apply ag_complete_graph.
Qed.
Print Assumptions C96_graph.

(** Closeness centrality, exactly and in floating point, and biconnected components. *)
Theorem C96_measures {T A : Type} {C : AdjContainer T A} :
  (forall (g : graph A),
    builds_agree (fun p => closeness_centrality p g)) /\
  (forall (g : graph A),
    builds_agree (fun p => closeness_f64 p g)) /\
  (forall (g : graph A) (alternative_definition : bool),
    builds_agree (fun p => vertex_biconnected_components p g alternative_definition)).
Proof.
  splits; intros.
  - builds. apply ag_closeness_centrality.
  - builds. apply ag_closeness_f64.
  - builds. apply ag_vertex_biconnected_components.
Qed.
Print Assumptions C96_measures.

(** The Erdos-Renyi ensemble with a target connectivity. *)
Theorem C96_er_c {T : Type} :
  (forall (mk : nat -> T) (n : nat) (c_target : Q) (rs : rng),
    builds_agree (fun p => erc_new p mk n c_target rs)) /\
  (forall (e : er_c T) (rs : rng),
    builds_agree (fun p => erc_m_step p e rs)) /\
  (forall (e : er_c T) (step : er_step_c),
    builds_agree (fun p => erc_undo_step p e step)) /\
  (forall (e : er_c T) (step : er_step_c),
    builds_agree (fun p => erc_undo_step_quiet p e step)) /\
  (forall (e : er_c T),
    builds_agree (fun p => erc_make_connected p e)) /\
  (forall (e : er_c T) (c : Q),
    builds_agree (fun p => erc_set_target_connectivity p e c)).
Proof.
  splits; intros.
  - builds. apply ag_erc_new.
  - builds. apply ag_erc_m_step.
  - builds. apply ag_erc_undo_step.
  - builds. apply ag_erc_undo_step_quiet.
  - builds. apply ag_erc_make_connected.
  - builds. apply ag_erc_set_target_connectivity.
Qed.
Print Assumptions C96_er_c.

(** The Erdos-Renyi ensemble with a number of edges. *)
Theorem C96_er_m {T : Type} :
  (forall (mk : nat -> T) (n : nat) (m : nat) (rs : rng),
    builds_agree (fun p => erm_new p mk n m rs)) /\
  (forall (e : er_m T) (rs : rng),
    builds_agree (fun p => erm_randomize p e rs)) /\
  (forall (e : er_m T) (rs : rng),
    builds_agree (fun p => erm_m_step p e rs)) /\
  (forall (e : er_m T) (s : er_step_m),
    builds_agree (fun p => erm_undo_step p e s)) /\
  (forall (e : er_m T) (s : er_step_m),
    builds_agree (fun p => erm_undo_step_quiet p e s)).
Proof.
  splits; intros.
  - builds. apply ag_erm_new.
  - builds. apply ag_erm_randomize.
  - builds. apply ag_erm_m_step.
  - builds. apply ag_erm_undo_step.
  - builds. apply ag_erm_undo_step_quiet.
Qed.
Print Assumptions C96_er_m.

(** The small-world ensemble and its graph. *)
Theorem C96_small_world {T : Type} :
  (forall (g : (graph (sw_container T))) (i0 : nat) (i1 : nat),
    builds_agree (fun p => sw_reset_edge p g i0 i1)) /\
  (forall (g : (graph (sw_container T))) (i0 : nat) (i1 : nat) (i2 : nat),
    builds_agree (fun p => sw_rewire_edge p g i0 i1 i2)) /\
  (forall (g : (graph (sw_container T))),
    builds_agree (fun p => sw_init_ring_2 p g)) /\
  (forall (mk : nat -> T) (n : nat) (r_prob : Q) (rs : rng),
    builds_agree (fun p => sw_new p mk n r_prob rs)) /\
  (forall (mk : nat -> T) (n : nat) (distance : nat) (r_prob : Q) (rs : rng),
    builds_agree (fun p => sw_new_with_distance p mk n distance r_prob rs)) /\
  (forall (e : (sw_ensemble T)) (rs : rng),
    builds_agree (fun p => sw_randomize p e rs)) /\
  (forall (e : (sw_ensemble T)) (rs : rng),
    builds_agree (fun p => sw_m_step p e rs)) /\
  (forall (e : (sw_ensemble T)) (step : sw_state),
    builds_agree (fun p => sw_undo_step p e step)) /\
  (forall (e : (sw_ensemble T)) (step : sw_state),
    builds_agree (fun p => sw_undo_step_quiet p e step)) /\
  (forall (fuel : nat) (e : (sw_ensemble T)),
    builds_agree (fun p => sw_make_connected p fuel e)).
Proof.
  splits; intros.
  - builds. apply ag_sw_reset_edge.
  - builds. apply ag_sw_rewire_edge.
  - builds. apply ag_sw_init_ring_2.
  - builds. apply ag_sw_new.
  - builds. apply ag_sw_new_with_distance.
  - builds. apply ag_sw_randomize.
  - builds. apply ag_sw_m_step.
  - builds. apply ag_sw_undo_step.
  - builds. apply ag_sw_undo_step_quiet.
  - builds. apply ag_sw_make_connected.
Qed.
Print Assumptions C96_small_world.

(** The Watts-Strogatz ensemble. *)
Theorem C96_watts {T : Type} :
  (forall (mk : nat -> T) (n : nat) (d : nat) (q : Q) (rs : rng),
    builds_agree (fun p => ws_new p mk n d q rs)) /\
  (forall (e : ws_ensemble T) (rs : rng),
    builds_agree (fun p => ws_randomize p e rs)).
Proof.
  splits; intros.
  - builds. apply ag_ws_new.
  - builds. apply ag_ws_randomize.
Qed.
Print Assumptions C96_watts.

(** The configuration model. *)
Theorem C96_config {T : Type} :
  (forall (mk : nat -> T) (v : list nat) (rs : rng),
    builds_agree (fun p => cm_from_vec p mk v rs)) /\
  (forall (mk : nat -> T) (v : list nat) (rs : rng),
    builds_agree (fun p => cm_from_vec_unchecked p mk v rs)) /\
  (forall (mk : nat -> T) (constant : nat) (size : nat) (rs : rng),
    builds_agree (fun p => cm_from_const p mk constant size rs)) /\
  (forall (T1 A1 : Type) (C1 : AdjContainer T1 A1) (mk : nat -> T) (g : graph A1) (rs : rng),
    builds_agree (fun p => cm_from_generic_graph p mk g rs)) /\
  (forall (e : config T) (rs : rng),
    builds_agree (fun p => cm_randomize p e rs)) /\
  (forall (e : config T) (v : list nat) (rs : rng),
    builds_agree (fun p => cm_swap_degree_vec p e v rs)) /\
  (forall (e : config T) (v : list nat) (rs : rng),
    builds_agree (fun p => cm_swap_degree_vec_unchecked p e v rs)) /\
  (forall (T1 A1 : Type) (C1 : AdjContainer T1 A1) (e : config T) (g : graph A1) (rs : rng),
    builds_agree (fun p => cm_degree_vec_from_generic_graph p e g rs)) /\
  (forall (e : config T) (rs : rng),
    builds_agree (fun p => cm_m_step p e rs)) /\
  (forall (e : config T) (s : cm_step),
    builds_agree (fun p => cm_undo_step p e s)) /\
  (forall (e : config T) (s : cm_step),
    builds_agree (fun p => cm_undo_step_quiet p e s)).
Proof.
  splits; intros.
  - builds. apply ag_cm_from_vec.
  - builds. apply ag_cm_from_vec_unchecked.
  - builds. apply ag_cm_from_const.
  - builds. apply ag_cm_from_generic_graph.
  - builds. apply ag_cm_randomize.
  - builds. apply ag_cm_swap_degree_vec.
  - builds. apply ag_cm_swap_degree_vec_unchecked.
  - builds. apply ag_cm_degree_vec_from_generic_graph.
  - builds. apply ag_cm_m_step.
  - builds. apply ag_cm_undo_step.
  - builds. apply ag_cm_undo_step_quiet.
Qed.
Print Assumptions C96_config.

(** The Barabasi-Albert ensemble. *)
Theorem C96_ba {T : Type} :
  (forall (mk : nat -> T) (n : nat) (m : nat) (source_n : nat) (rs : rng),
    builds_agree (fun p => ba_new p mk n m source_n rs)) /\
  (forall (mk : nat -> T) (n : nat) (m : nat) (source : (graph (node_container T))) (rs : rng),
    builds_agree (fun p => ba_new_from_graph p mk n m source rs)) /\
  (forall (A2 : Type) (C2 : AdjContainer T A2) (mk : nat -> T) (n : nat) (m : nat) (generic : graph A2) (rs : rng),
    builds_agree (fun p => ba_new_from_generic_graph p mk n m generic rs)) /\
  (forall (e : ba T) (rs : rng),
    builds_agree (fun p => ba_randomize p e rs)).
Proof.
  splits; intros.
  - builds. apply ag_ba_new.
  - builds. apply ag_ba_new_from_graph.
  - builds. apply ag_ba_new_from_generic_graph.
  - builds. apply ag_ba_randomize.
Qed.
Print Assumptions C96_ba.

(** The spacial ensemble and the one of Dall and Christensen. *)
Theorem C96_spacial {T : Type} :
  (forall (e : spacial T) (rs : rng),
    builds_agree (fun p => sp_m_step p e rs)) /\
  (forall (e : spacial T) (count : nat) (rs : rng),
    builds_agree (fun p => sp_m_steps_quiet p e count rs)) /\
  (forall (e : spacial T) (step : spacial_step),
    builds_agree (fun p => sp_undo_step p e step)) /\
  (forall (e : spacial T) (step : spacial_step),
    builds_agree (fun p => sp_undo_step_quiet p e step)) /\
  (forall (mk : nat -> T) (n : nat) (accept : option pos -> option pos -> Q -> bool) (tau : Q) (lambda : nat) (rs : rng),
    builds_agree (fun p => dog_new p mk n accept tau lambda rs)) /\
  (forall (e : dog T) (rs : rng),
    builds_agree (fun p => dog_randomize p e rs)).
Proof.
  splits; intros.
  - builds. apply ag_sp_m_step.
  - builds. apply ag_sp_m_steps_quiet.
  - builds. apply ag_sp_undo_step.
  - builds. apply ag_sp_undo_step_quiet.
  - builds. apply ag_dog_new.
  - builds. apply ag_dog_randomize.
Qed.
Print Assumptions C96_spacial.

(** The dual graph whose vertices have at most one partner. *)
Theorem C96_dual_single {T A1 A2 : Type} {C1 : AdjContainer T A1} {C2 : AdjContainer T A2} :
  (forall (d : (dual adj_single A1 A2)) (index : nat),
    builds_agree (fun p => graph_1_contained_iter p d index)) /\
  (forall (d : (dual adj_single A1 A2)) (index : nat),
    builds_agree (fun p => graph_2_contained_iter p d index)) /\
  (forall (d : (dual adj_single A1 A2)) (index : nat),
    builds_agree (fun p => graph_1_other_mut p d index)) /\
  (forall (d : (dual adj_single A1 A2)) (index : nat),
    builds_agree (fun p => graph_2_other_mut p d index)) /\
  (forall (d : (dual adj_single A1 A2)) (index : nat),
    builds_agree (fun p => graph_1_mut_with_index p d index)) /\
  (forall (d : (dual adj_single A1 A2)) (index : nat),
    builds_agree (fun p => graph_2_mut_with_index p d index)) /\
  (forall (d : (dual adj_single A1 A2)) (index : nat),
    builds_agree (fun p => graph_1_mut_which p d index)) /\
  (forall (d : (dual adj_single A1 A2)) (index : nat),
    builds_agree (fun p => graph_2_mut_which p d index)) /\
  (forall (d : (dual adj_single A1 A2)) (index : nat),
    builds_agree (fun p => graph_1_contained_iter_mut p d index)).
Proof.
  splits; intros.
  - builds. apply ag_graph_1_contained_iter.
  - builds. apply ag_graph_2_contained_iter.
  - builds. apply ag_graph_1_other_mut.
  - builds. apply ag_graph_2_other_mut.
  - builds. apply ag_graph_1_mut_with_index.
  - builds. apply ag_graph_2_mut_with_index.
  - builds. apply ag_graph_1_mut_which.
  - builds. apply ag_graph_2_mut_which.
  - builds. apply ag_graph_1_contained_iter_mut.
Qed.
Print Assumptions C96_dual_single.

(** The ensembles with floating-point probabilities. *)
Theorem C96_probabilities {T : Type} :
  (forall (mk : nat -> T) (n : nat) (c_target : spec_float) (rs : rng),
    builds_agree (fun p => erc64_new p mk n c_target rs)) /\
  (forall (e : (er_c64 T)) (rs : rng),
    builds_agree (fun p => erc64_m_step p e rs)) /\
  (forall (e : (er_c64 T)) (c : spec_float),
    builds_agree (fun p => erc64_set_target_connectivity p e c)) /\
  (forall (mk : nat -> T) (n : nat) (r_prob : spec_float) (rs : rng),
    builds_agree (fun p => sw64_new p mk n r_prob rs)) /\
  (forall (mk : nat -> T) (n : nat) (distance : nat) (r_prob : spec_float) (rs : rng),
    builds_agree (fun p => sw64_new_with_distance p mk n distance r_prob rs)) /\
  (forall (e : (sw_ensemble64 T)) (rs : rng),
    builds_agree (fun p => sw64_randomize p e rs)) /\
  (forall (e : (sw_ensemble64 T)) (rs : rng),
    builds_agree (fun p => sw64_m_step p e rs)) /\
  (forall (mk : nat -> T) (n : nat) (d : nat) (q : spec_float) (rs : rng),
    builds_agree (fun p => ws64_new p mk n d q rs)) /\
  (forall (e : (ws_ensemble64 T)) (rs : rng),
    builds_agree (fun p => ws64_randomize p e rs)).
Proof.
  splits; intros.
  - builds. apply ag_erc64_new.
  - builds. apply ag_erc64_m_step.
  - builds. apply ag_erc64_set_target_connectivity.
  - builds. apply ag_sw64_new.
  - builds. apply ag_sw64_new_with_distance.
  - builds. apply ag_sw64_randomize.
  - builds. apply ag_sw64_m_step.
  - builds. apply ag_ws64_new.
  - builds. apply ag_ws64_randomize.
Qed.
Print Assumptions C96_probabilities.

(** What was proved to overflow. *)
Theorem C96_integers {T A : Type} {C : AdjContainer T A} :
  (forall (g : graph A) (i : nat) (j : nat),
    builds_agree (fun p => add_edge_usize p g i j)) /\
  (forall (g : graph A) (distance : nat),
    builds_agree (fun p => init_ring_usize p g distance)) /\
  (forall (g : graph A),
    builds_agree (fun p => average_degree_usize p g)) /\
  (forall (g : graph A),
    builds_agree (fun p => transitivity_usize p g)) /\
  (forall (g : graph A),
    builds_agree (fun p => closeness_usize p g)) /\
  (forall (g : graph A),
    builds_agree (fun p => suggest_connections_i32 p g)) /\
  (forall (g : graph A),
    builds_agree (fun p => connected_components_ids_isize p g)).
Proof.
  splits; intros.
  - builds. apply ag_add_edge_usize.
  - builds. apply ag_init_ring_usize.
  - builds. apply ag_average_degree_usize.
  - builds. apply ag_transitivity_usize.
  - builds. apply ag_closeness_usize.
  - builds. apply ag_suggest_connections_i32.
  - builds. apply ag_connected_components_ids_isize.
Qed.
Print Assumptions C96_integers.

(** The same for the ensembles. *)
Theorem C96_integers_ensembles {T : Type} :
  (forall (mk : nat -> T) (n : nat) (d : nat) (q : Q) (rs : rng),
    builds_agree (fun p => ws_new_usize p mk n d q rs)) /\
  (forall (e : ws_ensemble T) (rs : rng),
    builds_agree (fun p => ws_randomize_usize p e rs)) /\
  (forall (mk : nat -> T) (n : nat) (m : nat) (rs : rng),
    builds_agree (fun p => erm_new_usize p mk n m rs)) /\
  (forall (mk : nat -> T) (v : list nat) (rs : rng),
    builds_agree (fun p => cm_from_vec_usize p mk v rs)) /\
  (forall (mk : nat -> T) (constant : nat) (size : nat) (rs : rng),
    builds_agree (fun p => cm_from_const_usize p mk constant size rs)).
Proof.
  splits; intros.
  - builds. apply ag_ws_new_usize.
  - builds. apply ag_ws_randomize_usize.
  - builds. apply ag_erm_new_usize.
  - builds. apply ag_cm_from_vec_usize.
  - builds. apply ag_cm_from_const_usize.
Qed.
Print Assumptions C96_integers_ensembles.

(** The dual graph in general. *)
Theorem C96_dual {J T1 A1 T2 A2 : Type} {AT : AdjTrait J} {C1 : AdjContainer T1 A1} {C2 : AdjContainer T2 A2} :
  forall (d : dual J A1 A2), builds_agree (fun p => dual_diameter p d).
Proof. intros. builds. apply ag_dual_diameter. Qed.
Print Assumptions C96_dual.

(** Every method of the iterator over mutable references to the payloads of neighbours, whatever
    iterator gives the indices. *)
Theorem C96_iterators {S : Type} : forall (I : Iter.iter S nat) (s : nat * S),
  builds_agree (fun p => it_next (n_contained_iter_mut p I) s) /\
  (forall k, builds_agree (fun p => it_nth (n_contained_iter_mut p I) k s)) /\
  builds_agree (fun p => it_next_back (n_contained_iter_mut p I) s) /\
  (forall k, builds_agree (fun p => it_nth_back (n_contained_iter_mut p I) k s)) /\
  (forall f, builds_agree (fun p => it_all (n_contained_iter_mut p I) f s)) /\
  (forall f, builds_agree (fun p => it_any (n_contained_iter_mut p I) f s)).
Proof.
  intros I s. splits; intros; cbn [n_contained_iter_mut lookup_iter it_next it_nth it_next_back it_nth_back it_all it_any].
  - builds. apply ag_look, ag_raw_place.
  - builds. apply ag_look, ag_raw_place.
  - right. reflexivity.
  - right. reflexivity.
  - builds. apply ag_std_all. intros. apply ag_look, ag_raw_place.
  - builds. apply ag_std_any. intros. apply ag_look, ag_raw_place.
Qed.
Print Assumptions C96_iterators.

(** Any number of steps, and undoing any list of steps. *)
Theorem C96_steps_er_c {T : Type} : forall (e : er_c T),
  (forall k rs, builds_agree (fun p => m_steps (erc_m_step p) k e rs)) /\
  (forall l, builds_agree (fun p => undo_steps (erc_undo_step p) e l)) /\
  (forall l, builds_agree (fun p => undo_steps_quiet (erc_undo_step_quiet p) e l)).
Proof.
  intros e. splits; intros.
  - builds. apply ag_m_steps, ag_erc_m_step.
  - builds. apply ag_undo_steps, ag_erc_undo_step.
  - builds. apply ag_undo_steps_quiet, ag_erc_undo_step_quiet.
Qed.
Print Assumptions C96_steps_er_c.

(** The same. *)
Theorem C96_steps_er_m {T : Type} : forall (e : er_m T),
  (forall k rs, builds_agree (fun p => m_steps (erm_m_step p) k e rs)) /\
  (forall l, builds_agree (fun p => undo_steps (erm_undo_step p) e l)) /\
  (forall l, builds_agree (fun p => undo_steps_quiet (erm_undo_step_quiet p) e l)).
Proof.
  intros e. splits; intros.
  - builds. apply ag_m_steps, ag_erm_m_step.
  - builds. apply ag_undo_steps, ag_erm_undo_step.
  - builds. apply ag_undo_steps_quiet, ag_erm_undo_step_quiet.
Qed.
Print Assumptions C96_steps_er_m.

(** The same. *)
Theorem C96_steps_small_world {T : Type} : forall (e : sw_ensemble T),
  (forall k rs, builds_agree (fun p => m_steps (sw_m_step p) k e rs)) /\
  (forall l, builds_agree (fun p => undo_steps (sw_undo_step p) e l)) /\
  (forall l, builds_agree (fun p => undo_steps_quiet (sw_undo_step_quiet p) e l)).
Proof.
  intros e. splits; intros.
  - builds. apply ag_m_steps, ag_sw_m_step.
  - builds. apply ag_undo_steps, ag_sw_undo_step.
  - builds. apply ag_undo_steps_quiet, ag_sw_undo_step_quiet.
Qed.
Print Assumptions C96_steps_small_world.

(** The same. *)
Theorem C96_steps_config {T : Type} : forall (e : config T),
  (forall k rs, builds_agree (fun p => m_steps (cm_m_step p) k e rs)) /\
  (forall l, builds_agree (fun p => undo_steps (cm_undo_step p) e l)) /\
  (forall l, builds_agree (fun p => undo_steps_quiet (cm_undo_step_quiet p) e l)).
Proof.
  intros e. splits; intros.
  - builds. apply ag_m_steps, ag_cm_m_step.
  - builds. apply ag_undo_steps, ag_cm_undo_step.
  - builds. apply ag_undo_steps_quiet, ag_cm_undo_step_quiet.
Qed.
Print Assumptions C96_steps_config.

(** The same. *)
Theorem C96_steps_spacial {T : Type} : forall (e : spacial T),
  (forall k rs, builds_agree (fun p => m_steps (sp_m_step p) k e rs)) /\
  (forall l, builds_agree (fun p => undo_steps (sp_undo_step p) e l)) /\
  (forall l, builds_agree (fun p => undo_steps_quiet (sp_undo_step_quiet p) e l)).
Proof.
  intros e. splits; intros.
  - builds. apply ag_m_steps, ag_sp_m_step.
  - builds. apply ag_undo_steps, ag_sp_undo_step.
  - builds. apply ag_undo_steps_quiet, ag_sp_undo_step_quiet.
Qed.
Print Assumptions C96_steps_spacial.

(** So whatever a user can reach with a debug build they reach with a release build: the same graph,
    the same ensemble. *)
Theorem C96_reach_graph {T A : Type} {C : AdjContainer T A} : forall (g : graph A),
  history Debug g -> history Release g.
Proof. exact (@graph_history T A C). Qed.
Print Assumptions C96_reach_graph.

Theorem C96_reach_ensembles {T : Type} :
  (forall n m (e : er_m T), erm_history Debug n m e -> erm_history Release n m e) /\
  (forall n (e : sw_ensemble T), 5 <= n -> sw_history Debug n e -> sw_history Release n e) /\
  (forall n d q (e : ws_ensemble T), ws_history Debug n d q e -> ws_history Release n d q e) /\
  (forall v (e : config T), cm_history Debug v e -> cm_history Release v e) /\
  (forall n m (e : ba T), ba_history Debug n m e -> ba_history Release n m e).
Proof.
  splits; intros; [apply erm_history_builds|apply sw_history_builds|apply ws_history_builds|apply cm_history_builds
    |apply ba_history_builds]; auto.
Qed.
Print Assumptions C96_reach_ensembles.

(** Steps, undoing them last first, and sorting in between. *)
Theorem C96_reach_sessions {T : Type} :
  (forall sort (e0 e : er_c T) l, session (erc_m_step Debug) (erc_undo_step Debug) (erc_undo_step_quiet Debug) sort e0 e l ->
    session (erc_m_step Release) (erc_undo_step Release) (erc_undo_step_quiet Release) sort e0 e l) /\
  (forall sort (e0 e : er_m T) l, session (erm_m_step Debug) (erm_undo_step Debug) (erm_undo_step_quiet Debug) sort e0 e l ->
    session (erm_m_step Release) (erm_undo_step Release) (erm_undo_step_quiet Release) sort e0 e l) /\
  (forall sort (e0 e : sw_ensemble T) l, session (sw_m_step Debug) (sw_undo_step Debug) (sw_undo_step_quiet Debug) sort e0 e l ->
    session (sw_m_step Release) (sw_undo_step Release) (sw_undo_step_quiet Release) sort e0 e l) /\
  (forall sort (e0 e : config T) l, session (cm_m_step Debug) (cm_undo_step Debug) (cm_undo_step_quiet Debug) sort e0 e l ->
    session (cm_m_step Release) (cm_undo_step Release) (cm_undo_step_quiet Release) sort e0 e l) /\
  (forall sort (e0 e : spacial T) l, session (sp_m_step Debug) (sp_undo_step Debug) (sp_undo_step_quiet Debug) sort e0 e l ->
    session (sp_m_step Release) (sp_undo_step Release) (sp_undo_step_quiet Release) sort e0 e l).
Proof.
  splits; intros sort e0 e l.
  - apply session_builds; [apply ag_erc_m_step|apply ag_erc_undo_step|apply ag_erc_undo_step_quiet].
  - apply session_builds; [apply ag_erm_m_step|apply ag_erm_undo_step|apply ag_erm_undo_step_quiet].
  - apply session_builds; [apply ag_sw_m_step|apply ag_sw_undo_step|apply ag_sw_undo_step_quiet].
  - apply session_builds; [apply ag_cm_m_step|apply ag_cm_undo_step|apply ag_cm_undo_step_quiet].
  - apply session_builds; [apply ag_sp_m_step|apply ag_sp_undo_step|apply ag_sp_undo_step_quiet].
Qed.
Print Assumptions C96_reach_sessions.

(** The other direction fails.  A release build goes on where a debug build panics: it returns ... *)
Theorem C96_release_returns {T : Type} : forall (mk : nat -> T) n d q rs,
  3 <= d -> 2 * d < n -> 4 * n <= length rs ->
  sw_new_with_distance Debug mk n d q rs = Panic /\
  exists x, sw_new_with_distance Release mk n d q rs = Done x.
Proof.
  intros mk n d q rs Hd Hn Hr. split; [apply C44_distance_three_panics; auto|].
  destruct (@C44_distance_release_steps_panic T mk n d q rs Hd Hn Hr) as (e & rs' & E & _). eauto.
Qed.
Print Assumptions C96_release_returns.

(** ... or its behaviour is undefined. *)
Theorem C96_release_undefined {T A : Type} {C : AdjContainer T A} {L : AdjLaws C} : forall (g : graph A) i j,
  simple_graph g -> vertex_count g <= i ->
  add_edge Debug g i j = Panic /\ add_edge Release g i j = UB.
Proof.
  intros g i j W H. assert (B : length (vertices g) <= i) by (rewrite (sg_len W); auto).
  apply nth_error_None in B. unfold add_edge, get_2_mut. destruct (Nat.ltb_spec i (next_id g)) as [K|_];
    [unfold vertex_count in H; lia|]. cbn [andb]. rewrite B. auto.
Qed.
Print Assumptions C96_release_undefined.

(** So a debug build that panics says nothing about a release build. *)
Theorem C96_release_panics_refuted : exists (mk : nat -> nat) n d q rs,
  sw_new_with_distance Debug mk n d q rs = Panic /\ sw_new_with_distance Release mk n d q rs <> Panic.
Proof.
  exists (fun i => i), 7, 3, 0%Q, (repeat 0 28).
  destruct (@C96_release_returns nat (fun i => i) 7 3 0%Q (repeat 0 28)) as (D & x & E); [lia|lia|apply Nat.le_refl|].
  split; auto. rewrite E. discriminate.
Qed.
Print Assumptions C96_release_panics_refuted.

(** A debug build that does not panic, and a release build that agrees with it; one that does, with a
    release build that reads out of bounds. *)
Example C96_case :
  add_edge Debug (@graph_new nat (node_container nat) _ (fun i => i) 3) 0 2 =
    add_edge Release (@graph_new nat (node_container nat) _ (fun i => i) 3) 0 2 /\
  add_edge Debug (@graph_new nat (node_container nat) _ (fun i => i) 3) 0 2 <> Panic /\
  history Debug (@graph_new nat (node_container nat) _ (fun i => i) 3) /\
  add_edge Debug (@graph_new nat (node_container nat) _ (fun i => i) 3) 3 2 = Panic /\
  add_edge Release (@graph_new nat (node_container nat) _ (fun i => i) 3) 3 2 = UB.
Proof. splits; try (vm_compute; congruence). constructor. Qed.
