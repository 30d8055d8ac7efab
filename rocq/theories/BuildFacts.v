(** Debug and release builds compared. *)
From Verif Require Import Base Containers Graph Traversal Components Transitivity Biconnected Rng ErC ErM Sw Ws Config Ba Spacial Dog Dual Iter Float Prob Overflow Markov BuildSpec.
From Coq Require Import QArith SpecFloat.
Set Implicit Arguments.
Local Open Scope nat_scope.

Definition agree {X} (d r : outcome X) : Prop := d = Panic \/ d = r.

Lemma ag_refl {X} (o : outcome X) : agree o o.
Proof. right. auto. Qed.

Lemma ag_panic {X} (o : outcome X) : agree Panic o.
Proof. left. auto. Qed.

Lemma ag_bind {X Y} (d r : outcome X) (k l : X -> outcome Y) :
  agree d r -> (forall x, agree (k x) (l x)) -> agree (bind d k) (bind r l).
Proof.
  intros [->| ->] H; [left; auto|]. destruct r as [x| | |]; cbn [bind]; [apply H|right; auto..].
Qed.

Lemma ag_foldM {X S} (f h : S -> X -> outcome S) l : (forall s x, agree (f s x) (h s x)) -> forall s, agree (foldM f s l) (foldM h s l).
Proof. intros H. induction l as [|x l IH]; intros s; cbn [foldM]; [apply ag_refl|]. apply ag_bind; auto. Qed.

Lemma ag_mapM {X Y} (f h : X -> outcome Y) l : (forall x, agree (f x) (h x)) -> agree (mapM f l) (mapM h l).
Proof.
  intros H. induction l as [|x l IH]; cbn [mapM]; [apply ag_refl|]. apply ag_bind; auto. intros y. apply ag_bind; auto.
  intros ys. apply ag_refl.
Qed.

Lemma ag_loop {St X} fuel (b c : St -> rng -> outcome ((St + X) * rng)) : (forall s rs, agree (b s rs) (c s rs)) ->
  forall s rs, agree (loop fuel b s rs) (loop fuel c s rs).
Proof.
  intros H. induction fuel as [|f IH]; intros s rs; cbn [loop]; [apply ag_refl|]. apply ag_bind; auto.
  intros [[s'|x] rs1]; auto. apply ag_refl.
Qed.

Ltac ag1 :=
  match goal with
  | |- agree ?a ?b => constr_eq a b; apply ag_refl
  | |- agree Panic _ => apply ag_panic
  | |- agree (bind _ _) (bind _ _) => apply ag_bind; [|intros]
  | |- agree (foldM _ _ _) (foldM _ _ _) => apply ag_foldM; intros
  | |- agree (mapM _ _) (mapM _ _) => apply ag_mapM; intros
  | |- agree (loop _ _ _ _) (loop _ _ _ _) => apply ag_loop; intros
  | |- agree _ _ => solve [eauto 2 with agree]
  | |- agree (match ?x with _ => _ end) (match ?x with _ => _ end) => destruct x
  | |- agree (match ?x with _ => _ end) _ => destruct x
  | |- agree (let _ := _ in _) _ => cbv zeta
  end.
Ltac ag := repeat ag1.
Create HintDb agree discriminated.
#[global] Hint Constants Opaque : agree.

Lemma ag_usub a b : agree (usub Debug a b) (usub Release a b).
Proof. unfold usub. ag. Qed.
#[global] Hint Resolve ag_usub : agree.

Lemma ag_assert b : agree (debug_assert Debug b) (debug_assert Release b).
Proof. unfold debug_assert. destruct b; ag. Qed.
#[global] Hint Resolve ag_assert : agree.

Lemma ag_error s : agree (debug_error_check Debug s) (debug_error_check Release s).
Proof. unfold debug_error_check. ag. Qed.
#[global] Hint Resolve ag_error : agree.

Section M_Graph.
Context {T A : Type} {C : AdjContainer T A}.

Lemma ag_get_2_mut (g : graph A) (i : nat) (j : nat) : agree (get_2_mut Debug g i j) (get_2_mut Release g i j).
Proof. unfold get_2_mut. ag. Qed.
#[local] Hint Resolve ag_get_2_mut : agree.

Lemma ag_add_edge (g : graph A) (i : nat) (j : nat) : agree (add_edge Debug g i j) (add_edge Release g i j).
Proof. unfold add_edge. ag. Qed.
#[local] Hint Resolve ag_add_edge : agree.

Lemma ag_remove_edge (g : graph A) (i : nat) (j : nat) : agree (remove_edge Debug g i j) (remove_edge Release g i j).
Proof. unfold remove_edge. ag. Qed.
#[local] Hint Resolve ag_remove_edge : agree.

Lemma ag_add_edges_try (g : graph A) (l : list (nat * nat)) : agree (add_edges_try Debug g l) (add_edges_try Release g l).
Proof. revert g; induction l; intros; cbn [add_edges_try]; ag. Qed.
#[local] Hint Resolve ag_add_edges_try : agree.

Lemma ag_init_ring (g : graph A) (distance : nat) : agree (init_ring Debug g distance) (init_ring Release g distance).
Proof. unfold init_ring. ag. Qed.
#[local] Hint Resolve ag_init_ring : agree.

Lemma ag_complete_graph {T0} (mk : nat -> T0) (n : nat) : agree (complete_graph Debug mk n) (complete_graph Release mk n).
Proof. unfold complete_graph. ag. Qed.
#[local] Hint Resolve ag_complete_graph : agree.

End M_Graph.
#[export] Hint Resolve ag_get_2_mut ag_add_edge ag_remove_edge ag_add_edges_try ag_init_ring ag_complete_graph : agree.

Section M_Traversal.
Context {T A : Type} {C : AdjContainer T A}.

Lemma ag_closeness_centrality (g : graph A) : agree (closeness_centrality Debug g) (closeness_centrality Release g).
Proof. unfold closeness_centrality. ag. Qed.
#[local] Hint Resolve ag_closeness_centrality : agree.

End M_Traversal.
#[export] Hint Resolve ag_closeness_centrality : agree.

Section M_Biconnected.
Context {T A : Type} {C : AdjContainer T A}.

Lemma ag_bc_forward (s : bc_state) (top : nat) : agree (bc_forward Debug s top) (bc_forward Release s top).
Proof. unfold bc_forward. ag. Qed.
#[local] Hint Resolve ag_bc_forward : agree.

Lemma ag_bc_loop (fuel : nat) (s : bc_state) : agree (bc_loop Debug fuel s) (bc_loop Release fuel s).
Proof. revert s; induction fuel; intros; cbn [bc_loop]; ag. Qed.
#[local] Hint Resolve ag_bc_loop : agree.

Lemma ag_bc_pivot (s : bc_state) (pivot : nat) : agree (bc_pivot Debug s pivot) (bc_pivot Release s pivot).
Proof. unfold bc_pivot. ag. Qed.
#[local] Hint Resolve ag_bc_pivot : agree.

Lemma ag_vertex_biconnected_components (g : graph A) (alternative_definition : bool) : agree (vertex_biconnected_components Debug g alternative_definition) (vertex_biconnected_components Release g alternative_definition).
Proof. unfold vertex_biconnected_components. ag. Qed.
#[local] Hint Resolve ag_vertex_biconnected_components : agree.

End M_Biconnected.
#[export] Hint Resolve ag_bc_forward ag_bc_loop ag_bc_pivot ag_vertex_biconnected_components : agree.

Section M_ErC.
Context {T : Type}.

Lemma ag_draw_two_from_range (high : nat) (rs : rng) : agree (draw_two_from_range Debug high rs) (draw_two_from_range Release high rs).
Proof. unfold draw_two_from_range. ag. Qed.
#[local] Hint Resolve ag_draw_two_from_range : agree.

Lemma ag_erc_m_step (e : er_c T) (rs : rng) : agree (erc_m_step Debug e rs) (erc_m_step Release e rs).
Proof. unfold erc_m_step. ag. Qed.
#[local] Hint Resolve ag_erc_m_step : agree.

Lemma ag_erc_undo_step (e : er_c T) (step : er_step_c) : agree (erc_undo_step Debug e step) (erc_undo_step Release e step).
Proof. unfold erc_undo_step. ag. Qed.
#[local] Hint Resolve ag_erc_undo_step : agree.

Lemma ag_erc_undo_step_quiet (e : er_c T) (step : er_step_c) : agree (erc_undo_step_quiet Debug e step) (erc_undo_step_quiet Release e step).
Proof. unfold erc_undo_step_quiet. ag. Qed.
#[local] Hint Resolve ag_erc_undo_step_quiet : agree.

Lemma ag_erc_probability (n : nat) (c : Q) : agree (erc_probability Debug n c) (erc_probability Release n c).
Proof. unfold erc_probability. ag. Qed.
#[local] Hint Resolve ag_erc_probability : agree.

Lemma ag_erc_new (mk : nat -> T) (n : nat) (c_target : Q) (rs : rng) : agree (erc_new Debug mk n c_target rs) (erc_new Release mk n c_target rs).
Proof. unfold erc_new. ag. Qed.
#[local] Hint Resolve ag_erc_new : agree.

Lemma ag_connect_loop (g : (graph (node_container T))) (last : nat) (l : list nat) : agree (connect_loop Debug g last l) (connect_loop Release g last l).
Proof. revert g last; induction l; intros; cbn [connect_loop]; ag. Qed.
#[local] Hint Resolve ag_connect_loop : agree.

Lemma ag_erc_make_connected (e : er_c T) : agree (erc_make_connected Debug e) (erc_make_connected Release e).
Proof. unfold erc_make_connected. ag. Qed.
#[local] Hint Resolve ag_erc_make_connected : agree.

Lemma ag_erc_set_target_connectivity (e : er_c T) (c : Q) : agree (erc_set_target_connectivity Debug e c) (erc_set_target_connectivity Release e c).
Proof. unfold erc_set_target_connectivity. ag. Qed.
#[local] Hint Resolve ag_erc_set_target_connectivity : agree.

End M_ErC.
#[export] Hint Resolve ag_draw_two_from_range ag_erc_m_step ag_erc_undo_step ag_erc_undo_step_quiet ag_erc_probability ag_erc_new ag_connect_loop ag_erc_make_connected ag_erc_set_target_connectivity : agree.

Section M_ErM.
Context {T : Type}.

Lemma ag_add_edge_unwrap (g : graph (node_container T)) (ab : nat * nat) : agree (add_edge_unwrap Debug g ab) (add_edge_unwrap Release g ab).
Proof. unfold add_edge_unwrap. ag. Qed.
#[local] Hint Resolve ag_add_edge_unwrap : agree.

Lemma ag_remove_edge_unwrap (g : graph (node_container T)) (ab : nat * nat) : agree (remove_edge_unwrap Debug g ab) (remove_edge_unwrap Release g ab).
Proof. unfold remove_edge_unwrap. ag. Qed.
#[local] Hint Resolve ag_remove_edge_unwrap : agree.

Lemma ag_erm_randomize (e : er_m T) (rs : rng) : agree (erm_randomize Debug e rs) (erm_randomize Release e rs).
Proof. unfold erm_randomize. ag. Qed.
#[local] Hint Resolve ag_erm_randomize : agree.

Lemma ag_erm_step (e : er_m T) (s : er_step_m) : agree (erm_step Debug e s) (erm_step Release e s).
Proof. unfold erm_step. ag. Qed.
#[local] Hint Resolve ag_erm_step : agree.

Lemma ag_erm_m_step (e : er_m T) (rs : rng) : agree (erm_m_step Debug e rs) (erm_m_step Release e rs).
Proof. unfold erm_m_step. ag. Qed.
#[local] Hint Resolve ag_erm_m_step : agree.

Lemma ag_erm_undo_step (e : er_m T) (s : er_step_m) : agree (erm_undo_step Debug e s) (erm_undo_step Release e s).
Proof. unfold erm_undo_step. ag. Qed.
#[local] Hint Resolve ag_erm_undo_step : agree.

Lemma ag_erm_undo_step_quiet (e : er_m T) (s : er_step_m) : agree (erm_undo_step_quiet Debug e s) (erm_undo_step_quiet Release e s).
Proof. unfold erm_undo_step_quiet. ag. Qed.
#[local] Hint Resolve ag_erm_undo_step_quiet : agree.

Lemma ag_erm_new (mk : nat -> T) (n : nat) (m : nat) (rs : rng) : agree (erm_new Debug mk n m rs) (erm_new Release mk n m rs).
Proof. unfold erm_new. ag. Qed.
#[local] Hint Resolve ag_erm_new : agree.

End M_ErM.
#[export] Hint Resolve ag_add_edge_unwrap ag_remove_edge_unwrap ag_erm_randomize ag_erm_step ag_erm_m_step ag_erm_undo_step ag_erm_undo_step_quiet ag_erm_new : agree.

Section M_Sw.
Context {T : Type}.

Lemma ag_sc_push_single (c : (sw_container T)) (other : nat) : agree (sc_push_single Debug c other) (sc_push_single Release c other).
Proof. unfold sc_push_single. ag. Qed.
#[local] Hint Resolve ag_sc_push_single : agree.

Lemma ag_sc_rewire (c0 : (sw_container T)) (c1 : (sw_container T)) (c2 : (sw_container T)) : agree (sc_rewire Debug c0 c1 c2) (sc_rewire Release c0 c1 c2).
Proof. unfold sc_rewire. ag. Qed.
#[local] Hint Resolve ag_sc_rewire : agree.

Lemma ag_sc_reset (c0 : (sw_container T)) (c1 : (sw_container T)) : agree (sc_reset Debug c0 c1) (sc_reset Release c0 c1).
Proof. unfold sc_reset. ag. Qed.
#[local] Hint Resolve ag_sc_reset : agree.

Lemma ag_get_3_mut (g : (graph (sw_container T))) (i : nat) (j : nat) (k : nat) : agree (get_3_mut Debug g i j k) (get_3_mut Release g i j k).
Proof. unfold get_3_mut. ag. Qed.
#[local] Hint Resolve ag_get_3_mut : agree.

Lemma ag_sw_reset_edge (g : (graph (sw_container T))) (i0 : nat) (i1 : nat) : agree (sw_reset_edge Debug g i0 i1) (sw_reset_edge Release g i0 i1).
Proof. unfold sw_reset_edge. ag. Qed.
#[local] Hint Resolve ag_sw_reset_edge : agree.

Lemma ag_sw_rewire_edge (g : (graph (sw_container T))) (i0 : nat) (i1 : nat) (i2 : nat) : agree (sw_rewire_edge Debug g i0 i1 i2) (sw_rewire_edge Release g i0 i1 i2).
Proof. unfold sw_rewire_edge. ag. Qed.
#[local] Hint Resolve ag_sw_rewire_edge : agree.

Lemma ag_sw_init_ring_2 (g : (graph (sw_container T))) : agree (sw_init_ring_2 Debug g) (sw_init_ring_2 Release g).
Proof. unfold sw_init_ring_2. ag. Qed.
#[local] Hint Resolve ag_sw_init_ring_2 : agree.

Lemma ag_sw_randomize_edge (e : (sw_ensemble T)) (i0 : nat) (i1 : nat) (rs : rng) : agree (sw_randomize_edge Debug e i0 i1 rs) (sw_randomize_edge Release e i0 i1 rs).
Proof. unfold sw_randomize_edge. ag. Qed.
#[local] Hint Resolve ag_sw_randomize_edge : agree.

Lemma ag_sw_randomize_vertex (s : (sw_ensemble T) * rng) (i : nat) : agree (sw_randomize_vertex Debug s i) (sw_randomize_vertex Release s i).
Proof. unfold sw_randomize_vertex. ag. Qed.
#[local] Hint Resolve ag_sw_randomize_vertex : agree.

Lemma ag_sw_randomize (e : (sw_ensemble T)) (rs : rng) : agree (sw_randomize Debug e rs) (sw_randomize Release e rs).
Proof. unfold sw_randomize. ag. Qed.
#[local] Hint Resolve ag_sw_randomize : agree.

Lemma ag_sw_new (mk : nat -> T) (n : nat) (r_prob : Q) (rs : rng) : agree (sw_new Debug mk n r_prob rs) (sw_new Release mk n r_prob rs).
Proof. unfold sw_new. ag. Qed.
#[local] Hint Resolve ag_sw_new : agree.

Lemma ag_sw_new_with_distance (mk : nat -> T) (n : nat) (distance : nat) (r_prob : Q) (rs : rng) : agree (sw_new_with_distance Debug mk n distance r_prob rs) (sw_new_with_distance Release mk n distance r_prob rs).
Proof. unfold sw_new_with_distance. ag. Qed.
#[local] Hint Resolve ag_sw_new_with_distance : agree.

Lemma ag_sw_m_step (e : (sw_ensemble T)) (rs : rng) : agree (sw_m_step Debug e rs) (sw_m_step Release e rs).
Proof. unfold sw_m_step. ag. Qed.
#[local] Hint Resolve ag_sw_m_step : agree.

Lemma ag_sw_undo_step (e : (sw_ensemble T)) (step : sw_state) : agree (sw_undo_step Debug e step) (sw_undo_step Release e step).
Proof. unfold sw_undo_step. ag. Qed.
#[local] Hint Resolve ag_sw_undo_step : agree.

Lemma ag_sw_undo_step_quiet (e : (sw_ensemble T)) (step : sw_state) : agree (sw_undo_step_quiet Debug e step) (sw_undo_step_quiet Release e step).
Proof. unfold sw_undo_step_quiet. ag. Qed.
#[local] Hint Resolve ag_sw_undo_step_quiet : agree.

Lemma ag_sw_connect_vertex (n : nat) (ids : list (option nat)) (s : graph (sw_container T) * list bool) (index : nat) : agree (sw_connect_vertex Debug n ids s index) (sw_connect_vertex Release n ids s index).
Proof. unfold sw_connect_vertex. ag. Qed.
#[local] Hint Resolve ag_sw_connect_vertex : agree.

Lemma ag_sw_connect (fuel : nat) (g : graph (sw_container T)) : agree (sw_connect Debug fuel g) (sw_connect Release fuel g).
Proof. revert g; induction fuel; intros; cbn [sw_connect]; ag. Qed.
#[local] Hint Resolve ag_sw_connect : agree.

Lemma ag_sw_make_connected (fuel : nat) (e : (sw_ensemble T)) : agree (sw_make_connected Debug fuel e) (sw_make_connected Release fuel e).
Proof. unfold sw_make_connected. ag. Qed.
#[local] Hint Resolve ag_sw_make_connected : agree.

End M_Sw.
#[export] Hint Resolve ag_sc_push_single ag_sc_rewire ag_sc_reset ag_get_3_mut ag_sw_reset_edge ag_sw_rewire_edge ag_sw_init_ring_2 ag_sw_randomize_edge ag_sw_randomize_vertex ag_sw_randomize ag_sw_new ag_sw_new_with_distance ag_sw_m_step ag_sw_undo_step ag_sw_undo_step_quiet ag_sw_connect_vertex ag_sw_connect ag_sw_make_connected : agree.

Section M_Ws.
Context {T : Type}.

Lemma ag_ws_create_edge (g : (graph (ws_container T))) (from : nat) (to : nat) (o : original_edge) : agree (ws_create_edge Debug g from to o) (ws_create_edge Release g from to o).
Proof. unfold ws_create_edge. ag. Qed.
#[local] Hint Resolve ag_ws_create_edge : agree.

Lemma ag_ws_add_random_edge (s : (graph (ws_container T)) * rng) (o : original_edge) : agree (ws_add_random_edge Debug s o) (ws_add_random_edge Release s o).
Proof. unfold ws_add_random_edge. ag. Qed.
#[local] Hint Resolve ag_ws_add_random_edge : agree.

Lemma ag_ws_randomize_vertex (q : Q) (s : (graph (ws_container T)) * rng) (i : nat) : agree (ws_randomize_vertex Debug q s i) (ws_randomize_vertex Release q s i).
Proof. unfold ws_randomize_vertex. ag. Qed.
#[local] Hint Resolve ag_ws_randomize_vertex : agree.

Lemma ag_ws_randomize (e : ws_ensemble T) (rs : rng) : agree (ws_randomize Debug e rs) (ws_randomize Release e rs).
Proof. unfold ws_randomize. ag. Qed.
#[local] Hint Resolve ag_ws_randomize : agree.

Lemma ag_ws_new (mk : nat -> T) (n : nat) (d : nat) (q : Q) (rs : rng) : agree (ws_new Debug mk n d q rs) (ws_new Release mk n d q rs).
Proof. unfold ws_new. ag. Qed.
#[local] Hint Resolve ag_ws_new : agree.

End M_Ws.
#[export] Hint Resolve ag_ws_create_edge ag_ws_add_random_edge ag_ws_randomize_vertex ag_ws_randomize ag_ws_new : agree.

Section M_Config.
Context {T : Type}.

Lemma ag_cm_add_multiple (fuel : nat) (g : (graph (node_container T))) (halfs : list nat) : agree (cm_add_multiple fuel Debug g halfs) (cm_add_multiple fuel Release g halfs).
Proof. revert g halfs; induction fuel; intros; cbn [cm_add_multiple]; ag. Qed.
#[local] Hint Resolve ag_cm_add_multiple : agree.

Lemma ag_cm_round (s : (graph (node_container T)) * list nat * list nat) (rs : rng) : agree (cm_round Debug s rs) (cm_round Release s rs).
Proof. unfold cm_round. ag. Qed.
#[local] Hint Resolve ag_cm_round : agree.

Lemma ag_cm_randomize (e : config T) (rs : rng) : agree (cm_randomize Debug e rs) (cm_randomize Release e rs).
Proof. unfold cm_randomize. ag. Qed.
#[local] Hint Resolve ag_cm_randomize : agree.

Lemma ag_cm_from_vec_unchecked (mk : nat -> T) (v : list nat) (rs : rng) : agree (cm_from_vec_unchecked Debug mk v rs) (cm_from_vec_unchecked Release mk v rs).
Proof. unfold cm_from_vec_unchecked. ag. Qed.
#[local] Hint Resolve ag_cm_from_vec_unchecked : agree.

Lemma ag_cm_from_vec (mk : nat -> T) (v : list nat) (rs : rng) : agree (cm_from_vec Debug mk v rs) (cm_from_vec Release mk v rs).
Proof. unfold cm_from_vec. ag. Qed.
#[local] Hint Resolve ag_cm_from_vec : agree.

Lemma ag_cm_from_const (mk : nat -> T) (constant : nat) (size : nat) (rs : rng) : agree (cm_from_const Debug mk constant size rs) (cm_from_const Release mk constant size rs).
Proof. unfold cm_from_const. ag. Qed.
#[local] Hint Resolve ag_cm_from_const : agree.

Lemma ag_cm_from_generic_graph {T1 A1} {C1 : AdjContainer T1 A1} (mk : nat -> T) (g : graph A1) (rs : rng) : agree (cm_from_generic_graph Debug mk g rs) (cm_from_generic_graph Release mk g rs).
Proof. unfold cm_from_generic_graph. ag. Qed.
#[local] Hint Resolve ag_cm_from_generic_graph : agree.

Lemma ag_cm_swap_degree_vec_unchecked (e : config T) (v : list nat) (rs : rng) : agree (cm_swap_degree_vec_unchecked Debug e v rs) (cm_swap_degree_vec_unchecked Release e v rs).
Proof. unfold cm_swap_degree_vec_unchecked. ag. Qed.
#[local] Hint Resolve ag_cm_swap_degree_vec_unchecked : agree.

Lemma ag_cm_swap_degree_vec (e : config T) (v : list nat) (rs : rng) : agree (cm_swap_degree_vec Debug e v rs) (cm_swap_degree_vec Release e v rs).
Proof. unfold cm_swap_degree_vec. ag. Qed.
#[local] Hint Resolve ag_cm_swap_degree_vec : agree.

Lemma ag_cm_degree_vec_from_generic_graph {T1 A1} {C1 : AdjContainer T1 A1} (e : config T) (g : graph A1) (rs : rng) : agree (cm_degree_vec_from_generic_graph Debug e g rs) (cm_degree_vec_from_generic_graph Release e g rs).
Proof. unfold cm_degree_vec_from_generic_graph. ag. Qed.
#[local] Hint Resolve ag_cm_degree_vec_from_generic_graph : agree.

Lemma ag_cm_m_step (e : config T) (rs : rng) : agree (cm_m_step Debug e rs) (cm_m_step Release e rs).
Proof. unfold cm_m_step, done_ok. ag. Qed.
#[local] Hint Resolve ag_cm_m_step : agree.

Lemma ag_cm_undo_step (e : config T) (s : cm_step) : agree (cm_undo_step Debug e s) (cm_undo_step Release e s).
Proof. unfold cm_undo_step, done_ok. ag. Qed.
#[local] Hint Resolve ag_cm_undo_step : agree.

Lemma ag_cm_undo_step_quiet (e : config T) (s : cm_step) : agree (cm_undo_step_quiet Debug e s) (cm_undo_step_quiet Release e s).
Proof. unfold cm_undo_step_quiet, done_ok. ag. Qed.
#[local] Hint Resolve ag_cm_undo_step_quiet : agree.

End M_Config.
#[export] Hint Resolve ag_cm_add_multiple ag_cm_round ag_cm_randomize ag_cm_from_vec_unchecked ag_cm_from_vec ag_cm_from_const ag_cm_from_generic_graph ag_cm_swap_degree_vec_unchecked ag_cm_swap_degree_vec ag_cm_degree_vec_from_generic_graph ag_cm_m_step ag_cm_undo_step ag_cm_undo_step_quiet : agree.

Section M_Ba.
Context {T : Type}.

Lemma ag_ba_attach (m : nat) (ws : list nat) (total : nat) (i : nat) (g : (graph (node_container T))) (rs : rng) : agree (ba_attach Debug m ws total i g rs) (ba_attach Release m ws total i g rs).
Proof. unfold ba_attach. ag. Qed.
#[local] Hint Resolve ag_ba_attach : agree.

Lemma ag_ba_insert (m : nat) (s : ((graph (node_container T)) * list nat) * rng) (i : nat) : agree (ba_insert Debug m s i) (ba_insert Release m s i).
Proof. unfold ba_insert. ag. Qed.
#[local] Hint Resolve ag_ba_insert : agree.

Lemma ag_ba_randomize (e : ba T) (rs : rng) : agree (ba_randomize Debug e rs) (ba_randomize Release e rs).
Proof. unfold ba_randomize. ag. Qed.
#[local] Hint Resolve ag_ba_randomize : agree.

Lemma ag_ba_new (mk : nat -> T) (n : nat) (m : nat) (source_n : nat) (rs : rng) : agree (ba_new Debug mk n m source_n rs) (ba_new Release mk n m source_n rs).
Proof. unfold ba_new. ag. Qed.
#[local] Hint Resolve ag_ba_new : agree.

Lemma ag_ba_new_from_graph (mk : nat -> T) (n : nat) (m : nat) (source : (graph (node_container T))) (rs : rng) : agree (ba_new_from_graph Debug mk n m source rs) (ba_new_from_graph Release mk n m source rs).
Proof. unfold ba_new_from_graph. ag. Qed.
#[local] Hint Resolve ag_ba_new_from_graph : agree.

Lemma ag_ba_new_from_generic_graph {A2} {C2 : AdjContainer T A2} (mk : nat -> T) (n : nat) (m : nat) (generic : graph A2) (rs : rng) : agree (ba_new_from_generic_graph Debug mk n m generic rs) (ba_new_from_generic_graph Release mk n m generic rs).
Proof. unfold ba_new_from_generic_graph. ag. Qed.
#[local] Hint Resolve ag_ba_new_from_generic_graph : agree.

End M_Ba.
#[export] Hint Resolve ag_ba_attach ag_ba_insert ag_ba_randomize ag_ba_new ag_ba_new_from_graph ag_ba_new_from_generic_graph : agree.

Section M_Spacial.
Context {T : Type}.

Lemma ag_sp_m_step (e : spacial T) (rs : rng) : agree (sp_m_step Debug e rs) (sp_m_step Release e rs).
Proof. unfold sp_m_step. ag. Qed.
#[local] Hint Resolve ag_sp_m_step : agree.

Lemma ag_sp_m_steps_quiet (e : spacial T) (count : nat) (rs : rng) : agree (sp_m_steps_quiet Debug e count rs) (sp_m_steps_quiet Release e count rs).
Proof. unfold sp_m_steps_quiet. ag. Qed.
#[local] Hint Resolve ag_sp_m_steps_quiet : agree.

Lemma ag_sp_undo_step (e : spacial T) (step : spacial_step) : agree (sp_undo_step Debug e step) (sp_undo_step Release e step).
Proof. unfold sp_undo_step. ag. Qed.
#[local] Hint Resolve ag_sp_undo_step : agree.

Lemma ag_sp_undo_step_quiet (e : spacial T) (step : spacial_step) : agree (sp_undo_step_quiet Debug e step) (sp_undo_step_quiet Release e step).
Proof. unfold sp_undo_step_quiet. ag. Qed.
#[local] Hint Resolve ag_sp_undo_step_quiet : agree.

End M_Spacial.
#[export] Hint Resolve ag_sp_m_step ag_sp_m_steps_quiet ag_sp_undo_step ag_sp_undo_step_quiet : agree.

Section M_Dog.
Context {T : Type}.

Lemma ag_dog_pair (acc : option pos -> option pos -> Q -> bool) (s : sgraph T * rng) (ij : nat * nat) : agree (dog_pair Debug acc s ij) (dog_pair Release acc s ij).
Proof. unfold dog_pair. ag. Qed.
#[local] Hint Resolve ag_dog_pair : agree.

Lemma ag_dog_try (node : nat) (sum : nat) (g : sgraph T) (rs : rng) : agree (dog_try Debug node sum g rs) (dog_try Release node sum g rs).
Proof. unfold dog_try. ag. Qed.
#[local] Hint Resolve ag_dog_try : agree.

Lemma ag_dog_edge (node : nat) (s : (sgraph T * nat) * rng) : agree (dog_edge Debug node s) (dog_edge Release node s).
Proof. unfold dog_edge. ag. Qed.
#[local] Hint Resolve ag_dog_edge : agree.

Lemma ag_dog_node (s : (sgraph T * nat) * rng) (node : nat) : agree (dog_node Debug s node) (dog_node Release s node).
Proof. unfold dog_node. ag. Qed.
#[local] Hint Resolve ag_dog_node : agree.

Lemma ag_dog_randomize (e : dog T) (rs : rng) : agree (dog_randomize Debug e rs) (dog_randomize Release e rs).
Proof. unfold dog_randomize. ag. Qed.
#[local] Hint Resolve ag_dog_randomize : agree.

Lemma ag_dog_new (mk : nat -> T) (n : nat) (accept : option pos -> option pos -> Q -> bool) (tau : Q) (lambda : nat) (rs : rng) : agree (dog_new Debug mk n accept tau lambda rs) (dog_new Release mk n accept tau lambda rs).
Proof. unfold dog_new. ag. Qed.
#[local] Hint Resolve ag_dog_new : agree.

End M_Dog.
#[export] Hint Resolve ag_dog_pair ag_dog_try ag_dog_edge ag_dog_node ag_dog_randomize ag_dog_new : agree.

Section M_Dual.
Context {J T1 A1 T2 A2 : Type} {AT : AdjTrait J}.
Context {C1 : AdjContainer T1 A1} {C2 : AdjContainer T2 A2}.

Lemma ag_dual_diameter_pass (d : dual J A1 A2) (acc : nat * dbfs) (index : dual_index) : agree (dual_diameter_pass Debug d acc index) (dual_diameter_pass Release d acc index).
Proof. unfold dual_diameter_pass. ag. Qed.
#[local] Hint Resolve ag_dual_diameter_pass : agree.

Lemma ag_dual_diameter (d : dual J A1 A2) : agree (dual_diameter Debug d) (dual_diameter Release d).
Proof. unfold dual_diameter. ag. Qed.
#[local] Hint Resolve ag_dual_diameter : agree.

End M_Dual.
#[export] Hint Resolve ag_dual_diameter_pass ag_dual_diameter : agree.

Section M_Single.
Context {T A1 A2 : Type}.
Context {C1 : AdjContainer T A1} {C2 : AdjContainer T A2}.

Lemma ag_raw_container {A} (g : graph A) (index : nat) : agree (raw_container Debug g index) (raw_container Release g index).
Proof. unfold raw_container. ag. Qed.
#[local] Hint Resolve ag_raw_container : agree.

Lemma ag_graph_1_contained_iter (d : (dual adj_single A1 A2)) (index : nat) : agree (graph_1_contained_iter Debug d index) (graph_1_contained_iter Release d index).
Proof. unfold graph_1_contained_iter. ag. Qed.
#[local] Hint Resolve ag_graph_1_contained_iter : agree.

Lemma ag_graph_2_contained_iter (d : (dual adj_single A1 A2)) (index : nat) : agree (graph_2_contained_iter Debug d index) (graph_2_contained_iter Release d index).
Proof. unfold graph_2_contained_iter. ag. Qed.
#[local] Hint Resolve ag_graph_2_contained_iter : agree.

Lemma ag_raw_at {A} {C : AdjContainer T A} (g : graph A) (i : nat) : agree (raw_at Debug g i) (raw_at Release g i).
Proof. unfold raw_at. ag. Qed.
#[local] Hint Resolve ag_raw_at : agree.

Lemma ag_graph_1_other_mut (d : (dual adj_single A1 A2)) (index : nat) : agree (graph_1_other_mut Debug d index) (graph_1_other_mut Release d index).
Proof. unfold graph_1_other_mut. ag. Qed.
#[local] Hint Resolve ag_graph_1_other_mut : agree.

Lemma ag_graph_2_other_mut (d : (dual adj_single A1 A2)) (index : nat) : agree (graph_2_other_mut Debug d index) (graph_2_other_mut Release d index).
Proof. unfold graph_2_other_mut. ag. Qed.
#[local] Hint Resolve ag_graph_2_other_mut : agree.

Lemma ag_graph_1_mut_with_index (d : (dual adj_single A1 A2)) (index : nat) : agree (graph_1_mut_with_index Debug d index) (graph_1_mut_with_index Release d index).
Proof. unfold graph_1_mut_with_index. ag. Qed.
#[local] Hint Resolve ag_graph_1_mut_with_index : agree.

Lemma ag_graph_2_mut_with_index (d : (dual adj_single A1 A2)) (index : nat) : agree (graph_2_mut_with_index Debug d index) (graph_2_mut_with_index Release d index).
Proof. unfold graph_2_mut_with_index. ag. Qed.
#[local] Hint Resolve ag_graph_2_mut_with_index : agree.

Lemma ag_graph_1_mut_which (d : (dual adj_single A1 A2)) (index : nat) : agree (graph_1_mut_which Debug d index) (graph_1_mut_which Release d index).
Proof. unfold graph_1_mut_which. ag. Qed.
#[local] Hint Resolve ag_graph_1_mut_which : agree.

Lemma ag_graph_2_mut_which (d : (dual adj_single A1 A2)) (index : nat) : agree (graph_2_mut_which Debug d index) (graph_2_mut_which Release d index).
Proof. unfold graph_2_mut_which. ag. Qed.
#[local] Hint Resolve ag_graph_2_mut_which : agree.

Lemma ag_graph_1_contained_iter_mut (d : (dual adj_single A1 A2)) (index : nat) : agree (graph_1_contained_iter_mut Debug d index) (graph_1_contained_iter_mut Release d index).
Proof. unfold graph_1_contained_iter_mut. ag. Qed.
#[local] Hint Resolve ag_graph_1_contained_iter_mut : agree.

End M_Single.
#[export] Hint Resolve ag_raw_container ag_graph_1_contained_iter ag_graph_2_contained_iter ag_raw_at ag_graph_1_other_mut ag_graph_2_other_mut ag_graph_1_mut_with_index ag_graph_2_mut_with_index ag_graph_1_mut_which ag_graph_2_mut_which ag_graph_1_contained_iter_mut : agree.

Section M_Iter.
Context {T : Type}.

Lemma ag_raw_place (len : nat) (i : nat) : agree (raw_place Debug len i) (raw_place Release len i).
Proof. unfold raw_place. ag. Qed.
#[local] Hint Resolve ag_raw_place : agree.

End M_Iter.
#[export] Hint Resolve ag_raw_place : agree.

Section M_Float.
Context {T A : Type} {C : AdjContainer T A}.

Lemma ag_closeness_f64 (g : graph A) : agree (closeness_f64 Debug g) (closeness_f64 Release g).
Proof. unfold closeness_f64. ag. Qed.
#[local] Hint Resolve ag_closeness_f64 : agree.

End M_Float.
#[export] Hint Resolve ag_closeness_f64 : agree.

Section M_Prob.
Context {T : Type}.

Lemma ag_erc64_m_step (e : (er_c64 T)) (rs : rng) : agree (erc64_m_step Debug e rs) (erc64_m_step Release e rs).
Proof. unfold erc64_m_step. ag. Qed.
#[local] Hint Resolve ag_erc64_m_step : agree.

Lemma ag_erc64_probability (n : nat) (c : spec_float) : agree (erc64_probability Debug n c) (erc64_probability Release n c).
Proof. unfold erc64_probability. ag. Qed.
#[local] Hint Resolve ag_erc64_probability : agree.

Lemma ag_erc64_new (mk : nat -> T) (n : nat) (c_target : spec_float) (rs : rng) : agree (erc64_new Debug mk n c_target rs) (erc64_new Release mk n c_target rs).
Proof. unfold erc64_new. ag. Qed.
#[local] Hint Resolve ag_erc64_new : agree.

Lemma ag_erc64_set_target_connectivity (e : (er_c64 T)) (c : spec_float) : agree (erc64_set_target_connectivity Debug e c) (erc64_set_target_connectivity Release e c).
Proof. unfold erc64_set_target_connectivity. ag. Qed.
#[local] Hint Resolve ag_erc64_set_target_connectivity : agree.

Lemma ag_sw64_randomize_edge (e : (sw_ensemble64 T)) (i0 : nat) (i1 : nat) (rs : rng) : agree (sw64_randomize_edge Debug e i0 i1 rs) (sw64_randomize_edge Release e i0 i1 rs).
Proof. unfold sw64_randomize_edge. ag. Qed.
#[local] Hint Resolve ag_sw64_randomize_edge : agree.

Lemma ag_sw64_randomize_vertex (s : (sw_ensemble64 T) * rng) (i : nat) : agree (sw64_randomize_vertex Debug s i) (sw64_randomize_vertex Release s i).
Proof. unfold sw64_randomize_vertex. ag. Qed.
#[local] Hint Resolve ag_sw64_randomize_vertex : agree.

Lemma ag_sw64_randomize (e : (sw_ensemble64 T)) (rs : rng) : agree (sw64_randomize Debug e rs) (sw64_randomize Release e rs).
Proof. unfold sw64_randomize. ag. Qed.
#[local] Hint Resolve ag_sw64_randomize : agree.

Lemma ag_sw64_new (mk : nat -> T) (n : nat) (r_prob : spec_float) (rs : rng) : agree (sw64_new Debug mk n r_prob rs) (sw64_new Release mk n r_prob rs).
Proof. unfold sw64_new. ag. Qed.
#[local] Hint Resolve ag_sw64_new : agree.

Lemma ag_sw64_new_with_distance (mk : nat -> T) (n : nat) (distance : nat) (r_prob : spec_float) (rs : rng) : agree (sw64_new_with_distance Debug mk n distance r_prob rs) (sw64_new_with_distance Release mk n distance r_prob rs).
Proof. unfold sw64_new_with_distance. ag. Qed.
#[local] Hint Resolve ag_sw64_new_with_distance : agree.

Lemma ag_sw64_m_step (e : (sw_ensemble64 T)) (rs : rng) : agree (sw64_m_step Debug e rs) (sw64_m_step Release e rs).
Proof. unfold sw64_m_step. ag. Qed.
#[local] Hint Resolve ag_sw64_m_step : agree.

Lemma ag_ws64_randomize_vertex (q : spec_float) (s : (graph (ws_container T)) * rng) (i : nat) : agree (ws64_randomize_vertex Debug q s i) (ws64_randomize_vertex Release q s i).
Proof. unfold ws64_randomize_vertex. ag. Qed.
#[local] Hint Resolve ag_ws64_randomize_vertex : agree.

Lemma ag_ws64_randomize (e : (ws_ensemble64 T)) (rs : rng) : agree (ws64_randomize Debug e rs) (ws64_randomize Release e rs).
Proof. unfold ws64_randomize. ag. Qed.
#[local] Hint Resolve ag_ws64_randomize : agree.

Lemma ag_ws64_new (mk : nat -> T) (n : nat) (d : nat) (q : spec_float) (rs : rng) : agree (ws64_new Debug mk n d q rs) (ws64_new Release mk n d q rs).
Proof. unfold ws64_new. ag. Qed.
#[local] Hint Resolve ag_ws64_new : agree.

End M_Prob.
#[export] Hint Resolve ag_erc64_m_step ag_erc64_probability ag_erc64_new ag_erc64_set_target_connectivity ag_sw64_randomize_edge ag_sw64_randomize_vertex ag_sw64_randomize ag_sw64_new ag_sw64_new_with_distance ag_sw64_m_step ag_ws64_randomize_vertex ag_ws64_randomize ag_ws64_new : agree.

Section M_Overflow.
Context {T A : Type} {C : AdjContainer T A}.

Lemma ag_ufit (x : nat) : agree (ufit Debug x) (ufit Release x).
Proof. unfold ufit. generalize (usize_modulus tt). intros m. destruct (x <? m); ag. Qed.
#[local] Hint Resolve ag_ufit : agree.

Lemma ag_uadd (a : nat) (b : nat) : agree (uadd Debug a b) (uadd Release a b).
Proof. unfold uadd. ag. Qed.
#[local] Hint Resolve ag_uadd : agree.

Lemma ag_umul (a : nat) (b : nat) : agree (umul Debug a b) (umul Release a b).
Proof. unfold umul. ag. Qed.
#[local] Hint Resolve ag_umul : agree.

Lemma ag_isucc (w : Z) (a : Z) : agree (isucc w Debug a) (isucc w Release a).
Proof. unfold isucc. ag. Qed.
#[local] Hint Resolve ag_isucc : agree.

Lemma ag_add_edge_usize (g : graph A) (i : nat) (j : nat) : agree (add_edge_usize Debug g i j) (add_edge_usize Release g i j).
Proof. unfold add_edge_usize. ag. Qed.
#[local] Hint Resolve ag_add_edge_usize : agree.

Lemma ag_ring_try (n : nat) (g : graph A) (l : list (nat * nat)) : agree (ring_try Debug n g l) (ring_try Release n g l).
Proof. revert n g; induction l; intros; cbn [ring_try]; ag. Qed.
#[local] Hint Resolve ag_ring_try : agree.

Lemma ag_init_ring_usize (g : graph A) (distance : nat) : agree (init_ring_usize Debug g distance) (init_ring_usize Release g distance).
Proof. unfold init_ring_usize. ag. Qed.
#[local] Hint Resolve ag_init_ring_usize : agree.

Lemma ag_average_degree_usize (g : graph A) : agree (average_degree_usize Debug g) (average_degree_usize Release g).
Proof. unfold average_degree_usize. ag. Qed.
#[local] Hint Resolve ag_average_degree_usize : agree.

Lemma ag_transitivity_inner_usize (g : graph A) (source : nat) (acc : nat * nat) (n2 : nat) : agree (transitivity_inner_usize Debug g source acc n2) (transitivity_inner_usize Release g source acc n2).
Proof. unfold transitivity_inner_usize. ag. Qed.
#[local] Hint Resolve ag_transitivity_inner_usize : agree.

Lemma ag_transitivity_middle_usize (g : graph A) (source : nat) (acc : nat * nat) (n1 : nat) : agree (transitivity_middle_usize Debug g source acc n1) (transitivity_middle_usize Release g source acc n1).
Proof. unfold transitivity_middle_usize. ag. Qed.
#[local] Hint Resolve ag_transitivity_middle_usize : agree.

Lemma ag_transitivity_usize (g : graph A) : agree (transitivity_usize Debug g) (transitivity_usize Release g).
Proof. unfold transitivity_usize. ag. Qed.
#[local] Hint Resolve ag_transitivity_usize : agree.

Lemma ag_closeness_add_usize (c : list nat) (item : nat * T * nat) : agree (closeness_add_usize Debug c item) (closeness_add_usize Release c item).
Proof. unfold closeness_add_usize. ag. Qed.
#[local] Hint Resolve ag_closeness_add_usize : agree.

Lemma ag_closeness_pass_usize (g : graph A) (acc : list nat * bfs) (i : nat) : agree (closeness_pass_usize Debug g acc i) (closeness_pass_usize Release g acc i).
Proof. unfold closeness_pass_usize. ag. Qed.
#[local] Hint Resolve ag_closeness_pass_usize : agree.

Lemma ag_closeness_usize (g : graph A) : agree (closeness_usize Debug g) (closeness_usize Release g).
Proof. unfold closeness_usize. ag. Qed.
#[local] Hint Resolve ag_closeness_usize : agree.

Lemma ag_suggest_pass_int (w : Z) (g : graph A) (acc : list nat * list Z * Z) (i : nat) : agree (suggest_pass_int w Debug g acc i) (suggest_pass_int w Release g acc i).
Proof. unfold suggest_pass_int. ag. Qed.
#[local] Hint Resolve ag_suggest_pass_int : agree.

Lemma ag_suggest_connections_i32 (g : graph A) : agree (suggest_connections_i32 Debug g) (suggest_connections_i32 Release g).
Proof. unfold suggest_connections_i32. ag. Qed.
#[local] Hint Resolve ag_suggest_connections_i32 : agree.

Lemma ag_ids_pass_int (w : Z) (g : graph A) (acc : list Z * Z) (i : nat) : agree (ids_pass_int w Debug g acc i) (ids_pass_int w Release g acc i).
Proof. unfold ids_pass_int. ag. Qed.
#[local] Hint Resolve ag_ids_pass_int : agree.

Lemma ag_connected_components_ids_isize (g : graph A) : agree (connected_components_ids_isize Debug g) (connected_components_ids_isize Release g).
Proof. unfold connected_components_ids_isize. ag. Qed.
#[local] Hint Resolve ag_connected_components_ids_isize : agree.

End M_Overflow.
#[export] Hint Resolve ag_ufit ag_uadd ag_umul ag_isucc ag_add_edge_usize ag_ring_try ag_init_ring_usize ag_average_degree_usize ag_transitivity_inner_usize ag_transitivity_middle_usize ag_transitivity_usize ag_closeness_add_usize ag_closeness_pass_usize ag_closeness_usize ag_suggest_pass_int ag_suggest_connections_i32 ag_ids_pass_int ag_connected_components_ids_isize : agree.

Section M_OverflowEnsembles.
Context {T : Type}.

Lemma ag_ws_randomize_usize (e : ws_ensemble T) (rs : rng) : agree (ws_randomize_usize Debug e rs) (ws_randomize_usize Release e rs).
Proof. unfold ws_randomize_usize. ag. Qed.
#[local] Hint Resolve ag_ws_randomize_usize : agree.

Lemma ag_ws_new_usize (mk : nat -> T) (n : nat) (d : nat) (q : Q) (rs : rng) : agree (ws_new_usize Debug mk n d q rs) (ws_new_usize Release mk n d q rs).
Proof. unfold ws_new_usize. ag. Qed.
#[local] Hint Resolve ag_ws_new_usize : agree.

Lemma ag_erm_new_usize (mk : nat -> T) (n : nat) (m : nat) (rs : rng) : agree (erm_new_usize Debug mk n m rs) (erm_new_usize Release mk n m rs).
Proof. unfold erm_new_usize. ag. Qed.
#[local] Hint Resolve ag_erm_new_usize : agree.

Lemma ag_degree_vec_is_valid_usize (v : list nat) : agree (degree_vec_is_valid_usize Debug v) (degree_vec_is_valid_usize Release v).
Proof. unfold degree_vec_is_valid_usize. ag. Qed.
#[local] Hint Resolve ag_degree_vec_is_valid_usize : agree.

Lemma ag_cm_from_vec_usize (mk : nat -> T) (v : list nat) (rs : rng) : agree (cm_from_vec_usize Debug mk v rs) (cm_from_vec_usize Release mk v rs).
Proof. unfold cm_from_vec_usize. ag. Qed.
#[local] Hint Resolve ag_cm_from_vec_usize : agree.

Lemma ag_cm_from_const_usize (mk : nat -> T) (constant : nat) (size : nat) (rs : rng) : agree (cm_from_const_usize Debug mk constant size rs) (cm_from_const_usize Release mk constant size rs).
Proof. unfold cm_from_const_usize. ag. Qed.
#[local] Hint Resolve ag_cm_from_const_usize : agree.

End M_OverflowEnsembles.
#[export] Hint Resolve ag_ws_randomize_usize ag_ws_new_usize ag_erm_new_usize ag_degree_vec_is_valid_usize ag_cm_from_vec_usize ag_cm_from_const_usize : agree.

(** ** Markov chains *)

Section M_Markov.
Context {S R U : Type}.
Variables md mr : S -> rng -> outcome (R * S * rng).
Variables ud ur : S -> R -> outcome (U * S).
Variables qd qr : S -> R -> outcome S.
Hypothesis Am : forall s rs, agree (md s rs) (mr s rs).
Hypothesis Au : forall s r, agree (ud s r) (ur s r).
Hypothesis Aq : forall s r, agree (qd s r) (qr s r).

Lemma ag_m_steps k : forall s rs, agree (m_steps md k s rs) (m_steps mr k s rs).
Proof.
  induction k as [|k IH]; intros s rs; cbn [m_steps]; [apply ag_refl|]. apply ag_bind; [apply Am|].
  intros [[r s1] rs1]. apply ag_bind; [apply IH|]. intros [[l s2] rs2]. apply ag_refl.
Qed.

Lemma ag_undo_in_order l : forall s, agree (undo_in_order ud s l) (undo_in_order ur s l).
Proof.
  induction l as [|r l IH]; intros s; cbn [undo_in_order]; [apply ag_refl|]. apply ag_bind; [apply Au|].
  intros [u s1]. apply ag_bind; [apply IH|]. intros [us s2]. apply ag_refl.
Qed.

Lemma ag_undo_steps s l : agree (undo_steps ud s l) (undo_steps ur s l).
Proof. apply ag_undo_in_order. Qed.

Lemma ag_undo_steps_quiet s l : agree (undo_steps_quiet qd s l) (undo_steps_quiet qr s l).
Proof. apply ag_foldM. auto. Qed.
End M_Markov.

(** ** Iterators *)

Section M_Lookup.
Context {S V Y : Type}.
Variables gd gr : V -> nat -> outcome Y.
Hypothesis Ag : forall v i, agree (gd v i) (gr v i).

Lemma ag_look (step : S -> outcome (option nat * S)) s : agree (look gd step s) (look gr step s).
Proof. unfold look. ag. Qed.

End M_Lookup.

Section M_Std.
Context {S X : Type}.
Variables nd nr : S -> outcome (option X * S).
Hypothesis An : forall s, agree (nd s) (nr s).

Lemma ag_std_nth k : forall s, agree (std_nth nd k s) (std_nth nr k s).
Proof. induction k as [|k IH]; intros s; cbn [std_nth]; ag; auto. Qed.
Lemma ag_std_all k f : forall s, agree (std_all nd k f s) (std_all nr k f s).
Proof. induction k as [|k IH]; intros s; cbn [std_all]; ag; auto. Qed.
Lemma ag_std_any k f : forall s, agree (std_any nd k f s) (std_any nr k f s).
Proof. induction k as [|k IH]; intros s; cbn [std_any]; ag; auto. Qed.
End M_Std.

Ltac builds := match goal with |- builds_agree ?f => change (agree (f Debug) (f Release)) end; cbv beta.
