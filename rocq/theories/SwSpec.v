(** Vocabulary for the statements about small-world graphs. *)
From Verif Require Import Base Containers ContainerSpec ContainerFacts Graph GraphSpec Sw.
From Coq Require Import QArith.
Set Implicit Arguments.
Local Open Scope nat_scope.

Section Spec.
Context {T : Type}.
Implicit Types g h : graph (sw_container T).

(** The stored edges of vertex [i]. *)
Definition entries g i : list sw_edge :=
  match nth_error (vertices g) i with
  | Some c => sc_adj c
  | None => []
  end.

(** The edge from [i] to [j] is rooted at [i] and started with target [o]. *)
Definition rooted_from g i j o : Prop := In (mk_se j (Some o)) (entries g i).
Definition rooted g i j : Prop := exists o, rooted_from g i j o.

(** The original targets of the edges rooted at [i]. *)
Definition root_targets g i : list nat :=
  flat_map (fun e => match se_orig e with Some o => [o] | None => [] end) (entries g i).

(** The next [d] vertices on the ring. *)
Definition ring_targets (n d i : nat) : list nat :=
  map (fun k => Nat.modulo (i + k) n) (seq 1 d).

(** A small-world graph with [n] vertices and [d] edges rooted at each of them. *)
Record sw_ok (n d : nat) g : Prop := {
  so_simple : simple_graph g;
  so_vertices : vertex_count g = n;
  so_edges : edge_count g = n * d;
  so_roots : forall i, i < n -> Permutation (root_targets g i) (ring_targets n d i);
  so_one_root : forall i j, adj g i j ->
    (rooted g i j /\ ~ rooted g j i) \/ (rooted g j i /\ ~ rooted g i j)
}.

(** Same up to the order of the stored edges. *)
Definition sw_alike g h : Prop :=
  vertex_count h = vertex_count g /\ edge_count h = edge_count g /\
  payloads h = payloads g /\ forall i, Permutation (entries g i) (entries h i).

(** An edge rooted at [i], now going to [j], that has left its original place. *)
Definition long_range g i j : Prop := exists o, rooted_from g i j o /\ o <> j.

End Spec.

Definition sw_like {T} (e h : sw_ensemble T) : Prop :=
  sw_alike (sw_graph e) (sw_graph h) /\ sw_r_prob h = sw_r_prob e.

(** What undoing a step should report. *)
Definition sw_inverse (s u : sw_state) : Prop :=
  match s with
  | Sw_Rewire r a b | Sw_Reset r a b => u = Sw_Rewire r b a
  | Sw_Nothing | Sw_BlockedByExistingEdge => u = s
  | _ => False
  end.

(** Undoing does not touch an edge that is rooted elsewhere.  In debug builds an
    assertion makes sure of that. *)
Definition sw_undoable {T} (p : profile) (g : graph (sw_container T)) (s : sw_state) : Prop :=
  match s with
  | Sw_Rewire r _ b | Sw_Reset r _ b => p = Debug \/ rooted g r b
  | _ => True
  end.

(** What a user can do with an ensemble. *)
Inductive sw_history {T} (p : profile) (n : nat) : sw_ensemble T -> Prop :=
| swh_new mk q rs e rs' : sw_new p mk n q rs = Done (e, rs') -> sw_history p n e
| swh_randomize e rs e' rs' : sw_history p n e ->
    sw_randomize p e rs = Done (e', rs') -> sw_history p n e'
| swh_step e rs s e' rs' : sw_history p n e ->
    sw_m_step p e rs = Done (s, e', rs') -> sw_history p n e'
| swh_undo e s s' e' : sw_history p n e -> sw_undoable p (sw_graph e) s ->
    sw_undo_step p e s = Done (s', e') -> sw_history p n e'
| swh_connect e fuel e' : sw_history p n e ->
    sw_make_connected p fuel e = Done e' -> sw_history p n e'
| swh_sort e g' : sw_history p n e ->
    sort_adj (sw_graph e) = Done g' -> sw_history p n (sw_set e g')
| swh_set_prob e q : sw_history p n e -> sw_history p n (mk_swe (sw_graph e) q).
