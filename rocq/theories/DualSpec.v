(** Vocabulary for the statements about dual graphs. *)
From Verif Require Import Base Containers ContainerSpec Graph GraphSpec Dual.
Set Implicit Arguments.

Section Spec.
Context {J T1 A1 T2 A2 : Type} {AT : AdjTrait J}.
Context {C1 : AdjContainer T1 A1} {C2 : AdjContainer T2 A2}.
Implicit Types d : dual J A1 A2.

(** What graph 1 stores about its vertex [i], and graph 2 about its vertex [j]. *)
Definition cross_1 d (i j : nat) : Prop :=
  exists a, nth_error (adj_1 d) i = Some a /\ In j (at_slice a).
Definition cross_2 d (j i : nat) : Prop :=
  exists a, nth_error (adj_2 d) j = Some a /\ In i (at_slice a).

Definition dual_vertex d (v : dual_index) : Prop :=
  match v with
  | Graph1 i => i < vertex_count (graph_1 d)
  | Graph2 j => j < vertex_count (graph_2 d)
  end.

(** The edges of the union of both graphs and the cross edges. *)
Definition linked d (u v : dual_index) : Prop :=
  match u, v with
  | Graph1 i, Graph1 j => adj (graph_1 d) i j
  | Graph2 i, Graph2 j => adj (graph_2 d) i j
  | Graph1 i, Graph2 j => cross_1 d i j
  | Graph2 j, Graph1 i => cross_1 d i j
  end.

Definition dual_connected d : Prop :=
  forall u v, dual_vertex d u -> dual_vertex d v -> joined (linked d) u v.

Definition is_dual_diameter d (k : nat) : Prop :=
  (exists u v, dual_vertex d u /\ is_dist (linked d) u v k) /\
  forall u v l, dual_vertex d u -> is_dist (linked d) u v l -> l <= k.

(** Both graphs are simple and the cross edges are stored symmetrically, without
    repetition, between existing vertices. *)
Record dual_ok {L1 : AdjLaws C1} {L2 : AdjLaws C2} d : Prop := {
  du_g1 : simple_graph (graph_1 d);
  du_g2 : simple_graph (graph_2 d);
  du_len1 : length (adj_1 d) = vertex_count (graph_1 d);
  du_len2 : length (adj_2 d) = vertex_count (graph_2 d);
  du_nodup1 : forall i a, nth_error (adj_1 d) i = Some a -> NoDup (at_slice a);
  du_nodup2 : forall j a, nth_error (adj_2 d) j = Some a -> NoDup (at_slice a);
  du_sym : forall i j, cross_1 d i j <-> cross_2 d j i
}.

End Spec.

(** The payload of a vertex of the union. *)
Definition dual_payload {J T A1 A2} {C1 : AdjContainer T A1} {C2 : AdjContainer T A2}
  (d : dual J A1 A2) (v : dual_index) (t : T) : Prop :=
  match v with
  | Graph1 i => nth_error (payloads (graph_1 d)) i = Some t
  | Graph2 j => nth_error (payloads (graph_2 d)) j = Some t
  end.

(** A reference to vertex [v] of the union, tagged with graph and index, and the same
    without the index. *)
Definition tagged {J T A1 A2} {C1 : AdjContainer T A1} {C2 : AdjContainer T A2}
  (d : dual J A1 A2) (v : dual_index) (r : which (nat * T)) : Prop :=
  match v, r with
  | Graph1 i, Graph1 (j, t) | Graph2 i, Graph2 (j, t) => i = j /\ dual_payload d v t
  | _, _ => False
  end.

Definition untag {T} (r : which (nat * T)) : which T :=
  match r with Graph1 (_, t) => Graph1 t | Graph2 (_, t) => Graph2 t end.

(** A sequence of calls of [add_edge]: all the results and the final graph. *)
Fixpoint dual_add_edges {J A1 A2} {AT : AdjTrait J} (d : dual J A1 A2) (l : list (nat * nat))
  : outcome (list (result unit add_edge_error) * dual J A1 A2) :=
  match l with
  | [] => Done ([], d)
  | (i, j) :: t =>
      do ' (r, d1) <- dual_add_edge d i j;
      do ' (rs, d2) <- dual_add_edges d1 t;
      Done (r :: rs, d2)
  end.
