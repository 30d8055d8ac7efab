(** Independent vocabulary for stating the properties of graphs.  Everything is
    expressed through what a caller can observe: the number of vertices, the
    neighbour list of each vertex, its payload, and [edge_count]. *)
From Verif Require Import Base Containers ContainerSpec Graph.
Set Implicit Arguments.

(** ** Relations on any vertex type *)

Section Walks.
Context {V : Type} (R : V -> V -> Prop).

(** [walk u v k]: there is a walk with [k] edges from [u] to [v]. *)
Inductive walk (u : V) : V -> nat -> Prop :=
| walk_nil : walk u u 0
| walk_snoc v w k : walk u v k -> R v w -> walk u w (S k).

Definition joined (u v : V) : Prop := exists k, walk u v k.

(** [d] is the length of a shortest walk from [u] to [v]. *)
Definition is_dist (u v : V) (d : nat) : Prop :=
  walk u v d /\ forall k, walk u v k -> d <= k.
End Walks.

(** Number of elements of a list satisfying a boolean test. *)
Definition count {X} (f : X -> bool) (l : list X) : nat := length (filter f l).

(** All pairs [(i, j)] with [i < j < n]. *)
Definition pairs_below (n : nat) : list (nat * nat) :=
  flat_map (fun j => map (fun i => (i, j)) (seq 0 j)) (seq 0 n).

Section Observations.
Context {T A : Type} {C : AdjContainer T A}.

(** Neighbours of vertex [i] in their order; empty when out of range. *)
Definition nbrs (g : graph A) (i : nat) : list nat :=
  match nth_error (vertices g) i with
  | Some c => ac_neighbors c
  | None => []
  end.

(** [j] is listed as a neighbour of [i]. *)
Definition adj (g : graph A) (i j : nat) : Prop := In j (nbrs g i).

Definition adjb (g : graph A) (i j : nat) : bool := existsb (Nat.eqb j) (nbrs g i).

(** Number of unordered adjacent pairs. *)
Definition number_of_edges (g : graph A) : nat :=
  count (fun ij => adjb g (fst ij) (snd ij)) (pairs_below (vertex_count g)).

(** A simple undirected graph, consistently stored. *)
Record simple_graph {L : AdjLaws C} (g : graph A) : Prop := {
  sg_len : length (vertices g) = vertex_count g;
  sg_cont : forall i c, nth_error (vertices g) i = Some c -> ac_wf c /\ ac_id c = i;
  sg_range : forall i j, adj g i j -> j < vertex_count g;
  sg_irrefl : forall i, ~ adj g i i;
  sg_nodup : forall i, NoDup (nbrs g i);
  sg_sym : forall i j, adj g i j -> adj g j i;
  sg_count : edge_count g = number_of_edges g
}.

(** The payloads in order. *)
Definition payloads (g : graph A) : list T := map ac_contained (vertices g).

(** Same vertices with the same payloads, neighbour lists equal up to order,
    same [edge_count]. *)
Definition same_topology (g g' : graph A) : Prop :=
  vertex_count g' = vertex_count g /\ edge_count g' = edge_count g /\
  payloads g' = payloads g /\ forall i, Permutation (nbrs g i) (nbrs g' i).

End Observations.
