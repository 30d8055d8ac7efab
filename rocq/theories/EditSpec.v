(** Vocabulary for the statements about graphs that differ by some edges. *)
From Verif Require Import Base Containers ContainerSpec Graph GraphSpec.
Set Implicit Arguments.

Section Edit.
Context {T A : Type} {C : AdjContainer T A}.

(** The same vertices, and all edges of [g]. *)
Definition extends (g g' : graph A) : Prop :=
  vertex_count g' = vertex_count g /\ forall x y, adj g x y -> adj g' x y.

(** [g'] has the edge between [i] and [j] in addition. *)
Definition one_more (g g' : graph A) (i j : nat) : Prop :=
  vertex_count g' = vertex_count g /\ i < vertex_count g /\ j < vertex_count g /\
  i <> j /\ ~ adj g i j /\
  forall x y, adj g' x y <-> adj g x y \/ (x = i /\ y = j) \/ (x = j /\ y = i).

(** The common neighbours of two vertices. *)
Definition common (g : graph A) (i j : nat) : list nat := filter (adjb g j) (nbrs g i).

End Edit.
