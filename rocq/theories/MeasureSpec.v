(** Vocabulary for the statements that compare the measures of two graphs. *)
From Verif Require Import Base Containers Graph GraphSpec.
Set Implicit Arguments.

Section Isomorphism.
Context {T A : Type} {C : AdjContainer T A} {T' A' : Type} {C' : AdjContainer T' A'}.

(** Renaming vertex [i] of [g] as [f i] gives [h]: the same number of vertices, [f]
    is one-to-one on them, and the same pairs are adjacent.  The payloads, the type
    of the containers and the orders of the neighbour lists may all differ. *)
Record isomorphism (g : graph A) (h : graph A') (f : nat -> nat) : Prop := {
  iso_count : vertex_count h = vertex_count g;
  iso_range : forall i, i < vertex_count g -> f i < vertex_count g;
  iso_inj : forall i j, i < vertex_count g -> j < vertex_count g -> f i = f j -> i = j;
  iso_adj : forall i j, i < vertex_count g -> j < vertex_count g ->
              (adj g i j <-> adj h (f i) (f j))
}.
End Isomorphism.
