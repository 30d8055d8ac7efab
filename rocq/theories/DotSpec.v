(** Vocabulary for the statements about dot output. *)
From Verif Require Import Base Containers Graph GraphSpec.
Set Implicit Arguments.

Section Edges.
Context {T A : Type} {C : AdjContainer T A}.

(** [E] lists every edge exactly once, the smaller index first. *)
Definition upper_edges (g : graph A) (E : list (nat * nat)) : Prop :=
  NoDup E /\ forall i j, In (i, j) E <-> adj g i j /\ i < j.

End Edges.
