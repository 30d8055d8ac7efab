(** Vocabulary for the statements about biconnected components. *)
From Verif Require Import Base Containers Graph GraphSpec.
Set Implicit Arguments.

Section Blocks.
Context {T A : Type} {C : AdjContainer T A}.

(** Edges with both ends in [S], none of them [v]. *)
Definition edge_within (g : graph A) (S : list nat) (u v : nat) : Prop :=
  adj g u v /\ In u S /\ In v S.
Definition edge_without (g : graph A) (S : list nat) (x u v : nat) : Prop :=
  edge_within g S u v /\ u <> x /\ v <> x.

(** A set of at least two vertices that is connected, and stays so when any one of
    its vertices is removed. *)
Definition biconnected (g : graph A) (S : list nat) : Prop :=
  NoDup S /\ 2 <= length S /\
  (forall u v, In u S -> In v S -> joined (edge_within g S) u v) /\
  (forall x u v, In x S -> In u S -> In v S -> u <> x -> v <> x ->
     joined (edge_without g S x) u v).

(** A maximal set of this kind. *)
Definition block (g : graph A) (S : list nat) : Prop :=
  biconnected g S /\
  forall S', biconnected g S' -> incl S S' -> incl S' S.

(** [L] lists every edge of [g] exactly once, in one of its two directions. *)
Definition lists_edges_once (g : graph A) (L : list (nat * nat)) : Prop :=
  NoDup L /\ (forall u v, In (u, v) L -> ~ In (v, u) L) /\
  forall u v, adj g u v <-> In (u, v) L \/ In (v, u) L.

(** [k] is the number of different ends of the edges in [comp]. *)
Definition vertex_number (k : nat) (comp : list (nat * nat)) : Prop :=
  exists vs, NoDup vs /\ length vs = k /\
    forall v, In v vs <-> exists e, In e comp /\ (v = fst e \/ v = snd e).

End Blocks.
