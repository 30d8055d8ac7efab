(** Vocabulary for the measures of complete graphs and ring lattices. *)
From Verif Require Import Base Containers Graph GraphSpec.
Set Implicit Arguments.

Section Families.
Context {T A : Type} {C : AdjContainer T A}.

(** Every two vertices are joined. *)
Definition complete (g : graph A) : Prop :=
  forall i j, i < vertex_count g -> j < vertex_count g -> i <> j -> adj g i j.

(** Every vertex has [k] neighbours. *)
Definition regular (g : graph A) (k : nat) : Prop :=
  forall i, i < vertex_count g -> length (nbrs g i) = k.
End Families.

(** The vertices stand on a circle; the way from a vertex to the one [k] places further
    has [min k (n - k)] places, and takes [ring_hops n d k] edges if an edge leads over at
    most [d] places. *)
Definition ring_hops (n d k : nat) : nat := Nat.div (Nat.min k (n - k) + d - 1) d.

Definition ring_total (n d : nat) : nat := list_sum (map (ring_hops n d) (seq 1 (n - 1))).
