(** Vocabulary for the statements about the number of blocks. *)
From Verif Require Import Base Containers Graph GraphSpec BiconnectedSpec.
Set Implicit Arguments.

Definition same_set (S S' : list nat) : Prop := forall x, In x S <-> In x S'.

(** [Bs] lists every block exactly once; the order within a block does not matter. *)
Definition lists_blocks {T A : Type} {C : AdjContainer T A} (g : graph A) (Bs : list (list nat)) : Prop :=
  Forall (block g) Bs /\
  (forall S, block g S -> exists S', In S' Bs /\ same_set S S') /\
  ForallOrdPairs (fun S S' => ~ same_set S S') Bs.
