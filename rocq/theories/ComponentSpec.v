(** Vocabulary for the statements about the q-core and the transitivity. *)
From Verif Require Import Base Containers ContainerSpec Graph GraphSpec.
Set Implicit Arguments.

Section Core.
Context {T A : Type} {C : AdjContainer T A}.

(** Every vertex of the set [S] has at least [q] neighbours in [S]. *)
Definition q_dense (g : graph A) (q : nat) (S : nat -> bool) : Prop :=
  forall v, S v = true -> v < vertex_count g /\ q <= count S (nbrs g v).

(** The q-core: the union of all such sets. *)
Definition in_core (g : graph A) (q v : nat) : Prop :=
  exists S, q_dense g q S /\ S v = true.

Definition core_edge (g : graph A) (q u v : nat) : Prop :=
  adj g u v /\ in_core g q u /\ in_core g q v.

(** [comp] lists the connected component of [v] with respect to [R]. *)
Definition is_component (R : nat -> nat -> Prop) (v : nat) (comp : list nat) : Prop :=
  NoDup comp /\ forall w, In w comp <-> joined R v w.

(** All triples of vertices. *)
Definition triples (n : nat) : list (nat * nat * nat) :=
  flat_map (fun a => flat_map (fun b => map (fun c => (a, b, c)) (seq 0 n)) (seq 0 n)) (seq 0 n).

(** [a - b - c] is a path of length two. *)
Definition two_path (g : graph A) (t : nat * nat * nat) : bool :=
  let '(a, b, c) := t in adjb g a b && adjb g b c && negb (c =? a).

Definition closed_path (g : graph A) (t : nat * nat * nat) : bool :=
  let '(a, b, c) := t in two_path g t && adjb g c a.

End Core.
