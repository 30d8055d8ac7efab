(** Vocabulary for statements about probabilities: counting the outcomes of independent
    uniform draws. *)
From Verif Require Import Base Containers Graph GraphSpec.
Set Implicit Arguments.

(** All outcomes of one draw from [0 .. h-1] for each [h] in the list. *)
Fixpoint rolls (ranges : list nat) : list (list nat) :=
  match ranges with
  | [] => [[]]
  | h :: t => flat_map (fun r => map (cons r) (rolls t)) (seq 0 h)
  end.

(** [n, n - 1, ..., 2]. *)
Fixpoint down (n : nat) : list nat :=
  match n with
  | 0 | 1 => []
  | S k => n :: down k
  end.

Section Compare.
Context {T A T' A' : Type} {C : AdjContainer T A} {C' : AdjContainer T' A'}.

(** The same pairs of vertices are adjacent. *)
Definition same_edges (g : graph A) (h : graph A') : bool :=
  forallb (fun ij => Bool.eqb (adjb g (fst ij) (snd ij)) (adjb h (fst ij) (snd ij)))
    (pairs_below (vertex_count h)).

(** The number of edges of [g] that [h] does not have. *)
Definition missing (g : graph A) (h : graph A') : nat :=
  count (fun ij => adjb g (fst ij) (snd ij) && negb (adjb h (fst ij) (snd ij)))
    (pairs_below (vertex_count h)).

(** The number of pairs joined in one graph and not in the other. *)
Definition differing (g : graph A) (h : graph A') : nat :=
  count (fun ij => xorb (adjb g (fst ij) (snd ij)) (adjb h (fst ij) (snd ij)))
    (pairs_below (vertex_count h)).
End Compare.
