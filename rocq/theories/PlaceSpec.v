(** Vocabulary for the states of the small-world ensemble: where each edge is. *)
From Verif Require Import Base Containers Graph GraphSpec Sw SwSpec.
From Coq Require Import QArith.
Set Implicit Arguments.
Local Open Scope nat_scope.

Section Places.
Context {T : Type}.
Implicit Types g h : graph (sw_container T).

(** Where the edge is that is rooted at [i] and started with target [o]. *)
Definition place g (i o : nat) : option nat :=
  match find (fun x => match se_orig x with Some o' => o' =? o | None => false end) (entries g i) with
  | Some x => Some (se_to x)
  | None => None
  end.

Definition same_place (a b : option nat) : bool :=
  match a, b with
  | Some x, Some y => x =? y
  | None, None => true
  | _, _ => false
  end.

(** Root and first target of all edges. *)
Definition ring_edges (n : nat) : list (nat * nat) :=
  flat_map (fun i => map (pair i) (ring_targets n 2 i)) (seq 0 n).

(** The edges that are at different places in [g] and [h]. *)
Definition displaced (n : nat) g h : list (nat * nat) :=
  filter (fun io => negb (same_place (place g (fst io) (snd io)) (place h (fst io) (snd io)))) (ring_edges n).

Definition same_places (n : nat) g h : bool :=
  match displaced n g h with [] => true | _ => false end.

(** The number of edges at their first target. *)
Definition at_origin (n : nat) g : nat :=
  count (fun io => same_place (place g (fst io) (snd io)) (Some (snd io))) (ring_edges n).

(** Whether a step with these draws leads to [h]. *)
Definition gives (n : nat) (p : profile) (e : sw_ensemble T) h (ds : list nat) : bool :=
  match sw_m_step p e ds with Done (_, e', _) => same_places n (sw_graph e') h | _ => false end.

End Places.

(** The three draws of a step: the edge, the number that decides about rewiring, the target.
    The second comes from a list of numbers that are drawn equally often. *)
Definition step_draws (n : nat) (coins : list nat) : list (list nat) :=
  flat_map (fun r => flat_map (fun c => map (fun t => [r; c; t]) (seq 0 (n - 1))) coins) (seq 0 (2 * n)).

(** How many of them decide for rewiring, and how many against it. *)
Definition for_rewiring (q : Q) (coins : list nat) : nat :=
  count (fun c => Qle_bool (Rng.unit_float c) q) coins.
Definition against_rewiring (q : Q) (coins : list nat) : nat :=
  count (fun c => negb (Qle_bool (Rng.unit_float c) q)) coins.
