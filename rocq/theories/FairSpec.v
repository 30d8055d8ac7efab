(** Vocabulary: where a rewired edge may go. *)
From Verif Require Import Base Containers ContainerSpec ContainerFacts Graph GraphSpec Rng UniformSpec Ws.
Set Implicit Arguments.

(** A simple graph whose stored number of edges may be wrong: while edges are rewired the stored
    number still counts the edges that have been taken out. *)
Definition simple_links {T A} {C : AdjContainer T A} {L : AdjLaws C} (g : graph A) : Prop :=
  simple_graph (mk_graph (next_id g) (number_of_edges g) (vertices g)).

(** The edge [o] may be put between [i] and [j]: they are different, not adjacent, and not the
    vertices that [o] joined at first. *)
Definition may_join {T} (g : graph (ws_container T)) (o : original_edge) (i j : nat) : bool :=
  negb (i =? j) && negb (adjb g i j) &&
  negb ((i =? oe_from o) && (j =? oe_to o)) && negb ((j =? oe_from o) && (i =? oe_to o)).

(** The sum of the weights of the vertices in the list. *)
Definition weight_of (ws l : list nat) : nat := list_sum (map (fun j => nth j ws 0) l).

(** The run takes all the draws it was given and its result satisfies [P]. *)
Definition exactly {X} (P : X -> bool) (o : outcome (X * rng)) : bool :=
  match o with Done (x, []) => P x | _ => false end.

(** The number of sequences of [k] draws below [h] with which [f] returns a result that satisfies [P]. *)
Definition successes {X} (h : nat) (f : rng -> outcome (X * rng)) (P : X -> bool) (k : nat) : nat :=
  count (fun ds => match f ds with Done (x, _) => P x | _ => false end) (rolls (repeat h k)).

Definition distance (a b : nat) : nat := (a - b) + (b - a).

(** The draws are independent and uniform on the numbers below [h].  The probability that [f] returns
    a result that satisfies [P] is [num / den]: the share of the sequences of [k] draws with which it
    has done so comes closer to this than every [1 / N] as [k] grows. *)
Definition probability {X} (num den h : nat) (f : rng -> outcome (X * rng)) (P : X -> bool) : Prop :=
  0 < den /\ forall N, exists k0, forall k, k0 <= k ->
    N * distance (den * successes h f P k) (num * length (rolls (repeat h k))) <= den * length (rolls (repeat h k)).

(** How many of the [M] values [0, 1 / M, 2 / M, ...] are less than [d / s]: the share [d / s] of
    them, rounded up. *)
Definition floats_below (M d s : nat) : nat := (M * d + (s - 1)) / s.
