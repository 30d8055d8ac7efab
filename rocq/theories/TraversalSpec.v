(** Vocabulary for the statements about traversals. *)
From Verif Require Import Base Containers ContainerSpec Graph GraphSpec.
Set Implicit Arguments.

(** The iterator [s] turns into [s'] by some calls of [next]. *)
Inductive after {S I} (next : S -> outcome (option (I * S))) (s : S) : S -> Prop :=
| after_none : after next s s
| after_next s1 i s2 : after next s s1 -> next s1 = Done (Some (i, s2)) -> after next s s2.

(** A caller's loop body with its own state, run over a list of values. *)
Fixpoint thread {S X} (f : S -> X -> S * X) (s : S) (l : list X) : S * list X :=
  match l with
  | [] => (s, [])
  | x :: t => let (s1, y) := f s x in let (s2, r) := thread f s1 t in (s2, y :: r)
  end.

(** [l] is a depth-first order: each vertex after the first is a neighbour of the
    vertex that was visited most recently among those that still have an unvisited
    neighbour. *)
Definition depth_first (R : nat -> nat -> Prop) (l : list nat) : Prop :=
  forall l1 v l2 a u b,
    l = l1 ++ v :: l2 -> l1 = a ++ u :: b ->
    (exists w, R u w /\ ~ In w l1) ->
    (forall x w, In x b -> R x w -> In w l1) ->
    R u v.

(** The greatest distance from [u] of a vertex joined to it. *)
Definition is_ecc (R : nat -> nat -> Prop) (u d : nat) : Prop :=
  (exists v, is_dist R u v d) /\ forall v k, is_dist R u v k -> k <= d.

Section Graphs.
Context {T A : Type} {C : AdjContainer T A}.

(** The filter accepts vertex [v]. *)
Definition accepts (g : graph A) (f : T -> nat -> bool) (v : nat) : Prop :=
  exists t, nth_error (payloads g) v = Some t /\ f t v = true.

(** Edges leading to an accepted vertex. *)
Definition accepted_edge (g : graph A) (f : T -> nat -> bool) (u v : nat) : Prop :=
  adj g u v /\ accepts g f v.

Definition connected (g : graph A) : Prop :=
  forall u v, u < vertex_count g -> v < vertex_count g -> joined (adj g) u v.

(** The greatest distance between two vertices. *)
Definition is_diameter (g : graph A) (d : nat) : Prop :=
  (exists u v, u < vertex_count g /\ is_dist (adj g) u v d) /\
  forall u v k, u < vertex_count g -> is_dist (adj g) u v k -> k <= d.

(** [d] is the distance function from [i], 0 where there is no path. *)
Definition dists (g : graph A) (i : nat) (d : nat -> nat) : Prop :=
  (forall v, v < vertex_count g -> joined (adj g) i v -> is_dist (adj g) i v (d v)) /\
  (forall v, v < vertex_count g -> ~ joined (adj g) i v -> d v = 0).

(** What a caller's loop over the mutable references to the payloads of the vertices
    [ys], in this order, leaves behind: nothing but these payloads changes, and the
    body has seen and overwritten each of them once. *)
Definition written {L : AdjLaws C} (g g' : graph A) {S} (f : S -> T -> S * T) (st st' : S)
  (ys : list nat) : Prop :=
  simple_graph g' /\ vertex_count g' = vertex_count g /\ edge_count g' = edge_count g /\
  (forall v, nbrs g' v = nbrs g v) /\
  (forall v, ~ In v ys -> nth_error (payloads g') v = nth_error (payloads g) v) /\
  exists old new,
    Forall2 (fun v t => nth_error (payloads g) v = Some t) ys old /\
    Forall2 (fun v t => nth_error (payloads g') v = Some t) ys new /\
    thread f st old = (st', new).

End Graphs.
