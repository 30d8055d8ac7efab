(** Vocabulary for betweenness. *)
From Verif Require Import Base Containers Graph GraphSpec LoadSpec.
From Coq Require Import QArith.
Set Implicit Arguments.
Local Open Scope nat_scope.

Section Between.
Context {T A : Type} {C : AdjContainer T A}.

(** The number of walks with [k] edges from [s] to [v]. *)
Fixpoint ways (g : graph A) (k s v : nat) : nat :=
  match k with
  | 0 => if s =? v then 1 else 0
  | S k => list_sum (map (ways g k s) (nbrs g v))
  end.

(** The length of the shortest. *)
Definition hops (g : graph A) (s v : nat) : option nat :=
  find (fun k => negb (ways g k s v =? 0)) (seq 0 (vertex_count g)).

(** The share of the shortest paths from [s] to [t] that pass [v]. *)
Definition share (g : graph A) (v s t : nat) : Q :=
  match hops g s v, hops g v t, hops g s t with
  | Some a, Some b, Some d =>
      if a + b =? d then (qnat (ways g a s v * ways g b v t) / qnat (ways g d s t))%Q else 0%Q
  | _, _, _ => 0%Q
  end.

(** The betweenness of [v].  As in [vertex_load], paths that start at [v] do not count, and
    paths that end at [v] count if [include_endpoints] is set. *)
Definition betweenness (g : graph A) (include_endpoints : bool) (v : nat) : Q :=
  qsum (fun s => qsum (share g v s)
                   (filter (fun t => include_endpoints || negb (t =? v)) (seq 0 (vertex_count g))))
    (filter (fun s => negb (s =? v)) (seq 0 (vertex_count g))).

(** There is at most one shortest path between two vertices. *)
Definition one_shortest_path (g : graph A) : Prop :=
  forall s t d, s < vertex_count g -> t < vertex_count g -> hops g s t = Some d -> ways g d s t = 1.

End Between.

(** [p] leads from [v] back to [s]: it lists the vertices after [v]. *)
Fixpoint leads_back {T A} {C : AdjContainer T A} (g : graph A) (s v : nat) (p : list nat) : Prop :=
  match p with
  | [] => v = s
  | u :: p => adj g v u /\ leads_back g s u p
  end.
