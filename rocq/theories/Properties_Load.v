(** Properties of [vertex_load] in exact arithmetic: C25, C26. *)
From Verif Require Import Base BaseFacts Containers ContainerSpec ContainerFacts.
From Verif Require Import Graph GraphSpec GraphFacts GraphOps.
From Verif Require Import Load LoadSpec LoadFacts LoadSums Properties_Graph.
From Coq Require Import QArith.
Set Implicit Arguments.
Local Open Scope nat_scope.

(** ** C25 *)

(** The load of [v] is the sum over the sources [s] of the flow through [v]; without
    endpoints the number of other vertices joined to [v] is subtracted. *)
Theorem C25_vertex_load {T A : Type} {C : AdjContainer T A} {L : AdjLaws C} :
  forall (g : graph A) (include_endpoints : bool), simple_graph g ->
  exists D F l, distances g D /\ flow g D F /\
    vertex_load g include_endpoints = Done l /\ length l = vertex_count g /\
    forall v, (nth v l 0 == qsum (fun s => through D F s v) (seq 0 (vertex_count g)) -
      (if include_endpoints then 0
       else qnat (count (fun s => other D s v) (seq 0 (vertex_count g)))))%Q.
Proof. intros g b. apply load_value. Qed.
Print Assumptions C25_vertex_load.

(** There is only one such flow. *)
Theorem C25_flow_unique {T A : Type} {C : AdjContainer T A} {L : AdjLaws C} :
  forall (g : graph A) D F F', simple_graph g -> distances g D -> flow g D F -> flow g D F' ->
  forall s v, s < vertex_count g -> D s v <> None -> (F s v == F' s v)%Q.
Proof. intros g D F F'. apply flow_unique. Qed.
Print Assumptions C25_flow_unique.

Definition load_red (o : outcome (list Q)) : outcome (list Q) :=
  do l <- o; Done (map Qred l).

(** A cycle of four vertices with a fifth vertex attached. *)
Definition ex_square : outcome (result unit graph_error * graph (node_container nat)) :=
  add_edges_try Debug (graph_new (fun i => i) 5) [(0, 1); (1, 2); (2, 3); (3, 0); (3, 4)].

Example C25_example :
  (do ' (_, g) <- ex_square; load_red (vertex_load g true))
    = Done [6 # 1; 5 # 1; 6 # 1; 11 # 1; 4 # 1]%Q /\
  (do ' (_, g) <- ex_square; load_red (vertex_load g false))
    = Done [2 # 1; 1 # 1; 2 # 1; 7 # 1; 0 # 1]%Q /\
  load_red (vertex_load ex_graph false) = Done [0; 0; 4 # 1; 0; 0]%Q.
Proof. vm_compute. auto. Qed.

(** ** C26 *)

Theorem C26_load_sum {T A : Type} {C : AdjContainer T A} {L : AdjLaws C} :
  forall (g : graph A), simple_graph g -> exists l, vertex_load g true = Done l /\
    forall D, distances g D -> (qsum (fun x => x) l == qnat (distance_sum D (vertex_count g)))%Q.
Proof. intros g. apply load_total. Qed.
Print Assumptions C26_load_sum.

Theorem C26_load_complete {T A : Type} {C : AdjContainer T A} {L : AdjLaws C} :
  forall (g : graph A), simple_graph g ->
  (forall i j, i < vertex_count g -> j < vertex_count g -> i <> j -> adj g i j) ->
  forall b, exists l, vertex_load g b = Done l /\ length l = vertex_count g /\
    forall v, v < vertex_count g ->
      (nth v l 0 == if b then qnat (vertex_count g - 1) else 0)%Q.
Proof. intros g. apply load_complete. Qed.
Print Assumptions C26_load_complete.

Example C26_example :
  (do g <- complete_graph Debug (fun _ => tt) 4;
   load_red (vertex_load g true)) = Done [3 # 1; 3 # 1; 3 # 1; 3 # 1]%Q.
Proof. vm_compute. reflexivity. Qed.
