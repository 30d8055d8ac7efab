(** Theorems about the measures of complete graphs and ring lattices. *)
From Verif Require Import Base BaseFacts Sums Containers ContainerSpec ContainerFacts Graph GraphSpec GraphFacts GraphOps
  GraphBuild Search TraversalSpec Traversal TraversalFacts Components ComponentSpec ComponentFacts
  CoreFacts Transitivity TransitivityFacts ClosenessFacts Load LoadSpec LoadFacts LoadSums MeasureSpec MeasureFacts
  Biconnected BiconnectedSpec BlockCount FamilySpec FamilyFacts FamilyMeasures FamilyRing FamilyComplete
  Properties_Graph Properties_Traversal Properties_Load.
From Coq Require Import QArith.
Local Open Scope nat_scope.

(** ** C89: measures of complete graphs and ring lattices *)

(** Any connected graph in which all vertices have [k] neighbours. *)
Theorem C89_regular {T A : Type} {C : AdjContainer T A} {L : AdjLaws C} :
  forall (g : graph A) k q, simple_graph g -> connected g -> regular g k -> 0 < vertex_count g -> 2 <= q ->
  q_core g q = Done (Some (if q <=? k then vertex_count g else 0)) /\
  connected_components g = Done [vertex_count g] /\
  exists closed, Transitivity.transitivity g = Done (closed, vertex_count g * (k * (k - 1))).
Proof.
  intros g k q W Hc R H0 Hq. split; [apply regular_core; auto|]. split; [apply connected_sizes; auto|].
  rewrite transitivity_spec, (regular_paths W R) by auto. eauto.
Qed.
Print Assumptions C89_regular.

(** Leaving out the endpoints takes away [n - 1] in a connected graph. *)
Theorem C89_endpoints {T A : Type} {C : AdjContainer T A} {L : AdjLaws C} :
  forall (g : graph A) l l', simple_graph g -> connected g ->
  vertex_load g true = Done l -> vertex_load g false = Done l' ->
  forall v, v < vertex_count g -> (nth v l' 0 == nth v l 0 - qnat (vertex_count g - 1))%Q.
Proof. intros g l l'. apply load_endpoints. Qed.
Print Assumptions C89_endpoints.

Theorem C89_complete {T A : Type} {C : AdjContainer T A} {L : AdjLaws C} :
  forall p (g : graph A), simple_graph g -> 0 < vertex_count g -> complete g ->
  let n := vertex_count g in
  is_connected g = Done (Some true) /\ connected_components g = Done [n] /\
  diameter g = Done (Some (Nat.min 1 (n - 1))) /\
  (forall i, i < n -> longest_shortest_path_from_index g i = Done (Some (Nat.min 1 (n - 1)))) /\
  (forall q, 2 <= q -> q_core g q = Done (Some (if q <? n then n else 0))) /\
  Transitivity.transitivity g = Done (n * ((n - 1) * (n - 2)), n * ((n - 1) * (n - 2))) /\
  closeness_centrality p g = Done (repeat (n - 1, n - 1) n) /\
  (2 <= n -> vertex_biconnected_components p g false = Done [n]).
Proof.
  intros p g W H0 K. cbv zeta. pose proof (complete_connected H0 K) as Hc.
  split. { destruct (is_connected_spec W) as [[? _]|[(_ & _ & ->)|(_ & N & _)]]; [lia|auto|contradiction]. }
  split; [apply connected_sizes; auto|]. split; [apply complete_diameter; auto|].
  split; [intros; apply complete_longest; auto|]. split.
  { intros q Hq. rewrite (regular_core W Hc (complete_regular W H0 K) H0 Hq). repeat f_equal.
    replace (q <? vertex_count g) with (q <=? vertex_count g - 1); auto.
    apply Bool.eq_true_iff_eq. rewrite Nat.leb_le, Nat.ltb_lt. lia. }
  split; [apply complete_transitivity; auto|]. split; [apply complete_closeness; auto|].
  intros H2. apply blocks_whole; auto. apply complete_biconnected; auto.
Qed.
Print Assumptions C89_complete.

(** The constructor makes such a graph. *)
Theorem C89_complete_graph : forall T p (mk : nat -> T) n, 1 <= n ->
  exists g, complete_graph p mk n = Done g /\ simple_graph g /\ vertex_count g = n /\ complete g.
Proof.
  intros T p mk n Hn. destruct (@C09_complete_graph T p mk n Hn) as (g & E & W & V & _ & _ & _ & Ad).
  exists g. splits; auto. intros i j Hi Hj N. apply Ad. splits; auto; lia.
Qed.
Print Assumptions C89_complete_graph.

(** The ring lattice that [init_ring] builds. *)
Theorem C89_ring {T A : Type} {C : AdjContainer T A} {L : AdjLaws C} :
  forall p (g : graph A) d, simple_graph g -> 1 <= d -> 2 * d < vertex_count g ->
  exists g', init_ring p g d = Done (Ok tt, g') /\
  let n := vertex_count g in
  (forall i k, i < n -> k < n -> is_dist (adj g') i ((i + k) mod n) (ring_hops n d k)) /\
  is_connected g' = Done (Some true) /\ connected_components g' = Done [n] /\
  diameter g' = Done (Some (Nat.div (Nat.div n 2 + d - 1) d)) /\
  (forall i, i < n -> longest_shortest_path_from_index g' i = Done (Some (Nat.div (Nat.div n 2 + d - 1) d))) /\
  (forall q, 2 <= q -> q_core g' q = Done (Some (if q <=? 2 * d then n else 0))) /\
  Transitivity.transitivity g' =
    Done (n * (3 * d * (d - 1) + (3 * d + 1 - n) * (3 * d + 2 - n)), n * (2 * d * (2 * d - 1))) /\
  closeness_centrality p g' = Done (repeat (n - 1, ring_total n d) n) /\
  (forall b, exists l, vertex_load g' b = Done l /\ length l = n /\
     forall v, v < n -> (nth v l 0 == qnat (if b then ring_total n d else ring_total n d - (n - 1)))%Q) /\
  vertex_biconnected_components p g' false = Done [n].
Proof.
  intros p g d W0 Hd Hn. destruct (@init_ring_ok T A C L p g d W0 Hn) as (g' & E & W & V & _ & _ & R & Rg).
  exists g'. split; auto. cbv zeta. rewrite <- V in *. pose proof (ring_connected Hd Hn R) as Hc.
  split.
  { intros i k Hi Hk. replace ((i + k) mod vertex_count g') with (turn (vertex_count g') i k); [apply ring_turn_dist; auto|].
    unfold turn. destruct (Nat.leb_spec (vertex_count g') (i + k)).
    - apply Nat.mod_unique with 1; lia.
    - rewrite Nat.mod_small; auto. }
  split. { destruct (is_connected_spec W) as [[? _]|[(_ & _ & ->)|(_ & N & _)]]; [lia|auto|contradiction]. }
  split; [apply connected_sizes; auto; lia|]. split; [apply ring_diameter; auto|].
  split; [intros; apply ring_longest; auto|]. split.
  { intros q Hq. apply regular_core; auto. lia. }
  split; [apply ring_transitivity; auto|]. split.
  { destruct (ring_closeness W Hd Hn R p) as (l & -> & ->). auto. }
  split; [apply ring_load; auto|]. apply blocks_whole; auto; [lia|]. apply (ring_biconnected W Hd Hn R).
Qed.
Print Assumptions C89_ring.

(** The loops of the formula: 9 vertices, where three edges over 3 places close a
    triangle around the ring, and 10, where they do not. *)
Example C89_case :
  (do ' (_, g) <- init_ring Debug (graph_new (A := node_container nat) (fun i => i) 9) 3; Transitivity.transitivity g)
    = Done (9 * 20, 9 * 30) /\
  9 * (3 * 3 * (3 - 1) + (3 * 3 + 1 - 9) * (3 * 3 + 2 - 9)) = 9 * 20 /\
  (do ' (_, g) <- init_ring Debug (graph_new (A := node_container nat) (fun i => i) 10) 3; Transitivity.transitivity g)
    = Done (10 * 18, 10 * 30) /\
  (do ' (_, g) <- init_ring Debug (graph_new (A := node_container nat) (fun i => i) 10) 3; diameter g) = Done (Some 2) /\
  ring_total 10 3 = 12 /\
  (do ' (_, g) <- init_ring Debug (graph_new (A := node_container nat) (fun i => i) 10) 3; load_red (vertex_load g true))
    = Done (repeat (12 # 1)%Q 10) /\
  (do g <- complete_graph Debug (fun i => i) 5; q_core g 4) = Done (Some 5) /\
  (do g <- complete_graph Debug (fun i => i) 5; q_core g 5) = Done (Some 0).
Proof. repeat split; vm_compute; reflexivity. Qed.
