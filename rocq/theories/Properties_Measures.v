(** Theorems that compare the measures of two graphs. *)
From Verif Require Import Base BaseFacts Containers ContainerSpec ContainerFacts Graph GraphSpec GraphFacts GraphOps.
From Verif Require Import Traversal TraversalSpec Components Transitivity Load Biconnected EnsembleFacts.
From Verif Require Import ComponentSpec LoadSpec LoadSums CoreFacts MeasureSpec MeasureFacts ConsistencyFacts ForestFacts.
From Verif Require Import TraversalFacts Properties_Graph.
From Coq Require Import QArith.
Local Open Scope nat_scope.

(** ** C74: the measures do not depend on the names of the vertices, on the order of
    the neighbours, on the payloads or on the kind of the container *)

Theorem C74_degrees {T A T' A' : Type} {C : AdjContainer T A} {L : AdjLaws C}
  {C' : AdjContainer T' A'} {L' : AdjLaws C'} :
  forall (g : graph A) (h : graph A') f, simple_graph g -> simple_graph h -> isomorphism g h f ->
  edge_count h = edge_count g /\
  (forall i, i < vertex_count g -> degree h (f i) = degree g i) /\
  Permutation (degree_vec g) (degree_vec h) /\
  leaf_count h = leaf_count g /\ degree_histogram h = degree_histogram g.
Proof.
  intros g h f W W' I. destruct (iso2_of W W' I) as (f' & J). split; [|split; [|split; [|split]]].
  - apply (edges_eq J).
  - intros i Hi. apply (degree_iso J Hi).
  - apply (degrees_perm J).
  - apply (leaf_count_iso J).
  - apply (histogram_iso J).
Qed.
Print Assumptions C74_degrees.

Theorem C74_distances {T A T' A' : Type} {C : AdjContainer T A} {L : AdjLaws C}
  {C' : AdjContainer T' A'} {L' : AdjLaws C'} :
  forall (g : graph A) (h : graph A') f, simple_graph g -> simple_graph h -> isomorphism g h f ->
  is_connected h = is_connected g /\ connected_components h = connected_components g /\
  diameter h = diameter g /\
  (forall i, i < vertex_count g ->
     longest_shortest_path_from_index h (f i) = longest_shortest_path_from_index g i).
Proof.
  intros g h f W W' I. destruct (iso2_of W W' I) as (f' & J). split; [|split; [|split]].
  - apply (is_connected_iso J).
  - apply (components_iso J).
  - apply (diameter_iso J).
  - intros i Hi. apply (longest_iso J Hi).
Qed.
Print Assumptions C74_distances.

Theorem C74_cores {T A T' A' : Type} {C : AdjContainer T A} {L : AdjLaws C}
  {C' : AdjContainer T' A'} {L' : AdjLaws C'} :
  forall (g : graph A) (h : graph A') f, simple_graph g -> simple_graph h -> isomorphism g h f ->
  (forall q, q_core h q = q_core g q) /\ Transitivity.transitivity h = Transitivity.transitivity g.
Proof.
  intros g h f W W' I. destruct (iso2_of W W' I) as (f' & J). split.
  - intros q. apply (q_core_iso q J).
  - apply (transitivity_iso J).
Qed.
Print Assumptions C74_cores.

(** The two centralities: each vertex has the value of its image. *)
Theorem C74_centralities {T A T' A' : Type} {C : AdjContainer T A} {L : AdjLaws C}
  {C' : AdjContainer T' A'} {L' : AdjLaws C'} :
  forall (g : graph A) (h : graph A') f, simple_graph g -> simple_graph h -> isomorphism g h f ->
  (forall b, exists l l', vertex_load g b = Done l /\ vertex_load h b = Done l' /\
     length l = vertex_count g /\ length l' = vertex_count g /\
     forall v, v < vertex_count g -> (nth (f v) l' 0 == nth v l 0)%Q) /\
  (forall p, 0 < vertex_count g ->
     exists l l', closeness_centrality p g = Done l /\ closeness_centrality p h = Done l' /\
       length l = vertex_count g /\
       forall v, v < vertex_count g -> nth_error l' (f v) = nth_error l v).
Proof.
  intros g h f W W' I. destruct (iso2_of W W' I) as (f' & J). split.
  - intros b. apply (load_iso b J).
  - intros p H0. apply (closeness_iso p J H0).
Qed.
Print Assumptions C74_centralities.

(** Sorting or shuffling the neighbours is such a change, with [f i = i]. *)
Theorem C74_reordered {T A : Type} {C : AdjContainer T A} {L : AdjLaws C} :
  forall (g g' : graph A), simple_graph g -> simple_graph g' ->
  (sort_adj g = Done g' \/
   (exists ps, (forall i, i < vertex_count g -> Permutation (ps i) (seq 0 (length (nbrs g i)))) /\
      shuffle_adjs g ps = Done g')) ->
  isomorphism g g' (fun i => i).
Proof.
  intros g g' W W' H.
  assert (S : same_topology g g').
  { destruct H as [H|(ps & P & H)].
    - destruct (sort_adj_spec W) as (k & Ek & _ & S & _). congruence.
    - destruct (shuffle_adjs_spec W P) as (k & Ek & _ & S). congruence. }
  constructor; auto.
  - apply S.
  - intros i j _ _. apply (same_topology_adj i j S).
Qed.
Print Assumptions C74_reordered.

(** [ex_graph] with its vertices in the opposite order, in other containers. *)
Definition ex_mirror : graph (node_container unit) :=
  match add_edges_try Debug (graph_new (fun _ => tt) 5) [(1, 2); (2, 4); (4, 3); (3, 2)] with
  | Done (_, g) => g
  | _ => mk_graph 0 0 []
  end.

Example C74_case : simple_graph ex_graph /\ simple_graph ex_mirror /\
  isomorphism ex_graph ex_mirror (fun i => 4 - i) /\
  connected_components ex_mirror = Done [4; 1].
Proof.
  split; [apply ex_graph_simple|]. split; [|split; [|vm_compute; reflexivity]].
  - refine (proj1 (add_edges_simple (p := Debug) (g := graph_new (fun _ => tt) 5) (r := Ok tt)
      (l := [(1, 2); (2, 4); (4, 3); (3, 2)]) _ _)).
    + apply (graph_new_spec (A := node_container unit)).
    + vm_compute. reflexivity.
  - constructor; change (vertex_count ex_graph) with 5.
    + reflexivity.
    + intros; lia.
    + intros; lia.
    + intros i j Hi Hj.
      do 5 (destruct i as [|i]; [do 5 (destruct j as [|j]; [vm_compute; intuition lia|]); lia|]). lia.
Qed.

(** [vertex_biconnected_components] does depend on the order of the neighbours. *)
Theorem C74_biconnected_refuted :
  exists (g g' : graph (node_container unit)) l l',
    add_edges_try Debug (graph_new (fun _ => tt) 5) [(0, 1); (0, 2); (2, 3); (3, 1); (1, 4); (1, 2)]
      = Done (Ok tt, g) /\
    sort_adj g = Done g' /\ isomorphism g g' (fun i => i) /\
    vertex_biconnected_components Debug g false = Done l /\
    vertex_biconnected_components Debug g' false = Done l' /\ l <> l'.
Proof.
  set (g := mk_graph 5 6
    [mk_nc 0 [1; 2] tt; mk_nc 1 [0; 3; 4; 2] tt; mk_nc 2 [0; 3; 1] tt; mk_nc 3 [2; 1] tt; mk_nc 4 [1] tt]).
  set (g' := mk_graph 5 6
    [mk_nc 0 [1; 2] tt; mk_nc 1 [0; 2; 3; 4] tt; mk_nc 2 [0; 1; 3] tt; mk_nc 3 [1; 2] tt; mk_nc 4 [1] tt]).
  assert (E : add_edges_try Debug (graph_new (fun _ => tt) 5)
     [(0, 1); (0, 2); (2, 3); (3, 1); (1, 4); (1, 2)] = Done (Ok tt, g)) by (vm_compute; reflexivity).
  assert (W : simple_graph g) by
    exact (proj1 (add_edges_simple (proj1 (graph_new_spec (A := node_container unit) (fun _ => tt) 5)) E)).
  assert (Es : sort_adj g = Done g') by (vm_compute; reflexivity).
  exists g, g', [4; 3], [4; 2]. split; [exact E|]. split; [exact Es|].
  split; [|split; [vm_compute; reflexivity|split; [vm_compute; reflexivity|discriminate]]].
  apply C74_reordered; auto. destruct (sort_adj_spec W) as (k & Ek & Wk & _). congruence.
Qed.
Print Assumptions C74_biconnected_refuted.

(** ** C75: how the measures of one graph are related *)

(** The three functions about components agree. *)
Theorem C75_components {T A : Type} {C : AdjContainer T A} {L : AdjLaws C} :
  forall (g : graph A), simple_graph g ->
  exists num ids sizes sugg, connected_components_ids g = Done (num, ids) /\
    connected_components g = Done sizes /\ suggest_connections g = Done sugg /\
    length sizes = num /\ length sugg = num /\ list_sum sizes = vertex_count g /\
    Forall (fun s => 1 <= s) sizes.
Proof.
  intros g W. destruct (sizes_numbers W) as (num & ids & sizes & sugg & E1 & E2 & E3 & L1 & L2).
  exists num, ids, sizes, sugg. repeat (split; auto).
  - apply (sizes_sum W E2).
  - apply Forall_forall. intros s Hs. apply (sizes_pos W E2 Hs).
Qed.
Print Assumptions C75_components.

(** [is_connected], [connected_components] and [diameter] agree on connectedness. *)
Theorem C75_connected {T A : Type} {C : AdjContainer T A} {L : AdjLaws C} :
  forall (g : graph A), simple_graph g -> 0 < vertex_count g ->
  (is_connected g = Done (Some true) <-> connected_components g = Done [vertex_count g]) /\
  (is_connected g = Done (Some true) <-> exists d, diameter g = Done (Some d)) /\
  (is_connected g = Done (Some false) <-> diameter g = Done None).
Proof.
  intros g W H0. destruct (sizes_numbers W) as (_ & _ & sizes & _ & _ & E & _).
  pose proof (connected_sizes W H0 E) as K.
  assert (Cn : connected_components g = Done [vertex_count g] <-> connected g).
  { rewrite K, E. split; congruence. }
  destruct (is_connected_spec W) as [[? _]|[(_ & Hc & ->)|(_ & Hc & ->)]]; [lia| |];
  destruct (diameter_spec W) as [[Hd ->]|(_ & Hc' & d & -> & _)].
  - exfalso. destruct Hd; [lia|auto].
  - split; [tauto|]. split; [split; eauto|split; discriminate].
  - split; [split; [discriminate|tauto]|]. split; [split; [discriminate|intros (d & Ed); discriminate]|tauto].
  - contradiction.
Qed.
Print Assumptions C75_connected.

(** The diameter is the greatest of the values of [longest_shortest_path_from_index],
    at most twice the least, and less than the number of vertices. *)
Theorem C75_diameter {T A : Type} {C : AdjContainer T A} {L : AdjLaws C} :
  forall (g : graph A) d, simple_graph g -> diameter g = Done (Some d) ->
  (exists i, i < vertex_count g /\ longest_shortest_path_from_index g i = Done (Some d)) /\
  (forall i e, longest_shortest_path_from_index g i = Done (Some e) -> e <= d <= 2 * e) /\
  d < vertex_count g.
Proof.
  intros g d W E. destruct (diameter_attained W E) as (i & Hi & Ei). split; [eauto|]. split.
  - intros j e Ej. split; [apply (longest_le_diameter W E Ej)|apply (diameter_twice W E Ej)].
  - apply (longest_lt W Ei).
Qed.
Print Assumptions C75_diameter.

(** The sizes of the cores: at most all vertices, at least [q + 1] unless zero, and
    decreasing in [q]. *)
Theorem C75_cores {T A : Type} {C : AdjContainer T A} {L : AdjLaws C} :
  forall (g : graph A) q m, simple_graph g -> q_core g q = Done (Some m) ->
  m <= vertex_count g /\ (m = 0 \/ q + 1 <= m) /\
  (forall q', q <= q' -> exists m', q_core g q' = Done (Some m') /\ m' <= m).
Proof.
  intros g q m W E. split; [apply (q_core_le_n W E)|]. split; [apply (q_core_large W E)|].
  intros q' Hq. destruct (q_core_spec q W) as [[_ K]|(H2 & H0 & _)]; [congruence|].
  destruct (q_core_spec q' W) as [[[?|?] _]|(_ & _ & m' & E' & _)]; try lia.
  exists m'. split; auto. apply (q_core_antitone W Hq E E').
Qed.
Print Assumptions C75_cores.

(** The transitivity is a fraction of at most one. *)
Theorem C75_transitivity {T A : Type} {C : AdjContainer T A} {L : AdjLaws C} :
  forall (g : graph A), simple_graph g ->
  exists c t, Transitivity.transitivity g = Done (c, t) /\ c <= t.
Proof. intros g. apply closed_le. Qed.
Print Assumptions C75_transitivity.

(** A graph with [k] components has at least [n - k] edges; the graphs with exactly as
    many (the forests) are those whose 2-core is empty. *)
Theorem C75_edges {T A : Type} {C : AdjContainer T A} {L : AdjLaws C} :
  forall (g : graph A), simple_graph g ->
  exists sizes, connected_components g = Done sizes /\
    vertex_count g <= edge_count g + length sizes /\
    (0 < vertex_count g ->
     (edge_count g + length sizes = vertex_count g <-> q_core g 2 = Done (Some 0))).
Proof.
  intros g W. destruct (sizes_numbers W) as (_ & _ & sizes & _ & _ & E & _).
  destruct (load_value true W) as (D & _ & _ & HD & _).
  pose proof (edges_enough W HD E) as Le. exists sizes. split; auto. split; auto. intros H0.
  destruct (q_core_spec 2 W) as [[[?|?] _]|(_ & _ & m & -> & Hle & Hm)]; try lia. split.
  - intros Eq. destruct Hm as [[-> _]|(v & comp & Cv & _)]; auto.
    exfalso. apply (forest_core W HD E Eq Cv).
  - intros Em. injection Em as ->. apply Nat.le_antisymm; auto.
    apply (forest_edges W); auto. destruct Hm as [[_ N]|(v & comp & Cv & [Nd Hc] & Hl)]; auto.
    exfalso. destruct comp as [|]; [|discriminate]. apply (Hc v). apply Search.joined_refl.
Qed.
Print Assumptions C75_edges.

Example C75_case : connected_components ex_graph = Done [4; 1] /\ edge_count ex_graph = 4 /\
  q_core ex_graph 2 = Done (Some 3) /\
  match add_edges_try Debug (graph_new (fun i => i) 4 : graph (node_container nat)) [(0, 1); (1, 2); (1, 3)] with
  | Done (_, g) => connected_components g = Done [4] /\ edge_count g = 3 /\
      q_core g 2 = Done (Some 0) /\ diameter g = Done (Some 2)
  | _ => False
  end.
Proof. vm_compute. auto 10. Qed.
