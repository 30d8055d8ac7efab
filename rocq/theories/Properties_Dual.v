(** C57, C58, C70-C72: dual graphs. *)
From Verif Require Import Base BaseFacts Containers ContainerSpec ContainerFacts Graph GraphSpec GraphFacts.
From Verif Require Import GraphOps Search Traversal TraversalSpec TraversalFacts Dual DualSpec DualFacts.
Set Implicit Arguments.

(** ** C57 *)

(** [new] starts without cross edges. *)
Theorem C57_new {T1 A1 T2 A2 : Type} {C1 : AdjContainer T1 A1} {C2 : AdjContainer T2 A2}
  {L1 : AdjLaws C1} {L2 : AdjLaws C2} :
  forall (g1 : graph A1) (g2 : graph A2), simple_graph g1 -> simple_graph g2 ->
  (let d : dual adj_multi A1 A2 := dual_new g1 g2 in dual_ok d /\ forall i j, ~ cross_1 d i j) /\
  (let d : dual adj_single A1 A2 := dual_new g1 g2 in dual_ok d /\ forall i j, ~ cross_1 d i j).
Proof. intros g1 g2 W1 W2. split; apply dual_new_spec; auto. Qed.
Print Assumptions C57_new.

(** The two kinds of lists of cross edges: [is_adjacent] says what is in the slice; [add_edge] puts an
    index at its end unless it is there, or unless anything is there. *)
Theorem C57_cross_lists :
  at_slice (at_new : adj_multi) = [] /\ at_slice (at_new : adj_single) = [] /\
  (forall (a : adj_multi) j, at_is_adjacent a j = true <-> In j (at_slice a)) /\
  (forall (a : adj_single) j, at_is_adjacent a j = true <-> In j (at_slice a)) /\
  (forall (a : adj_multi) j, let (a', b) := at_add_edge a j in
     if b then ~ In j (at_slice a) /\ at_slice a' = at_slice a ++ [j] else In j (at_slice a) /\ a' = a) /\
  (forall (a : adj_single) j, let (a', b) := at_add_edge a j in
     if b then at_slice a = [] /\ at_slice a' = [j] else at_slice a <> [] /\ a' = a).
Proof.
  assert (M : forall (a : adj_multi) j, at_is_adjacent a j = true <-> In j (at_slice a)).
  { intros a j. cbn. unfold multi_is_adjacent. rewrite existsb_exists. split.
    - intros (x & Hx & E). apply Nat.eqb_eq in E. now subst.
    - intros H. exists j. split; auto. apply Nat.eqb_refl. }
  split; [reflexivity|]. split; [reflexivity|]. split; [exact M|]. split; [|split].
  - intros [|s] j; cbn; [split; [discriminate|tauto]|]. rewrite Nat.eqb_eq. tauto.
  - intros a j. specialize (M a j). cbn in *. unfold multi_add_edge. destruct (multi_is_adjacent a j).
    + split; tauto.
    + split; auto. intros H. apply M in H. discriminate H.
  - intros [|s] j; cbn; split; auto; discriminate.
Qed.
Print Assumptions C57_cross_lists.

(** One call, any number of cross edges per vertex. *)
Theorem C57_multi_add_edge {T1 A1 T2 A2 : Type} {C1 : AdjContainer T1 A1} {C2 : AdjContainer T2 A2}
  {L1 : AdjLaws C1} {L2 : AdjLaws C2} :
  forall (d : dual adj_multi A1 A2) i j, dual_ok d ->
  exists r d', dual_add_edge d i j = Done (r, d') /\ dual_ok d' /\
    graph_1 d' = graph_1 d /\ graph_2 d' = graph_2 d /\
    (r = Err IndexOutOfBounds <-> vertex_count (graph_1 d) <= i \/ vertex_count (graph_2 d) <= j) /\
    (r = Err EdgeExists <-> cross_1 d i j) /\
    (r <> Ok tt -> d' = d) /\
    (r = Ok tt -> forall x y, cross_1 d' x y <-> cross_1 d x y \/ x = i /\ y = j).
Proof.
  intros d i j W.
  destruct (multi_add_edge_spec i j W) as [[H E]|[[H E]|([H1 H2] & H & d' & E & W' & G1 & G2 & X)]].
  - exists (Err IndexOutOfBounds), d. split; auto. split; auto. split; auto. split; auto.
    split; [tauto|]. split; [|split; [auto|discriminate]]. split; [discriminate|].
    intros K. apply (cross_range W) in K. lia.
  - pose proof (cross_range W H). exists (Err EdgeExists), d.
    split; auto. split; auto. split; auto. split; auto.
    split; [split; [discriminate|lia]|]. split; [tauto|]. split; [auto|discriminate].
  - exists (Ok tt), d'. split; auto. split; auto. split; auto. split; auto.
    split; [split; [discriminate|lia]|]. split; [split; [discriminate|tauto]|].
    split; [tauto|auto].
Qed.
Print Assumptions C57_multi_add_edge.

(** Any sequence of calls never panics, and leaves exactly the requested cross edges
    between existing vertices, stored on both sides. *)
Theorem C57_multi_add_edges {T1 A1 T2 A2 : Type} {C1 : AdjContainer T1 A1} {C2 : AdjContainer T2 A2}
  {L1 : AdjLaws C1} {L2 : AdjLaws C2} :
  forall (g1 : graph A1) (g2 : graph A2) l, simple_graph g1 -> simple_graph g2 ->
  exists rs (d : dual adj_multi A1 A2), dual_add_edges (dual_new g1 g2) l = Done (rs, d) /\ dual_ok d /\
    graph_1 d = g1 /\ graph_2 d = g2 /\
    (forall x y, cross_1 d x y <-> In (x, y) l /\ x < vertex_count g1 /\ y < vertex_count g2) /\
    (forall x y, cross_2 d y x <-> In (x, y) l /\ x < vertex_count g1 /\ y < vertex_count g2).
Proof.
  intros g1 g2 l W1 W2.
  destruct (@dual_new_spec adj_multi _ _ _ _ adj_multi_trait _ _ _ _ g1 g2 eq_refl W1 W2) as [W0 N0].
  destruct (multi_add_edges_spec l W0) as (rs & d & E & W & G1 & G2 & X).
  exists rs, d.
  assert (X' : forall x y, cross_1 d x y <-> In (x, y) l /\ x < vertex_count g1 /\ y < vertex_count g2).
  { intros x y. rewrite X. pose proof (N0 x y). simpl. tauto. }
  splits; auto. intros x y. rewrite <- (du_sym W). apply X'.
Qed.
Print Assumptions C57_multi_add_edges.

(** One call, at most one cross edge per vertex: what happens in each case. *)
Theorem C57_single_add_edge {T1 A1 T2 A2 : Type} {C1 : AdjContainer T1 A1} {C2 : AdjContainer T2 A2}
  {L1 : AdjLaws C1} {L2 : AdjLaws C2} :
  forall (d : dual adj_single A1 A2) i j, dual_ok d ->
  (vertex_count (graph_1 d) <= i \/ vertex_count (graph_2 d) <= j ->
     dual_add_edge d i j = Done (Err IndexOutOfBounds, d)) /\
  (i < vertex_count (graph_1 d) -> j < vertex_count (graph_2 d) ->
     ((exists y, cross_1 d i y) -> dual_add_edge d i j = Done (Err EdgeExists, d)) /\
     ((forall y, ~ cross_1 d i y) -> (exists x, cross_1 d x j) -> dual_add_edge d i j = Panic) /\
     ((forall y, ~ cross_1 d i y) -> (forall x, ~ cross_1 d x j) ->
        exists d', dual_add_edge d i j = Done (Ok tt, d') /\ dual_ok d' /\
          graph_1 d' = graph_1 d /\ graph_2 d' = graph_2 d /\
          forall x y, cross_1 d' x y <-> cross_1 d x y \/ x = i /\ y = j)).
Proof.
  intros d i j W. split; [apply out_of_bounds; auto|]. intros Hi Hj.
  destruct (single_add_edge_spec i j W)
    as [[H K]|[_ [([y H] & K)|[(H & [x H'] & K)|(H & H' & K)]]]]; [lia| | |].
  - split; [auto|]. split; intros N; exfalso; apply (N y); auto.
  - split; [intros [y Hy]; exfalso; apply (H y); auto|]. split; auto.
    intros _ N. exfalso. apply (N x); auto.
  - split; [intros [y Hy]; exfalso; apply (H y); auto|]. split; auto.
    intros _ [x Hx]. exfalso. apply (H' x); auto.
Qed.
Print Assumptions C57_single_add_edge.

(** As long as no call panics, the invariant holds and each vertex has at most one
    cross edge. *)
Theorem C57_single_add_edges {T1 A1 T2 A2 : Type} {C1 : AdjContainer T1 A1} {C2 : AdjContainer T2 A2}
  {L1 : AdjLaws C1} {L2 : AdjLaws C2} :
  forall (g1 : graph A1) (g2 : graph A2) l rs (d : dual adj_single A1 A2),
  simple_graph g1 -> simple_graph g2 -> dual_add_edges (dual_new g1 g2) l = Done (rs, d) ->
  dual_ok d /\ graph_1 d = g1 /\ graph_2 d = g2 /\
  (forall x y, cross_1 d x y -> In (x, y) l) /\
  (forall x y x' y', cross_1 d x y -> cross_1 d x' y' -> x = x' \/ y = y' -> x = x' /\ y = y').
Proof.
  intros g1 g2 l rs d W1 W2 E.
  destruct (@dual_new_spec adj_single _ _ _ _ adj_single_trait _ _ _ _ g1 g2 eq_refl W1 W2) as [W0 N0].
  destruct (single_add_edges_spec W0 E) as (W & G1 & G2 & X). splits; auto.
  - intros x y H. destruct (X x y H) as [K|K]; auto. destruct (N0 _ _ K).
  - intros x y x' y'. apply (single_at_most_one W).
Qed.
Print Assumptions C57_single_add_edges.

(** The property does not hold for [AdjSingle]: [add_edge] can answer [EdgeExists]
    for a cross edge that does not exist, and it can panic. *)
Definition two : graph (node_container nat) := graph_new (fun i => i) 2.
Definition single_00 : dual adj_single (node_container nat) (node_container nat) :=
  mk_dual two two [Something 0; Nothing] [Something 0; Nothing].

Lemma two_simple : simple_graph two.
Proof. apply (graph_new_spec (A := node_container nat) (fun i => i) 2). Qed.

Lemma single_00_ok : dual_add_edge (dual_new two two) 0 0 = Done (Ok tt, single_00) /\ dual_ok single_00.
Proof.
  assert (E : dual_add_edges (dual_new two two) [(0, 0)] = Done ([Ok tt], single_00)) by reflexivity.
  split; [reflexivity|]. apply (C57_single_add_edges _ two_simple two_simple E).
Qed.

Theorem C57_single_refuted :
  exists (d : dual adj_single (node_container nat) (node_container nat)),
    dual_add_edge (dual_new two two) 0 0 = Done (Ok tt, d) /\ dual_ok d /\
    ~ cross_1 d 0 1 /\ dual_add_edge d 0 1 = Done (Err EdgeExists, d) /\
    ~ cross_1 d 1 0 /\ dual_add_edge d 1 0 = Panic.
Proof.
  exists single_00. destruct single_00_ok as [E W]. splits; auto.
  - intros (a & Ea & H). injection Ea as <-. simpl in H. lia.
  - intros (a & Ea & H). injection Ea as <-. destruct H.
Qed.
Print Assumptions C57_single_refuted.

(** ** C58 *)

Theorem C58_dfs {J T1 A1 T2 A2 : Type} {AT : AdjTrait J}
  {C1 : AdjContainer T1 A1} {C2 : AdjContainer T2 A2} {L1 : AdjLaws C1} {L2 : AdjLaws C2} :
  forall (d : dual J A1 A2) v, dual_ok d ->
  exists is, dual_dfs_index d v = Done is /\ NoDup is /\
    (forall w, In w is <-> dual_vertex d v /\ joined (linked d) v w) /\
    (dual_vertex d v -> hd_error is = Some v) /\
    (forall l1 w l2, is = l1 ++ w :: l2 -> w = v \/ exists u, In u l1 /\ linked d u w).
Proof.
  intros d v W. destruct (dual_dfs_spec v W) as (is & E & N & R & O). exists is. splits; auto.
  intros Hv. destruct is as [|w l].
  - exfalso. apply (R v). split; auto. apply joined_refl.
  - destruct (O [] w l eq_refl) as [->|(u & [] & _)]. auto.
Qed.
Print Assumptions C58_dfs.

Theorem C58_dfs_contained {J T A1 A2 : Type} {AT : AdjTrait J}
  {C1 : AdjContainer T A1} {C2 : AdjContainer T A2} {L1 : AdjLaws C1} {L2 : AdjLaws C2} :
  forall (d : dual J A1 A2) v, dual_ok d ->
  exists is ts, dual_dfs_index d v = Done is /\ dual_dfs_contained d v = Done ts /\
    Forall2 (dual_payload d) is ts.
Proof. intros d v W. apply dual_dfs_contained_spec; auto. Qed.
Print Assumptions C58_dfs_contained.

Theorem C58_bfs {J T1 A1 T2 A2 : Type} {AT : AdjTrait J}
  {C1 : AdjContainer T1 A1} {C2 : AdjContainer T2 A2} {L1 : AdjLaws C1} {L2 : AdjLaws C2} :
  forall (d : dual J A1 A2) v, dual_ok d ->
  exists is, dual_bfs_index d v = Done is /\ NoDup (map fst is) /\
    (forall w, In w (map fst is) <-> dual_vertex d v /\ joined (linked d) v w) /\
    (forall w k, In (w, k) is -> is_dist (linked d) v w k) /\
    ForallOrdPairs (fun a b => snd a <= snd b) is.
Proof. intros d v W. apply dual_bfs_spec; auto. Qed.
Print Assumptions C58_bfs.

(** [reuse] of an iterator in any state it can be in. *)
Theorem C58_bfs_reuse {J T1 A1 T2 A2 : Type} {AT : AdjTrait J}
  {C1 : AdjContainer T1 A1} {C2 : AdjContainer T2 A2} {L1 : AdjLaws C1} {L2 : AdjLaws C2} :
  forall (d : dual J A1 A2) u v s, dual_ok d ->
  after (dbfs_next d) (dbfs_new d u) s -> dbfs_reuse d s v = Done (dbfs_new d v).
Proof.
  intros d u v s W Ha. destruct (sized_after W Ha) as [H1 H2]. apply dbfs_reuse_new; auto.
Qed.
Print Assumptions C58_bfs_reuse.

Theorem C58_is_connected {J T1 A1 T2 A2 : Type} {AT : AdjTrait J}
  {C1 : AdjContainer T1 A1} {C2 : AdjContainer T2 A2} {L1 : AdjLaws C1} {L2 : AdjLaws C2} :
  forall (d : dual J A1 A2), dual_ok d ->
  exists b, dual_is_connected d = Done b /\ (b = true <-> dual_connected d).
Proof. intros d W. apply dual_is_connected_spec; auto. Qed.
Print Assumptions C58_is_connected.

Theorem C58_diameter {J T1 A1 T2 A2 : Type} {AT : AdjTrait J}
  {C1 : AdjContainer T1 A1} {C2 : AdjContainer T2 A2} {L1 : AdjLaws C1} {L2 : AdjLaws C2} :
  forall p (d : dual J A1 A2), dual_ok d ->
  ((exists u, dual_vertex d u) -> dual_connected d ->
     exists k, dual_diameter p d = Done (Some k) /\ is_dual_diameter d k) /\
  (~ (exists u, dual_vertex d u) \/ ~ dual_connected d -> dual_diameter p d = Done None).
Proof.
  intros p d W.
  assert (V : 0 < total_vertices d <-> exists u, dual_vertex d u).
  { unfold total_vertices. rewrite (sg_len (du_g1 W)), (sg_len (du_g2 W)). split.
    - intros H. destruct (vertex_count (graph_1 d)) eqn:E1.
      + exists (Graph2 0). simpl. lia.
      + exists (Graph1 0). simpl. lia.
    - intros [[i|i] H]; simpl in H; lia. }
  destruct (dual_diameter_spec p W) as [[H E]|(H & Hc & E)].
  - split; auto. intros Hv Hc. apply V in Hv. destruct H as [H|H]; [lia|tauto].
  - split; auto. intros [K|K]; exfalso; apply K; auto. apply V; auto.
Qed.
Print Assumptions C58_diameter.

(** A triangle and a path with three cross edges, one of them requested twice. *)
Definition path3 : graph (node_container nat) :=
  match add_edges_try Debug (graph_new (fun i => 10 + i) 3) [(0, 1); (1, 2)] with
  | Done (_, g) => g
  | _ => graph_new (fun i => i) 0
  end.

Lemma path3_simple : simple_graph path3.
Proof.
  assert (E : add_edges_try Debug (graph_new (fun i => 10 + i) 3) [(0, 1); (1, 2)] = Done (Ok tt, path3))
    by (vm_compute; reflexivity).
  exact (proj1 (add_edges_simple
           (proj1 (graph_new_spec (A := node_container nat) (fun i => 10 + i) 3)) E)).
Qed.

Definition ex_dual : dual adj_multi (node_container nat) (node_container nat) :=
  mk_dual two path3 [mk_multi [0; 2]; mk_multi [0]] [mk_multi [0; 1]; mk_multi []; mk_multi [0]].

Example C57_C58_example :
  dual_add_edges (dual_new two path3) [(0, 0); (0, 2); (0, 0); (5, 1); (1, 0)]
    = Done ([Ok tt; Ok tt; Err EdgeExists; Err IndexOutOfBounds; Ok tt], ex_dual) /\
  dual_ok ex_dual /\
  dual_dfs_index ex_dual (Graph1 1) = Done [Graph1 1; Graph2 0; Graph1 0; Graph2 2; Graph2 1] /\
  dual_dfs_contained ex_dual (Graph1 1) = Done [1; 10; 0; 12; 11] /\
  dual_bfs_index ex_dual (Graph1 1)
    = Done [(Graph1 1, 0); (Graph2 0, 1); (Graph2 1, 2); (Graph1 0, 2); (Graph2 2, 3)] /\
  dual_is_connected ex_dual = Done true /\ dual_diameter Debug ex_dual = Done (Some 3).
Proof.
  splits; try (vm_compute; reflexivity).
  destruct (C57_multi_add_edges [(0, 0); (0, 2); (0, 0); (5, 1); (1, 0)] two_simple path3_simple)
    as (rs & d & E & W & _).
  replace ex_dual with d; auto. vm_compute in E. injection E as _ <-. reflexivity.
Qed.

(** ** C70 *)

(** The degree is the number of neighbours in the union. *)
Theorem C70_degree {J T1 A1 T2 A2 : Type} {AT : AdjTrait J}
  {C1 : AdjContainer T1 A1} {C2 : AdjContainer T2 A2} {L1 : AdjLaws C1} {L2 : AdjLaws C2} :
  forall (d : dual J A1 A2) v, dual_ok d ->
  let deg := match v with Graph1 i => degree_1 d i | Graph2 i => degree_2 d i end in
  (dual_vertex d v -> exists l, NoDup l /\ (forall w, In w l <-> linked d v w) /\ deg = Done (length l)) /\
  (~ dual_vertex d v -> deg = Panic).
Proof.
  intros d v W deg. subst deg. destruct v as [i|i]; cbn [dual_vertex].
  - destruct (degree_1_spec i W) as [H1 H2]. split; [|intros; apply H2; lia].
    intros H. exists (dsucc d (Graph1 i)). split; [apply (dsucc_NoDup _ W)|]. split; auto.
    intros w. apply (dsucc_linked _ _ W).
  - destruct (degree_2_spec i W) as [H1 H2]. split; [|intros; apply H2; lia].
    intros H. exists (dsucc d (Graph2 i)). split; [apply (dsucc_NoDup _ W)|]. split; auto.
    intros w. apply (dsucc_linked _ _ W).
Qed.
Print Assumptions C70_degree.

(** [contained_iter_neighbors_1] and [contained_iter_neighbors_2] give the payload of
    every neighbour in the union once. *)
Theorem C70_neighbors {J T A1 A2 : Type} {AT : AdjTrait J}
  {C1 : AdjContainer T A1} {C2 : AdjContainer T A2} {L1 : AdjLaws C1} {L2 : AdjLaws C2} :
  forall (d : dual J A1 A2) v, dual_ok d -> dual_vertex d v ->
  exists l ts, NoDup l /\ (forall w, In w l <-> linked d v w) /\ Forall2 (dual_payload d) l ts /\
    (match v with Graph1 i => contained_iter_neighbors_1 d i
                | Graph2 i => contained_iter_neighbors_2 d i end) = Done ts.
Proof.
  intros d v W Hv. destruct v as [i|i]; simpl in Hv.
  - destruct (neighbors_1_spec W Hv) as (ts & E & F). exists (dsucc d (Graph1 i)), ts.
    split; [apply (dsucc_NoDup _ W)|]. split; auto. intros w. apply (dsucc_linked _ _ W).
  - destruct (neighbors_2_spec W Hv) as (ts & E & F). exists (dsucc d (Graph2 i)), ts.
    split; [apply (dsucc_NoDup _ W)|]. split; auto. intros w. apply (dsucc_linked _ _ W).
Qed.
Print Assumptions C70_neighbors.

(** The iterators of [SingleDualGraph] visit the same vertices, in both build
    profiles; the mutable ones hand out each payload once, tagged with its graph and
    index. *)
Theorem C70_single {T A1 A2 : Type}
  {C1 : AdjContainer T A1} {C2 : AdjContainer T A2} {L1 : AdjLaws C1} {L2 : AdjLaws C2} :
  forall p (d : dual adj_single A1 A2) v, dual_ok d -> dual_vertex d v ->
  exists l ts rs, NoDup l /\ (forall w, In w l <-> linked d v w) /\
    Forall2 (dual_payload d) l ts /\ Forall2 (tagged d) l rs /\
    match v with
    | Graph1 i =>
        graph_1_contained_iter p d i = Done ts /\ graph_1_contained_iter_mut p d i = Done ts /\
        graph_1_mut_with_index p d i = Done rs /\ graph_1_mut_which p d i = Done (map untag rs)
    | Graph2 i =>
        graph_2_contained_iter p d i = Done ts /\
        graph_2_mut_with_index p d i = Done rs /\ graph_2_mut_which p d i = Done (map untag rs)
    end.
Proof.
  intros p d v W Hv. destruct v as [i|i]; simpl in Hv.
  - destruct (neighbors_1_spec W Hv) as (ts & E & F). destruct (graph_1_iters p W Hv) as [-> ->].
    destruct (graph_1_mut_spec p W Hv) as (rs & -> & -> & F').
    exists (dsucc d (Graph1 i)), ts, rs.
    split; [apply (dsucc_NoDup _ W)|]. split; [intros w; apply (dsucc_linked _ _ W)|]. auto 10.
  - destruct (neighbors_2_spec W Hv) as (ts & E & F). rewrite (graph_2_iters p W Hv).
    destruct (graph_2_mut_spec p W Hv) as (rs & -> & -> & F').
    exists (dsucc d (Graph2 i)), ts, rs.
    split; [apply (dsucc_NoDup _ W)|]. split; [intros w; apply (dsucc_linked _ _ W)|]. auto 10.
Qed.
Print Assumptions C70_single.

Example C70_example :
  degree_1 ex_dual 0 = Done 2 /\ degree_2 ex_dual 0 = Done 3 /\ degree_2 ex_dual 3 = Panic /\
  contained_iter_neighbors_2 ex_dual 0 = Done [11; 0; 1] /\
  graph_1_contained_iter Release single_00 0 = Done [0] /\
  graph_1_mut_with_index Release single_00 0 = Done [Graph2 (0, 0)].
Proof. vm_compute. auto 10. Qed.

(** ** C71 *)

(** Safe functions that are undefined behaviour for an index out of range. *)
Theorem C71_out_of_range {T A1 A2 : Type}
  {C1 : AdjContainer T A1} {C2 : AdjContainer T A2} {L1 : AdjLaws C1} {L2 : AdjLaws C2} :
  forall (d : dual adj_single A1 A2) i, dual_ok d ->
  (vertex_count (graph_1 d) <= i ->
     graph_1_contained_iter Debug d i = Panic /\ graph_1_contained_iter Release d i = UB /\
     graph_1_contained_iter_mut Release d i = UB /\
     graph_1_mut_with_index Release d i = Panic /\ graph_1_mut_which Release d i = Panic) /\
  (vertex_count (graph_2 d) <= i ->
     graph_2_contained_iter Debug d i = Panic /\ graph_2_contained_iter Release d i = UB /\
     graph_2_mut_with_index Release d i = Panic /\ graph_2_mut_which Release d i = Panic).
Proof.
  intros d i W. split; intros H.
  - assert (E : nth_error (vertices (graph_1 d)) i = None).
    { apply nth_error_None. rewrite (sg_len (du_g1 W)). auto. }
    unfold graph_1_contained_iter, graph_1_contained_iter_mut, graph_1_mut_with_index, graph_1_mut_which,
      raw_container, vget. rewrite E. auto 10.
  - assert (E : nth_error (vertices (graph_2 d)) i = None).
    { apply nth_error_None. rewrite (sg_len (du_g2 W)). auto. }
    unfold graph_2_contained_iter, graph_2_mut_with_index, graph_2_mut_which,
      raw_container, vget. rewrite E. auto 10.
Qed.
Print Assumptions C71_out_of_range.

Theorem C71_memory_safe_refuted :
  exists (d : dual adj_single (node_container nat) (node_container nat)) i,
    dual_ok d /\ graph_1_contained_iter Release d i = UB /\ graph_2_contained_iter Release d i = UB.
Proof.
  exists single_00, 2. split; [apply single_00_ok|].
  destruct (C71_out_of_range 2 (proj2 single_00_ok)) as [H1 H2].
  split; [apply H1|apply H2]; auto.
Qed.
Print Assumptions C71_memory_safe_refuted.

(** ** C72 *)

(** Changing a graph in place is fine as long as it stays simple and keeps its number
    of vertices. *)
Theorem C72_same_size {J T1 A1 T2 A2 : Type} {AT : AdjTrait J}
  {C1 : AdjContainer T1 A1} {C2 : AdjContainer T2 A2} {L1 : AdjLaws C1} {L2 : AdjLaws C2} :
  forall (d : dual J A1 A2) g1 g2, dual_ok d -> simple_graph g1 -> simple_graph g2 ->
  vertex_count g1 = vertex_count (graph_1 d) -> vertex_count g2 = vertex_count (graph_2 d) ->
  dual_ok (graph_1_mut_set d g1) /\ dual_ok (graph_2_mut_set d g2).
Proof.
  intros d g1 g2 W W1 W2 V1 V2. destruct W as [S1 S2 D1 D2 N1 N2 Sy].
  split; constructor; simpl; auto; congruence.
Qed.
Print Assumptions C72_same_size.

(** Nothing enforces this: after replacing a graph by a larger one a search panics
    although every index it was given is a vertex, and after replacing it by a smaller
    one a search panics and the mutable neighbour iterator is undefined behaviour. *)
Definition one : graph (node_container nat) := graph_new (fun i => i) 1.
Definition single_11 : dual adj_single (node_container nat) (node_container nat) :=
  mk_dual two two [Nothing; Something 1] [Nothing; Something 1].

Lemma single_11_ok : dual_add_edge (dual_new two two) 1 1 = Done (Ok tt, single_11) /\ dual_ok single_11.
Proof.
  assert (E : dual_add_edges (dual_new two two) [(1, 1)] = Done ([Ok tt], single_11)) by reflexivity.
  split; [reflexivity|]. apply (C57_single_add_edges _ two_simple two_simple E).
Qed.

Theorem C72_replaced_refuted :
  exists (d : dual adj_single (node_container nat) (node_container nat))
         (large small : graph (node_container nat)),
    dual_ok d /\ simple_graph large /\ simple_graph small /\
    dual_vertex (graph_1_mut_set d large) (Graph1 2) /\
    dual_dfs_index (graph_1_mut_set d large) (Graph1 2) = Panic /\
    dual_vertex (graph_2_mut_set d small) (Graph1 1) /\
    dual_dfs_index (graph_2_mut_set d small) (Graph1 1) = Panic /\
    graph_1_other_mut Release (graph_2_mut_set d small) 1 = UB.
Proof.
  exists single_11, path3, one. splits.
  - apply single_11_ok.
  - apply path3_simple.
  - apply (graph_new_spec (A := node_container nat) (fun i => i) 1).
  - vm_compute. lia.
  - vm_compute. reflexivity.
  - vm_compute. lia.
  - vm_compute. reflexivity.
  - vm_compute. reflexivity.
Qed.
Print Assumptions C72_replaced_refuted.

(** The first graph gets an edge. *)
Example C72_case : exists g, add_edges_try Debug two [(0, 1)] = Done (Ok tt, g) /\
  dual_ok (graph_1_mut_set single_11 g) /\
  dual_dfs_index (graph_1_mut_set single_11 g) (Graph1 0) = Done [Graph1 0; Graph1 1; Graph2 1].
Proof.
  destruct (add_edges_try Debug two [(0, 1)]) as [[r g]| | |] eqn:E; try (vm_compute in E; discriminate).
  assert (S : r = Ok tt -> simple_graph g).
  { intros ->. exact (proj1 (add_edges_simple two_simple E)). }
  vm_compute in E. injection E as <- <-. eexists. splits; [reflexivity| |vm_compute; reflexivity].
  apply C72_same_size with (d := single_11) (g2 := two); try reflexivity; [apply single_11_ok|auto|apply two_simple].
Qed.
