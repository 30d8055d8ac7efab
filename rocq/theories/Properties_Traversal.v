(** Properties of the traversals: C11-C16, C20, C21, C27, C60. *)
From Verif Require Import Base BaseFacts Containers ContainerSpec ContainerFacts.
From Verif Require Import Graph GraphSpec GraphFacts GraphOps Search.
From Verif Require Import Traversal TraversalSpec TraversalFacts ClosenessFacts Properties_Graph.
Set Implicit Arguments.

(** ** C11 *)

Theorem C11_dfs_visits_component {T A : Type} {C : AdjContainer T A} {L : AdjLaws C} :
  forall (g : graph A) i, simple_graph g ->
  exists is, dfs_index_all g i = Done is /\ dfs_all g i = Done (map snd is) /\
    NoDup (map fst is) /\
    (forall v, In v (map fst is) <-> i < vertex_count g /\ joined (adj g) i v) /\
    (forall v t, In (v, t) is -> nth_error (payloads g) v = Some t) /\
    (i < vertex_count g -> hd_error (map fst is) = Some i) /\
    (forall l1 v l2, map fst is = l1 ++ v :: l2 -> v = i \/ exists u, In u l1 /\ adj g u v).
Proof.
  intros g i W. destruct (dfs_index_spec i W) as (is & E & N & R & P & O).
  exists is. splits; auto.
  - rewrite dfs_all_index, E. auto.
  - intros Hi. destruct (map fst is) as [|v l] eqn:Em.
    + destruct (proj2 (R i) (conj Hi (joined_refl _ _))).
    + simpl. destruct (O [] v l eq_refl) as [->|(u & [] & _)]. auto.
Qed.
Print Assumptions C11_dfs_visits_component.

(** [dfs_mut] with an arbitrary loop body: no vertex is handed out twice, no raw
    pointer is out of range, and the order is that of [dfs_with_index]. *)
Theorem C11_dfs_mut {T A : Type} {C : AdjContainer T A} {L : AdjLaws C} :
  forall (g : graph A) i (S : Type) (f : S -> T -> S * T) st, simple_graph g ->
  exists is g' st', dfs_index_all g i = Done is /\ NoDup (map fst is) /\
    dfs_mut_loop f (Datatypes.S (vertex_count g)) st g (dfs_new g i) = Done (st', g') /\
    written g g' f st st' (map fst is).
Proof.
  intros g i S f st W. destruct (dfs_index_drain W (drep_new i W)) as (is & E & Tr & Hr & _).
  destruct (run_bounds W (proj2 (proj2 (drep_new i W))) Hr) as (No & _ & _ & Lo).
  destruct (dfs_mut_loop_spec f Tr No (fuel := Datatypes.S (vertex_count g)) st W (fun v => eq_refl) (drep_new i W))
    as (g' & st' & El & Hw); [lia|].
  exists is, g', st'. auto.
Qed.
Print Assumptions C11_dfs_mut.

(** ** C12: the order need not be depth first *)

(** Edges 0-1, 0-2, 0-3, 1-3. *)
Definition dfs_witness : graph (node_container unit) :=
  mk_graph 4 4 [mk_nc 0 [1; 2; 3] tt; mk_nc 1 [0; 3] tt; mk_nc 2 [0] tt; mk_nc 3 [0; 1] tt].

Theorem C12_dfs_order_refuted :
  exists (g : graph (node_container unit)) is,
    add_edges_try Debug (graph_new (fun _ => tt) 4) [(0, 1); (0, 2); (0, 3); (1, 3)]
      = Done (Ok tt, g) /\
    simple_graph g /\ dfs_index_all g 0 = Done is /\ ~ depth_first (adj g) (map fst is).
Proof.
  exists dfs_witness, [(0, tt); (3, tt); (2, tt); (1, tt)].
  assert (E : add_edges_try Debug (graph_new (fun _ => tt) 4) [(0, 1); (0, 2); (0, 3); (1, 3)]
              = Done (Ok tt, dfs_witness)) by (vm_compute; reflexivity).
  splits; auto.
  - exact (proj1 (add_edges_simple (proj1 (graph_new_spec (A := node_container unit) (fun _ => tt) 4)) E)).
  - intros H. specialize (H [0; 3] 2 [1] [0] 3 [] eq_refl eq_refl).
    assert (K : adj dfs_witness 3 2).
    { apply H; [exists 1|intros ? ? []]. split; [vm_compute; auto|simpl; intuition lia]. }
    vm_compute in K. intuition lia.
Qed.
Print Assumptions C12_dfs_order_refuted.

(** ** C13 *)

Theorem C13_bfs_distances {T A : Type} {C : AdjContainer T A} {L : AdjLaws C} :
  forall (g : graph A) i, simple_graph g ->
  exists is, bfs_all g i = Done is /\
    NoDup (map (fun x => fst (fst x)) is) /\
    (forall v, In v (map (fun x => fst (fst x)) is) <-> i < vertex_count g /\ joined (adj g) i v) /\
    (forall v t d, In (v, t, d) is ->
       nth_error (payloads g) v = Some t /\ is_dist (adj g) i v d) /\
    ForallOrdPairs (fun a b => snd a <= snd b) is.
Proof. intros g i W. apply bfs_like_spec; auto. apply bfs_like_next. Qed.
Print Assumptions C13_bfs_distances.

(** [reuse] on an iterator in any state it can be in. *)
Theorem C13_bfs_reuse {T A : Type} {C : AdjContainer T A} {L : AdjLaws C} :
  forall (g : graph A) i j s, simple_graph g ->
  after (bfs_next g) (bfs_new g i) s -> bfs_reuse g s j = Done (bfs_new g j).
Proof.
  intros g i j s W Ha. apply bfs_reuse_new; auto. destruct (brep_new g i) as [x Hx].
  destruct (brep_after W (@bfs_like_next _ _ _ g) Hx Ha) as [x' [[Lh _] _]]. auto.
Qed.
Print Assumptions C13_bfs_reuse.

(** [bfs_index_depth_mut] with an arbitrary loop body, which is given index and
    depth: the same items in the same order as [bfs_index_depth]. *)
Theorem C13_bfs_mut {T A : Type} {C : AdjContainer T A} {L : AdjLaws C} :
  forall (g : graph A) i (S : Type) (f : S -> nat -> nat -> T -> S * T) st, simple_graph g ->
  exists is g' st', bfs_all g i = Done is /\ NoDup (map (fun x => fst (fst x)) is) /\
    bfs_mut_loop f (Datatypes.S (vertex_count g)) st g (bfs_new g i) = Done (st', g') /\
    written g g'
      (fun (a : S * list (nat * nat)) t =>
         match snd a with
         | (v, d) :: r => let (b, t') := f (fst a) v d t in ((b, r), t')
         | [] => (a, t)
         end)
      (st, map (fun x => (fst (fst x), snd x)) is) (st', []) (map (fun x => fst (fst x)) is).
Proof.
  intros g i S f st W. destruct (brep_new g i) as [x Hx].
  destruct (bfs_drain W (@bfs_like_next _ _ _ g) Hx) as (is & E & Tr & Hr & _).
  destruct (run_bounds W (proj2 (proj2 (proj2 (proj2 Hx)))) Hr) as (No & _ & _ & Lo).
  rewrite !map_length in Lo.
  destruct (bfs_mut_loop_spec f Tr No (fuel := Datatypes.S (vertex_count g)) st W (fun v => eq_refl) Hx)
    as (g' & st' & El & Hw); [rewrite map_length; lia|].
  rewrite map_fst_bkey in *. exists is, g', st'. auto.
Qed.
Print Assumptions C13_bfs_mut.

(** ** C14 *)

Theorem C14_bfs_filtered {T A : Type} {C : AdjContainer T A} {L : AdjLaws C} :
  forall (g : graph A) f i, simple_graph g ->
  (bfs_filtered_new g f i = Done None /\ ~ accepts g f i) \/
  (accepts g f i /\ exists s is, bfs_filtered_new g f i = Done (Some s) /\
    drain (bfs_filtered_next g) (S (vertex_count g)) s = Done is /\
    NoDup (map (fun x => fst (fst x)) is) /\
    (forall v, In v (map (fun x => fst (fst x)) is) <-> joined (accepted_edge g f) i v) /\
    (forall v t d, In (v, t, d) is ->
       nth_error (payloads g) v = Some t /\ is_dist (accepted_edge g f) i v d) /\
    ForallOrdPairs (fun a b => snd a <= snd b) is).
Proof.
  intros g f i W. destruct (bfs_filtered_new_spec f i W) as [H|(s & E & _ & Ha & _)]; auto.
  right. split; auto. destruct (bfs_filtered_spec W E) as (is & H). exists s, is. tauto.
Qed.
Print Assumptions C14_bfs_filtered.

(** ** C15: [BfsFiltered::reuse] *)

(** Whatever the filter rejects, a successful [reuse] starts an unfiltered search. *)
Theorem C15_reuse_ignores_filter {T A : Type} {C : AdjContainer T A} {L : AdjLaws C} :
  forall (g : graph A) f0 f i j s0 s, simple_graph g ->
  bfs_filtered_new g f0 i = Done (Some s0) -> after (bfs_filtered_next g) s0 s ->
  (accepts g f j -> bfs_filtered_reuse g s j f = Done (Ok (bfs_new g j))) /\
  (~ accepts g f j -> j <> vertex_count g -> bfs_filtered_reuse g s j f = Done (Err s)) /\
  (j = vertex_count g -> bfs_filtered_reuse g s j f = Panic).
Proof.
  intros g f0 f i j s0 s W E Ha.
  destruct (bfs_filtered_new_spec f0 i W) as [[E' _]|(s' & E' & _ & _ & R)]; [congruence|].
  assert (s' = s0) by congruence. subst s'.
  destruct (brep_after W (@bfs_like_filtered _ _ _ _ g W) R Ha) as [x' [[Lh _] _]].
  splits.
  - apply bfs_filtered_reuse_new; auto.
  - intros; apply bfs_filtered_reuse_rejected; auto.
  - intros ->. apply bfs_filtered_reuse_panic; auto.
Qed.
Print Assumptions C15_reuse_ignores_filter.

(** An [Ok] iterator that yields a rejected vertex, and an index out of range that
    panics. *)
Theorem C15_reuse_refuted :
  exists (g : graph (node_container nat)) f s is v t d,
    simple_graph g /\ bfs_filtered_new g f 0 = Done (Some s) /\
    (exists s', bfs_filtered_reuse g s 0 f = Done (Ok s') /\
       drain (bfs_filtered_next g) (S (vertex_count g)) s' = Done is) /\
    In (v, t, d) is /\ ~ accepts g f v /\
    bfs_filtered_reuse g s (vertex_count g) f = Panic.
Proof.
  set (f := fun (_ : nat) i => negb (i =? 2)).
  exists ex_graph, f, (mk_bfs [true; false; true; false; false] [0] [] 0),
    [(0, 0, 0); (1, 10, 1); (2, 20, 1); (3, 30, 2)], 2, 20, 1.
  splits; try (vm_compute; auto; fail).
  - apply ex_graph_simple.
  - eexists. split; vm_compute; reflexivity.
  - intros (t & _ & H). discriminate.
Qed.
Print Assumptions C15_reuse_refuted.

(** ** C16 *)

Theorem C16_is_connected {T A : Type} {C : AdjContainer T A} {L : AdjLaws C} :
  forall (g : graph A), simple_graph g ->
  vertex_count g = 0 /\ is_connected g = Done None \/
  0 < vertex_count g /\ connected g /\ is_connected g = Done (Some true) \/
  0 < vertex_count g /\ ~ connected g /\ is_connected g = Done (Some false).
Proof. intros g. apply is_connected_spec. Qed.
Print Assumptions C16_is_connected.

(** ** C20 *)

Theorem C20_diameter {T A : Type} {C : AdjContainer T A} {L : AdjLaws C} :
  forall (g : graph A), simple_graph g ->
  (vertex_count g = 0 \/ ~ connected g) /\ diameter g = Done None \/
  0 < vertex_count g /\ connected g /\ exists d, diameter g = Done (Some d) /\ is_diameter g d.
Proof. intros g. apply diameter_spec. Qed.
Print Assumptions C20_diameter.

(** ** C21 *)

Theorem C21_longest_shortest_path {T A : Type} {C : AdjContainer T A} {L : AdjLaws C} :
  forall (g : graph A) i, simple_graph g ->
  vertex_count g <= i /\ longest_shortest_path_from_index g i = Done None \/
  i < vertex_count g /\ exists d,
    longest_shortest_path_from_index g i = Done (Some d) /\ is_ecc (adj g) i d.
Proof. intros g i. apply longest_spec. Qed.
Print Assumptions C21_longest_shortest_path.

(** ** C27 *)

Theorem C27_closeness {T A : Type} {C : AdjContainer T A} {L : AdjLaws C} :
  forall p (g : graph A), simple_graph g -> 0 < vertex_count g ->
  exists l, closeness_centrality p g = Done l /\ length l = vertex_count g /\
    forall v, v < vertex_count g -> exists d, dists g v d /\
      nth_error l v = Some (vertex_count g - 1, list_sum (map d (seq 0 (vertex_count g)))).
Proof. intros p g. apply closeness_spec. Qed.
Print Assumptions C27_closeness.

Theorem C27_closeness_empty {T A : Type} {C : AdjContainer T A} {L : AdjLaws C} :
  forall (g : graph A), vertex_count g = 0 ->
  closeness_centrality Debug g = Panic /\ closeness_centrality Release g = Done [].
Proof.
  intros g E. unfold closeness_centrality. rewrite E. split; reflexivity.
Qed.
Print Assumptions C27_closeness_empty.

(** ** C60 *)

Theorem C60_dfs_size_hint {T A : Type} {C : AdjContainer T A} {L : AdjLaws C} :
  forall (g : graph A) i s, simple_graph g -> after (dfs_next g) (dfs_new g i) s ->
  exists is lo hi, drain (dfs_next g) (S (vertex_count g)) s = Done is /\
    dfs_size_hint s = (lo, Some hi) /\ lo <= length is <= hi.
Proof.
  intros g i s W Ha. apply (after_map (dfs_next_index g)) in Ha.
  destruct (drep_after W (drep_new i W) Ha) as [x R].
  destruct (drep_size W R) as (is & E & H & Lh & _).
  exists (map snd is). eexists _, _. splits; [|reflexivity| |].
  - rewrite (drain_map (dfs_next_index g)), E. auto.
  - rewrite map_length. lia.
  - rewrite map_length. lia.
Qed.
Print Assumptions C60_dfs_size_hint.

Theorem C60_dfs_index_size_hint {T A : Type} {C : AdjContainer T A} {L : AdjLaws C} :
  forall (g : graph A) i s, simple_graph g -> after (dfs_index_next g) (dfs_new g i) s ->
  exists is lo hi, drain (dfs_index_next g) (S (vertex_count g)) s = Done is /\
    dfs_index_size_hint g s = (lo, Some hi) /\ lo <= length is <= hi.
Proof.
  intros g i s W Ha. destruct (drep_after W (drep_new i W) Ha) as [x R].
  destruct (drep_size W R) as (is & E & H & _ & Lv).
  exists is. eexists _, _. splits; [exact E|reflexivity| |]; lia.
Qed.
Print Assumptions C60_dfs_index_size_hint.

Theorem C60_bfs_size_hint {T A : Type} {C : AdjContainer T A} {L : AdjLaws C} :
  forall (g : graph A) i s, simple_graph g -> after (bfs_next g) (bfs_new g i) s ->
  exists is lo hi, drain (bfs_next g) (S (vertex_count g)) s = Done is /\
    bfs_size_hint g s = (lo, Some hi) /\ lo <= length is <= hi.
Proof.
  intros g i s W Ha. destruct (brep_new g i) as [x0 R0].
  destruct (brep_after W (@bfs_like_next _ _ _ g) R0 Ha) as [x R].
  destruct (brep_size W (@bfs_like_next _ _ _ g) R) as (is & E & H & _ & Lv).
  exists is. eexists _, _. splits; [exact E|reflexivity| |]; lia.
Qed.
Print Assumptions C60_bfs_size_hint.

(** The vertices may be written between two calls of [next]; this does not change
    what [next] does with the indices, so the graph is kept fixed here. *)
Theorem C60_bfs_mut_size_hint {T A : Type} {C : AdjContainer T A} {L : AdjLaws C} :
  forall (g : graph A) i s, simple_graph g -> after (bfs_mut_next g) (bfs_new g i) s ->
  exists is lo hi, drain (bfs_mut_next g) (S (vertex_count g)) s = Done is /\
    bfs_mut_size_hint s = (lo, Some hi) /\ lo <= length is <= hi.
Proof.
  intros g i s W Ha. destruct (brep_new g i) as [x0 R0].
  destruct (brep_after W (@bfs_like_mut _ _ _ _ g W) R0 Ha) as [x R].
  destruct (brep_size W (@bfs_like_mut _ _ _ _ g W) R) as (is & E & H & Lh & _).
  exists is. eexists _, _. splits; [exact E|reflexivity| |]; lia.
Qed.
Print Assumptions C60_bfs_mut_size_hint.

Theorem C60_bfs_filtered_size_hint {T A : Type} {C : AdjContainer T A} {L : AdjLaws C} :
  forall (g : graph A) f i s0 s, simple_graph g -> bfs_filtered_new g f i = Done (Some s0) ->
  after (bfs_filtered_next g) s0 s ->
  exists is lo hi, drain (bfs_filtered_next g) (S (vertex_count g)) s = Done is /\
    bfs_size_hint g s = (lo, Some hi) /\ lo <= length is <= hi.
Proof.
  intros g f i s0 s W E0 Ha.
  destruct (bfs_filtered_new_spec f i W) as [[E' _]|(s' & E' & _ & _ & R0)]; [congruence|].
  assert (s' = s0) by congruence. subst s'.
  destruct (brep_after W (@bfs_like_filtered _ _ _ _ g W) R0 Ha) as [x R].
  destruct (brep_size W (@bfs_like_filtered _ _ _ _ g W) R) as (is & E & H & _ & Lv).
  exists is. eexists _, _. splits; [exact E|reflexivity| |]; lia.
Qed.
Print Assumptions C60_bfs_filtered_size_hint.

(** ** Concrete cases *)

Example C11_example :
  dfs_index_all ex_graph 0 = Done [(0, 0); (2, 20); (3, 30); (1, 10)] /\
  dfs_index_all ex_graph 4 = Done [(4, 40)] /\ dfs_index_all ex_graph 7 = Done [].
Proof. vm_compute. auto. Qed.

Example C11_mut_example :
  exists g', dfs_mut_loop (fun k t => (S k, t + k)) 6 100 ex_graph (dfs_new ex_graph 0) = Done (104, g') /\
    payloads g' = [100; 113; 121; 132; 40].
Proof. eexists. split; vm_compute; reflexivity. Qed.

Example C13_example :
  bfs_all ex_graph 3 = Done [(3, 30, 0); (2, 20, 1); (1, 10, 2); (0, 0, 2)].
Proof. vm_compute. auto. Qed.

Example C13_reuse_example : exists s, bfs_next ex_graph (bfs_new ex_graph 3) = Done (Some ((3, 30, 0), s)) /\
  bfs_reuse ex_graph s 1 = Done (bfs_new ex_graph 1).
Proof. eexists. split; vm_compute; reflexivity. Qed.

Example C14_example :
  exists s, bfs_filtered_new ex_graph (fun _ i => negb (i =? 2)) 0 = Done (Some s) /\
    drain (bfs_filtered_next ex_graph) 6 s = Done [(0, 0, 0); (1, 10, 1)].
Proof. eexists. split; vm_compute; reflexivity. Qed.

Example C16_example : is_connected ex_graph = Done (Some false) /\
  is_connected dfs_witness = Done (Some true).
Proof. vm_compute. auto. Qed.

Example C20_example : diameter dfs_witness = Done (Some 2) /\ diameter ex_graph = Done None.
Proof. vm_compute. auto. Qed.

Example C21_example : longest_shortest_path_from_index ex_graph 3 = Done (Some 2) /\
  longest_shortest_path_from_index ex_graph 4 = Done (Some 0) /\
  longest_shortest_path_from_index ex_graph 5 = Done None.
Proof. vm_compute. auto. Qed.

Example C27_example : closeness_centrality Debug ex_graph = Done [(4, 4); (4, 4); (4, 3); (4, 5); (4, 0)].
Proof. vm_compute. auto. Qed.

Example C60_example : exists s, dfs_next ex_graph (dfs_new ex_graph 0) = Done (Some (0, s)) /\
  dfs_size_hint s = (2, Some 5) /\ drain (dfs_next ex_graph) 6 s = Done [20; 30; 10].
Proof. eexists. split; [vm_compute; reflexivity|]. vm_compute. auto. Qed.
