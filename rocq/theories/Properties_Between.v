(** Theorems about the load and the betweenness. *)
From Verif Require Import Base BaseFacts Sums Containers ContainerSpec ContainerFacts Graph GraphSpec GraphFacts GraphOps
  TraversalSpec TraversalFacts Load LoadSpec LoadFacts LoadSums BetweenSpec BetweenFacts Properties_Graph Properties_Traversal Properties_Load.
From Coq Require Import QArith.
Local Open Scope nat_scope.

(** ** C88: when the load is the betweenness *)

(** What the definitions count: the walks with [k] edges, and the distance. *)
Theorem C88_counts {T A : Type} {C : AdjContainer T A} {L : AdjLaws C} :
  forall (g : graph A), simple_graph g ->
  (forall k s v, exists ps, NoDup ps /\ length ps = ways g k s v /\
     forall p, In p ps <-> length p = k /\ leads_back g s v p) /\
  (forall s v d, s < vertex_count g -> (hops g s v = Some d <-> is_dist (adj g) s v d)).
Proof.
  intros g W. split; [|apply (hops_distances W)]. intros k s. induction k as [|k IH]; intros v.
  - cbn [ways]. destruct (Nat.eqb_spec s v) as [->|N].
    + exists [[]]. split; [repeat constructor; simpl; auto|]. split; auto. intros [|u p]; cbn; intuition discriminate.
    + exists []. split; [constructor|]. split; auto. intros [|u p]; cbn; intuition congruence.
  - cbn [ways]. pose proof (sg_nodup W v) as Nd. assert (Ad : forall u, In u (nbrs g v) -> adj g v u) by auto.
    enough (G : forall l, NoDup l -> exists ps, NoDup ps /\ length ps = list_sum (map (ways g k s) l) /\
      forall p, In p ps <-> exists u q, p = u :: q /\ In u l /\ length q = k /\ leads_back g s u q).
    { destruct (G _ Nd) as (ps & N & Lp & I). exists ps. split; auto. split; auto. intros p. rewrite I. split.
      - intros (u & q & -> & Iu & Lq & B). cbn. auto.
      - destruct p as [|u q]; cbn; [intros [E _]; discriminate|]. intros [E [Au B]]. exists u, q. splits; auto. }
    induction l as [|u l IHl]; intros Nl.
    + exists []. split; [constructor|]. split; auto. intros p. split; [intros []|]. intros (? & ? & _ & [] & _).
    + inversion_clear Nl as [|? ? Nu Nl']. destruct (IHl Nl') as (ps & N & Lp & I). destruct (IH u) as (qs & Nq & Lq & Iq).
      exists (map (cons u) qs ++ ps). split; [|split].
      * apply NoDup_app_iff. splits; auto.
        { apply FinFun.Injective_map_NoDup; auto. intros x y E. congruence. }
        intros p H1 H2. apply in_map_iff in H1 as (q & <- & _). apply I in H2 as (u' & q' & E & Iu & _). congruence.
      * rewrite app_length, map_length, Lp, Lq. reflexivity.
      * intros p. rewrite in_app_iff, in_map_iff, I. split.
        { intros [(q & <- & H)|(u' & q & -> & Iu & H)].
          - apply Iq in H. exists u, q. simpl. tauto.
          - exists u', q. simpl. tauto. }
        intros (u' & q & -> & [->|Iu] & H1 & H2); [left; exists q; split; auto; apply Iq; auto|right; eauto 6].
Qed.
Print Assumptions C88_counts.

(** With at most one shortest path between two vertices. *)
Theorem C88_unique {T A : Type} {C : AdjContainer T A} {L : AdjLaws C} :
  forall (g : graph A) include_endpoints l, simple_graph g -> one_shortest_path g ->
  vertex_load g include_endpoints = Done l ->
  forall v, v < vertex_count g -> (nth v l 0 == betweenness g include_endpoints v)%Q.
Proof. intros g b l W O E v Hv. apply (load_between W O E Hv). Qed.
Print Assumptions C88_unique.

(** In particular in a tree. *)
Theorem C88_tree {T A : Type} {C : AdjContainer T A} {L : AdjLaws C} :
  forall (g : graph A) include_endpoints l, simple_graph g -> connected g -> edge_count g + 1 = vertex_count g ->
  vertex_load g include_endpoints = Done l ->
  forall v, v < vertex_count g -> (nth v l 0 == betweenness g include_endpoints v)%Q.
Proof. intros g b l W Hc He E v Hv. apply (load_between W (tree_one W Hc He) E Hv). Qed.
Print Assumptions C88_tree.

(** Load and betweenness are zero for the same vertices: those whose neighbours are all
    joined to each other. *)
Theorem C88_zero {T A : Type} {C : AdjContainer T A} {L : AdjLaws C} :
  forall (g : graph A) l v, simple_graph g -> vertex_load g false = Done l -> v < vertex_count g ->
  ((nth v l 0 == 0)%Q <-> forall u w, adj g v u -> adj g v w -> u <> w -> adj g u w) /\
  ((betweenness g false v == 0)%Q <-> forall u w, adj g v u -> adj g v w -> u <> w -> adj g u w).
Proof. intros g l v W E Hv. split; [apply (load_zero W E Hv)|apply (between_zero W Hv)]. Qed.
Print Assumptions C88_zero.

(** In general they are different.  There are two shortest paths from 0 to 4 and one from
    0 to 5, but a walk back from 6 takes 4 and 5 with equal shares. *)
Definition ex_shares_edges : list (nat * nat) := [(0, 1); (0, 2); (0, 3); (1, 4); (2, 4); (3, 5); (4, 6); (5, 6)].
Definition ex_shares : graph (node_container nat) := Eval vm_compute in
  match add_edges_try Debug (graph_new (fun i => i) 7) ex_shares_edges with
  | Done (_, g) => g
  | _ => graph_new (fun i => i) 0
  end.

Definition ex_shares_load (include_endpoints : bool) : list Q :=
  match vertex_load ex_shares include_endpoints with
  | Done l => l
  | _ => []
  end.

Theorem C88_betweenness_refuted : exists (g : graph (node_container nat)) l l' v,
  add_edges_try Debug (graph_new (fun i => i) 7) ex_shares_edges = Done (Ok tt, g) /\ simple_graph g /\
  vertex_load g true = Done l /\ vertex_load g false = Done l' /\ v < vertex_count g /\
  ~ (nth v l 0 == betweenness g true v)%Q /\ ~ (nth v l' 0 == betweenness g false v)%Q.
Proof.
  assert (E : add_edges_try Debug (graph_new (fun i => i) 7) ex_shares_edges = Done (Ok tt, ex_shares)) by (vm_compute; reflexivity).
  pose proof (proj1 (add_edges_simple (proj1 (graph_new_spec (A := node_container nat) (fun i => i) 7)) E)) as W.
  exists ex_shares, (ex_shares_load true), (ex_shares_load false), 5.
  split; [exact E|]. split; [exact W|]. split; [vm_compute; reflexivity|]. split; [vm_compute; reflexivity|].
  split; [cbn; lia|]. split; vm_compute; discriminate.
Qed.
Print Assumptions C88_betweenness_refuted.

(** A triangle with a vertex attached, and a tree. *)
Definition ex_tree : graph (node_container nat) := Eval vm_compute in
  match add_edges_try Debug (graph_new (fun i => i) 5) [(0, 1); (1, 2); (1, 3); (3, 4)] with
  | Done (_, g) => g
  | _ => graph_new (fun i => i) 0
  end.

Example C88_case :
  simple_graph ex_graph /\ one_shortest_path ex_graph /\
  load_red (vertex_load ex_graph true) = Done (map (fun v => Qred (betweenness ex_graph true v)) (seq 0 5)) /\
  simple_graph ex_tree /\ connected ex_tree /\ edge_count ex_tree + 1 = vertex_count ex_tree /\
  load_red (vertex_load ex_tree false) = Done [0; 10 # 1; 0; 6 # 1; 0]%Q /\
  map (fun v => Qred (betweenness ex_tree false v)) (seq 0 5) = [0; 10 # 1; 0; 6 # 1; 0]%Q.
Proof.
  assert (E : add_edges_try Debug (graph_new (fun i => i) 5) [(0, 1); (1, 2); (1, 3); (3, 4)] = Done (Ok tt, ex_tree)) by (vm_compute; reflexivity).
  pose proof (proj1 (add_edges_simple (proj1 (graph_new_spec (A := node_container nat) (fun i => i) 5)) E)) as W.
  split; [apply ex_graph_simple|]. split.
  { intros s t d Hs Ht Hd. change (vertex_count ex_graph) with 5 in *.
    do 5 (destruct s as [|s]; [do 5 (destruct t as [|t]; [vm_compute in Hd; try discriminate; injection Hd as <-; reflexivity|]); lia|]). lia. }
  split; [vm_compute; reflexivity|]. split; [exact W|]. split.
  { destruct (C16_is_connected W) as [[E0 _]|[(_ & H & _)|(_ & _ & E0)]]; [discriminate|exact H|].
    vm_compute in E0. discriminate. }
  split; [reflexivity|]. split; vm_compute; reflexivity.
Qed.
