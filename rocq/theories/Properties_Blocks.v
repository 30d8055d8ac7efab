(** What [vertex_biconnected_components] gets right although the sizes are wrong in general (C28). *)
From Verif Require Import Base BaseFacts Containers ContainerSpec ContainerFacts Graph GraphSpec GraphFacts GraphOps.
From Verif Require Import Biconnected BiconnectedSpec BiconnectedFacts MeasureSpec MeasureFacts.
From Verif Require Import BlockSpec BlockFacts BlockRun BlockCount Properties_Graph Properties_Biconnected Properties_Measures.

(** ** C81 *)

(** There are as many entries as blocks. *)
Theorem C81_number {T A : Type} {C : AdjContainer T A} {L : AdjLaws C} :
  forall p (g : graph A), simple_graph g -> exists l Bs,
  vertex_biconnected_components p g false = Done l /\ lists_blocks g Bs /\ length l = length Bs /\
  forall Bs', lists_blocks g Bs' -> length Bs' = length Bs.
Proof.
  intros p g W. destruct (blocks_number p W) as (l & Bs & E & HB & Hl). exists l, Bs.
  split; auto. split; auto. split; auto. intros Bs' HB'.
  pose proof (Permutation_length (blocks_unique HB' HB)) as Z. rewrite !map_length in Z. auto.
Qed.
Print Assumptions C81_number.

(** With a single block, its size is right. *)
Theorem C81_one {T A : Type} {C : AdjContainer T A} {L : AdjLaws C} :
  forall p (g : graph A) k, simple_graph g ->
  (vertex_biconnected_components p g false = Done [k] <-> exists S, length S = k /\ lists_blocks g [S]).
Proof. intros p g k W. apply blocks_one; auto. Qed.
Print Assumptions C81_one.

(** The whole graph is biconnected exactly when its vertex count is the only entry. *)
Theorem C81_whole {T A : Type} {C : AdjContainer T A} {L : AdjLaws C} :
  forall p (g : graph A), simple_graph g -> 2 <= vertex_count g ->
  (vertex_biconnected_components p g false = Done [vertex_count g] <->
   biconnected g (seq 0 (vertex_count g))).
Proof. intros p g W H. apply blocks_whole; auto. Qed.
Print Assumptions C81_whole.

(** The entries are all 2 exactly when the blocks are single edges, and then the other
    definition gives nothing. *)
Theorem C81_edges {T A : Type} {C : AdjContainer T A} {L : AdjLaws C} :
  forall p (g : graph A), simple_graph g -> exists l l',
  vertex_biconnected_components p g false = Done l /\
  vertex_biconnected_components p g true = Done l' /\
  (Forall (fun k => k = 2) l <-> forall S, block g S -> length S = 2) /\
  (l' = [] <-> forall S, block g S -> length S = 2).
Proof.
  intros p g W. destruct (blocks_edges p W) as (l & E & H).
  destruct (C29_biconnected p W) as (comps & sizes & l0 & E0 & E1 & _ & F & _).
  assert (l0 = l) by congruence. subst l0.
  exists l, (filter (fun k => 2 <? k) l). split; auto. split; auto. split; auto.
  rewrite <- H. clear -F. induction F as [|k l Hk F IH]; [split; auto|]. cbn [filter].
  destruct (Nat.ltb_spec 2 k).
  - split; [discriminate|]. intros K. inversion K; subst. lia.
  - rewrite IH. split; intros K; [constructor; auto; lia|inversion K; auto].
Qed.
Print Assumptions C81_edges.

(** Renaming the vertices and reordering the neighbour lists does not change the number of entries.
    It can change the entries ([C74_biconnected_refuted]). *)
Theorem C81_isomorphic {T A : Type} {C : AdjContainer T A} {L : AdjLaws C}
  {T' A' : Type} {C' : AdjContainer T' A'} {L' : AdjLaws C'} :
  forall p (g : graph A) (h : graph A') f, simple_graph g -> simple_graph h -> isomorphism g h f ->
  exists l l', vertex_biconnected_components p g false = Done l /\
  vertex_biconnected_components p h false = Done l' /\ length l = length l'.
Proof. intros p g h f W W' I. apply (blocks_isomorphic p W W' I). Qed.
Print Assumptions C81_isomorphic.

(** A triangle with a tail has two blocks; its vertex 4 is isolated. *)
Example C81_case : simple_graph ex_graph /\ simple_graph ex_mirror /\
  isomorphism ex_graph ex_mirror (fun i => 4 - i) /\
  vertex_biconnected_components Debug ex_graph false = Done [3; 2] /\
  vertex_biconnected_components Debug ex_mirror false = Done [3; 2].
Proof.
  split; [exact ex_graph_simple|]. destruct C74_case as (_ & W & I & _). split; [exact W|]. split; [exact I|].
  vm_compute. auto.
Qed.

(** A square is biconnected, the blocks of a path are its edges. *)
Example C81_square : exists g h : graph (node_container unit),
  add_edges_try Debug (graph_new (fun _ => tt) 4) [(0, 1); (1, 2); (2, 3); (3, 0)] = Done (Ok tt, g) /\
  simple_graph g /\ biconnected g [0; 1; 2; 3] /\
  add_edges_try Debug (graph_new (fun _ => tt) 4) [(0, 1); (1, 2); (2, 3)] = Done (Ok tt, h) /\
  simple_graph h /\ forall S, block h S -> length S = 2.
Proof.
  eexists _, _. split; [vm_compute; reflexivity|].
  match goal with |- simple_graph ?g /\ _ => assert (W : simple_graph g) end.
  { eapply (add_edges_simple (p := Debug) (l := [(0, 1); (1, 2); (2, 3); (3, 0)])
      (proj1 (graph_new_spec (A := node_container unit) (fun _ => tt) 4))). vm_compute. reflexivity. }
  split; [exact W|].
  split; [apply (proj1 (C81_whole Debug _ W ltac:(vm_compute; lia))); vm_compute; reflexivity|].
  split; [vm_compute; reflexivity|].
  match goal with |- simple_graph ?h /\ _ => assert (W' : simple_graph h) end.
  { eapply (add_edges_simple (p := Debug) (l := [(0, 1); (1, 2); (2, 3)])
      (proj1 (graph_new_spec (A := node_container unit) (fun _ => tt) 4))). vm_compute. reflexivity. }
  split; [exact W'|].
  destruct (C81_edges Debug _ W') as (l & l' & E & E' & _ & H). apply H.
  vm_compute in E'. congruence.
Qed.
