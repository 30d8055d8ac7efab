(** Properties of components, q-core and transitivity: C17-C19, C22-C24. *)
From Verif Require Import Base BaseFacts Containers ContainerSpec ContainerFacts.
From Verif Require Import Graph GraphSpec GraphFacts GraphOps.
From Verif Require Import Components ComponentSpec ComponentFacts CoreFacts.
From Verif Require Import Transitivity TransitivityFacts Properties_Graph.
From Coq Require Import Sorted.
Set Implicit Arguments.

(** ** C17 *)

Theorem C17_component_ids {T A : Type} {C : AdjContainer T A} {L : AdjLaws C} :
  forall (g : graph A), simple_graph g ->
  exists num ids, connected_components_ids g = Done (num, ids) /\
    length ids = vertex_count g /\
    (forall v, v < vertex_count g -> exists c, nth_error ids v = Some (Some c) /\ c < num) /\
    (forall c, c < num -> exists v, nth_error ids v = Some (Some c)) /\
    (forall u v, u < vertex_count g -> v < vertex_count g ->
       (nth_error ids u = nth_error ids v <-> joined (adj g) u v)).
Proof. intros g. apply ids_spec. Qed.
Print Assumptions C17_component_ids.

Example C17_example :
  connected_components_ids ex_graph = Done (2, [Some 0; Some 0; Some 0; Some 0; Some 1]).
Proof. vm_compute. reflexivity. Qed.

(** ** C18 *)

Theorem C18_component_sizes {T A : Type} {C : AdjContainer T A} {L : AdjLaws C} :
  forall (g : graph A), simple_graph g ->
  exists sizes comps, connected_components g = Done sizes /\
    StronglySorted (fun a b => b <= a) sizes /\
    Permutation sizes (map (@length nat) comps) /\
    Permutation (concat comps) (seq 0 (vertex_count g)) /\
    (forall c, In c comps -> c <> []) /\
    (forall c u v, In c comps -> In u c -> v < vertex_count g -> (In v c <-> joined (adj g) u v)).
Proof. intros g. apply components_spec. Qed.
Print Assumptions C18_component_sizes.

Example C18_example : connected_components ex_graph = Done [4; 1].
Proof. vm_compute. reflexivity. Qed.

(** ** C19 *)

Theorem C19_suggest_connections {T A : Type} {C : AdjContainer T A} {L : AdjLaws C} :
  forall (g : graph A), simple_graph g ->
  exists sugg, suggest_connections g = Done sugg /\
    StronglySorted lt sugg /\
    (forall s, In s sugg -> s < vertex_count g /\ forall v, joined (adj g) s v -> s <= v) /\
    (forall v, v < vertex_count g -> exists s, In s sugg /\ joined (adj g) s v) /\
    (forall s s', In s sugg -> In s' sugg -> joined (adj g) s s' -> s = s').
Proof. intros g. apply suggest_spec. Qed.
Print Assumptions C19_suggest_connections.

Example C19_example : suggest_connections ex_graph = Done [0; 4].
Proof. vm_compute. reflexivity. Qed.

(** ** C22 *)

Theorem C22_q_core {T A : Type} {C : AdjContainer T A} {L : AdjLaws C} :
  forall (g : graph A) q, simple_graph g ->
  ((q < 2 \/ vertex_count g = 0) /\ q_core g q = Done None) \/
  (2 <= q /\ 0 < vertex_count g /\ exists m, q_core g q = Done (Some m) /\
     (forall v comp, in_core g q v -> is_component (core_edge g q) v comp -> length comp <= m) /\
     (m = 0 /\ (forall v, ~ in_core g q v) \/
      exists v comp, in_core g q v /\ is_component (core_edge g q) v comp /\ length comp = m)).
Proof. intros g q. apply q_core_spec. Qed.
Print Assumptions C22_q_core.

Example C22_example : q_core ex_graph 2 = Done (Some 3) /\ q_core ex_graph 3 = Done (Some 0) /\
  q_core ex_graph 1 = Done None.
Proof. vm_compute. auto. Qed.

Example C22_core_example : in_core ex_graph 2 0.
Proof.
  exists (fun v => v <? 3). split; [|reflexivity]. intros v Hv. apply Nat.ltb_lt in Hv.
  destruct v as [|[|[|v]]]; [vm_compute; lia..|lia].
Qed.

(** ** C23: the documented size is not the size returned *)

(** Two disjoint triangles. *)
Definition two_triangles : graph (node_container unit) :=
  mk_graph 6 6
    [mk_nc 0 [1; 2] tt; mk_nc 1 [0; 2] tt; mk_nc 2 [1; 0] tt;
     mk_nc 3 [4; 5] tt; mk_nc 4 [3; 5] tt; mk_nc 5 [4; 3] tt].

Theorem C23_q_core_doc_refuted :
  exists (g : graph (node_container unit)) (S : nat -> bool) m,
    add_edges_try Debug (graph_new (fun _ => tt) 6) [(0, 1); (1, 2); (2, 0); (3, 4); (4, 5); (5, 3)]
      = Done (Ok tt, g) /\
    simple_graph g /\ q_dense g 2 S /\ q_core g 2 = Done (Some m) /\
    m < count S (seq 0 (vertex_count g)).
Proof.
  assert (E : add_edges_try Debug (graph_new (fun _ => tt) 6) [(0, 1); (1, 2); (2, 0); (3, 4); (4, 5); (5, 3)]
              = Done (Ok tt, two_triangles)) by (vm_compute; reflexivity).
  exists two_triangles, (fun v => v <? 6), 3. splits; auto.
  - exact (proj1 (add_edges_simple (proj1 (graph_new_spec (A := node_container unit) (fun _ => tt) 6)) E)).
  - intros v Hv. apply Nat.ltb_lt in Hv.
    destruct v as [|[|[|[|[|[|v]]]]]]; [vm_compute; lia..|lia].
  - vm_compute. lia.
Qed.
Print Assumptions C23_q_core_doc_refuted.

(** ** C24 *)

Theorem C24_transitivity {T A : Type} {C : AdjContainer T A} {L : AdjLaws C} :
  forall (g : graph A), simple_graph g ->
  transitivity g = Done (count (closed_path g) (triples (vertex_count g)),
                         count (two_path g) (triples (vertex_count g))).
Proof. intros g. apply transitivity_spec. Qed.
Print Assumptions C24_transitivity.

Example C24_example : transitivity ex_graph = Done (6, 10).
Proof. vm_compute. reflexivity. Qed.
