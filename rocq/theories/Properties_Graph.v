(** Properties of the graph type itself: C01-C10, C31, C32. *)
From Verif Require Import Base BaseFacts Sums Containers ContainerSpec ContainerFacts.
From Verif Require Import Graph GraphSpec GraphFacts GraphOps GraphBuild.
From Coq Require Import Sorted.
Set Implicit Arguments.

(** ** Example graphs used below *)

(** A triangle 0-1-2 with a tail 2-3 and an isolated vertex 4. *)
Definition ex_edges : list (nat * nat) := [(0, 1); (1, 2); (2, 0); (2, 3)].
Definition ex_start : graph (node_container nat) := graph_new (fun i => 10 * i) 5.
Definition ex_graph : graph (node_container nat) :=
  mk_graph 5 4
    [mk_nc 0 [1; 2] 0; mk_nc 1 [0; 2] 10; mk_nc 2 [1; 0; 3] 20; mk_nc 3 [2] 30; mk_nc 4 [] 40].

Example ex_graph_built : add_edges_try Debug ex_start ex_edges = Done (Ok tt, ex_graph).
Proof. vm_compute. reflexivity. Qed.

Example ex_graph_simple : simple_graph ex_graph.
Proof.
  refine (proj1 (add_edges_simple (proj1 (graph_new_spec (A := node_container nat) (fun i => 10 * i) 5)) ex_graph_built)).
Qed.

(** ** C01 *)

Theorem C01_history_simple {T A : Type} {C : AdjContainer T A} {L : AdjLaws C} :
  forall p (g : graph A), history p g ->
  length (vertices g) = vertex_count g /\
  (forall i c, nth_error (vertices g) i = Some c -> ac_id c = i) /\
  (forall i j, adj g i j -> j < vertex_count g) /\
  (forall i, ~ adj g i i) /\
  (forall i, NoDup (nbrs g i)) /\
  (forall i j, adj g i j <-> adj g j i).
Proof.
  intros p g H. pose proof (history_simple H) as W.
  splits; try apply W.
  split; apply W.
Qed.
Print Assumptions C01_history_simple.

(** ** C02 *)

Theorem C02_edge_count {T A : Type} {C : AdjContainer T A} {L : AdjLaws C} :
  forall p (g : graph A), history p g ->
  edge_count g = number_of_edges g /\
  list_sum (degree_vec g) = 2 * edge_count g.
Proof.
  intros p g H. pose proof (history_simple H) as W.
  split; [apply W|apply degree_sum; auto].
Qed.
Print Assumptions C02_edge_count.

(** ** C03 *)

Theorem C03_add_edge_exact {T A : Type} {C : AdjContainer T A} {L : AdjLaws C} :
  forall p (g : graph A) i j,
  simple_graph g -> i < vertex_count g -> j < vertex_count g -> i <> j ->
  (adj g i j -> add_edge p g i j = Done (Err EdgeExists, g)) /\
  (~ adj g i j -> exists g', add_edge p g i j = Done (Ok tt, g') /\ simple_graph g' /\
     vertex_count g' = vertex_count g /\ edge_count g' = edge_count g + 1 /\
     forall x y, adj g' x y <-> adj g x y \/ (x = i /\ y = j) \/ (x = j /\ y = i)).
Proof.
  intros p g i j W Hi Hj N. split; intros H.
  - apply add_edge_present; auto.
  - destruct (add_edge_absent p W Hi Hj N H) as (g' & E & _).
    destruct (add_edge_ok W E) as (_ & W' & V' & C' & _ & A'). exists g'; splits; auto.
Qed.
Print Assumptions C03_add_edge_exact.

(** ** C04 *)

Theorem C04_remove_edge_exact {T A : Type} {C : AdjContainer T A} {L : AdjLaws C} :
  forall p (g : graph A) i j,
  simple_graph g -> i < vertex_count g -> j < vertex_count g -> i <> j ->
  (~ adj g i j -> remove_edge p g i j = Done (Err EdgeDoesNotExist, g)) /\
  (adj g i j -> exists g', remove_edge p g i j = Done (Ok tt, g') /\ simple_graph g' /\
     vertex_count g' = vertex_count g /\ edge_count g = edge_count g' + 1 /\
     forall x y, adj g' x y <-> adj g x y /\ ~ ((x = i /\ y = j) \/ (x = j /\ y = i))).
Proof.
  intros p g i j W Hi Hj N. split; intros H.
  - apply remove_edge_absent; auto.
  - destruct (remove_edge_present p W H) as (g' & E & _).
    destruct (remove_edge_ok W E) as (_ & W' & V' & C' & _ & A'). exists g'; splits; auto.
Qed.
Print Assumptions C04_remove_edge_exact.

(** ** C05 *)

Theorem C05_add_then_remove {T A : Type} {C : AdjContainer T A} {L : AdjLaws C} :
  forall p (g : graph A) i j g',
  simple_graph g -> add_edge p g i j = Done (Ok tt, g') ->
  remove_edge p g' i j = Done (Ok tt, g).
Proof. exact (@add_remove_cancel T A C L). Qed.
Print Assumptions C05_add_then_remove.

Theorem C05_remove_then_add {T A : Type} {C : AdjContainer T A} {L : AdjLaws C} :
  forall p (g : graph A) i j g',
  simple_graph g -> remove_edge p g i j = Done (Ok tt, g') ->
  exists g'', add_edge p g' i j = Done (Ok tt, g'') /\ simple_graph g'' /\
    vertex_count g'' = vertex_count g /\ edge_count g'' = edge_count g /\
    payloads g'' = payloads g /\ forall i, Permutation (nbrs g i) (nbrs g'' i).
Proof. exact (@remove_add_restores T A C L). Qed.
Print Assumptions C05_remove_then_add.

(** ** C06 *)

(** Debug builds: every bad pair of indices panics, whatever the graph. *)
Theorem C06_debug_panics {T A : Type} {C : AdjContainer T A} {L : AdjLaws C} :
  forall (g : graph A) i j,
  ~ (i < vertex_count g /\ j < vertex_count g /\ i <> j) ->
  add_edge Debug g i j = Panic /\ remove_edge Debug g i j = Panic.
Proof.
  intros g i j H. unfold add_edge, remove_edge. rewrite get_2_mut_bad_debug; auto.
Qed.
Print Assumptions C06_debug_panics.

(** Release builds: every bad pair is undefined behaviour. *)
Theorem C06_release_undefined {T A : Type} {C : AdjContainer T A} {L : AdjLaws C} :
  forall (g : graph A) i j, simple_graph g ->
  ~ (i < vertex_count g /\ j < vertex_count g /\ i <> j) ->
  add_edge Release g i j = UB /\ remove_edge Release g i j = UB.
Proof.
  intros g i j W H. unfold add_edge, remove_edge. rewrite get_2_mut_bad_release; auto.
Qed.
Print Assumptions C06_release_undefined.

(** ** C07 *)

Theorem C07_edits_keep_payloads {T A : Type} {C : AdjContainer T A} {L : AdjLaws C} :
  forall p (g g' : graph A),
  simple_graph g -> edit p g g' ->
  vertex_count g' = vertex_count g /\
  (payloads g' = payloads g \/
   exists i t, at_mut_set g i t = Done g' /\
     (forall k, k <> i -> nth_error (payloads g') k = nth_error (payloads g) k) /\
     nth_error (payloads g') i = Some t /\
     edge_count g' = edge_count g /\ forall k, nbrs g' k = nbrs g k).
Proof.
  intros p g g' W H.
  destruct H as [i j r g1 E|i j r g1 E| |g1 E|ps g1 Hp E|q i g1 Hq E|d r g1 E|i t g1 E].
  - destruct (add_edge_simple W E) as (? & ? & ?); auto.
  - destruct (remove_edge_simple W E) as (? & ? & ?); auto.
  - destruct (clear_edges_spec W) as (? & ? & ? & ? & ?); auto.
  - destruct (sort_adj_spec W) as (g2 & E2 & W2 & (V2 & _ & P2 & _) & _).
    rewrite E2 in E; injection E as <-; auto.
  - destruct (shuffle_adjs_spec W Hp) as (g2 & E2 & W2 & (V2 & _ & P2 & _)).
    rewrite E2 in E; injection E as <-; auto.
  - destruct (Nat.lt_ge_cases i (vertex_count g)) as [H|H].
    + destruct (shuffle_adj_spec W H Hq) as (g2 & E2 & W2 & (V2 & _ & P2 & _)).
      rewrite E2 in E; injection E as <-; auto.
    + rewrite shuffle_adj_out in E by auto. discriminate.
  - destruct (init_ring_simple W E) as (? & ? & ?); auto.
  - destruct (Nat.lt_ge_cases i (vertex_count g)) as [H|H].
    + destruct (at_mut_set_spec t W H) as (g2 & E2 & W2 & V2 & C2 & P2 & N2).
      rewrite E2 in E; injection E as <-. split; auto. right. exists i, t. splits; auto.
      * intros k Hk. rewrite P2. apply nth_error_upd_other; auto.
      * rewrite P2. apply nth_error_upd_same. rewrite payloads_length; auto.
    + rewrite at_mut_set_out in E by auto. discriminate.
Qed.
Print Assumptions C07_edits_keep_payloads.

(** Reading a payload gives the entry of [payloads], and panics out of range. *)
Theorem C07_at_reads_payload {T A : Type} {C : AdjContainer T A} {L : AdjLaws C} :
  forall (g : graph A) i, simple_graph g ->
  at_ g i = match nth_error (payloads g) i with Some t => Done t | None => Panic end /\
  get_contained g i = nth_error (payloads g) i /\
  length (payloads g) = vertex_count g.
Proof.
  intros g i W. splits.
  - apply at_spec; auto.
  - unfold get_contained, payloads. rewrite nth_error_map; auto.
  - apply payloads_length; auto.
Qed.
Print Assumptions C07_at_reads_payload.

(** ** C08 *)

Theorem C08_sort_adj {T A : Type} {C : AdjContainer T A} {L : AdjLaws C} :
  forall (g : graph A), simple_graph g ->
  exists g', sort_adj g = Done g' /\ simple_graph g' /\ same_topology g g' /\
             forall i, StronglySorted lt (nbrs g' i).
Proof. exact (@sort_adj_spec T A C L). Qed.
Print Assumptions C08_sort_adj.

Theorem C08_shuffle_adjs {T A : Type} {C : AdjContainer T A} {L : AdjLaws C} :
  forall (g : graph A) ps, simple_graph g ->
  (forall i, i < vertex_count g -> Permutation (ps i) (seq 0 (length (nbrs g i)))) ->
  exists g', shuffle_adjs g ps = Done g' /\ simple_graph g' /\ same_topology g g'.
Proof. exact (@shuffle_adjs_spec T A C L). Qed.
Print Assumptions C08_shuffle_adjs.

(** ** C10 *)

Theorem C10_init_ring {T A : Type} {C : AdjContainer T A} {L : AdjLaws C} :
  forall p (g : graph A) d, simple_graph g -> 2 * d < vertex_count g ->
  exists g', init_ring p g d = Done (Ok tt, g') /\ simple_graph g' /\
    vertex_count g' = vertex_count g /\ payloads g' = payloads g /\
    edge_count g' = vertex_count g * d /\
    (forall i j, adj g' i j <-> i < vertex_count g /\ j < vertex_count g /\
                               1 <= cyclic_distance (vertex_count g) i j <= d) /\
    (forall i, i < vertex_count g -> length (nbrs g' i) = 2 * d).
Proof. exact (@init_ring_ok T A C L). Qed.
Print Assumptions C10_init_ring.

Theorem C10_init_ring_too_small {T A : Type} {C : AdjContainer T A} {L : AdjLaws C} :
  forall p (g : graph A) d, simple_graph g ->
  (d < vertex_count g <= 2 * d -> exists g', init_ring p g d = Done (Err EdgeExists, g')) /\
  (1 <= vertex_count g <= d ->
     init_ring p g d = match p with Debug => Panic | Release => UB end).
Proof.
  intros p g d W. split; intros H.
  - apply init_ring_small; tauto.
  - apply init_ring_tiny; auto.
Qed.
Print Assumptions C10_init_ring_too_small.

(** ** C31 *)

Theorem C31_clone_topology {T A : Type} {C : AdjContainer T A} {L : AdjLaws C} :
  forall T2 (f : T -> T2) (g : graph A), simple_graph g ->
  let g' := clone_topology f g in
  simple_graph g' /\ vertex_count g' = vertex_count g /\ edge_count g' = edge_count g /\
  payloads g' = map f (payloads g) /\ forall i, nbrs g' i = nbrs g i.
Proof. exact (@clone_topology_spec T A C L). Qed.
Print Assumptions C31_clone_topology.

Theorem C31_graph_from {T A : Type} {C : AdjContainer T A} {L : AdjLaws C} :
  forall (g : graph A), simple_graph g ->
  let g' := graph_from g in
  simple_graph g' /\ vertex_count g' = vertex_count g /\ edge_count g' = edge_count g /\
  payloads g' = payloads g /\ forall i, nbrs g' i = nbrs g i.
Proof. exact (@graph_from_spec T A C L). Qed.
Print Assumptions C31_graph_from.

Theorem C31_from_vec {T A : Type} {C : AdjContainer T A} {L : AdjLaws C} :
  forall l : list T,
  let g := from_vec l in
  simple_graph g /\ vertex_count g = length l /\ edge_count g = 0 /\
  payloads g = l /\ forall i, nbrs g i = [].
Proof. exact (@from_vec_spec T A C L). Qed.
Print Assumptions C31_from_vec.

(** ** C32 *)

Theorem C32_degrees {T A : Type} {C : AdjContainer T A} {L : AdjLaws C} :
  forall (g : graph A), simple_graph g ->
  (forall i, degree g i = if i <? vertex_count g then Some (length (nbrs g i)) else None) /\
  degree_vec g = map (fun i => length (nbrs g i)) (seq 0 (vertex_count g)) /\
  leaf_count g = count (fun i => length (nbrs g i) =? 1) (seq 0 (vertex_count g)) /\
  average_degree g = (list_sum (degree_vec g), vertex_count g).
Proof.
  intros g W. splits.
  - intros; apply degree_spec; auto.
  - apply degree_vec_nbrs; auto.
  - apply leaf_count_spec; auto.
  - unfold average_degree. rewrite degree_sum; auto.
Qed.
Print Assumptions C32_degrees.

Theorem C32_degree_histogram {T A : Type} {C : AdjContainer T A} {L : AdjLaws C} :
  forall (g : graph A), simple_graph g ->
  (vertex_count g = 0 -> degree_histogram g = Panic) /\
  (vertex_count g <> 0 ->
   exists lo h, degree_histogram g = Done (lo, h) /\ h <> [] /\
    (exists i, i < vertex_count g /\ length (nbrs g i) = lo) /\
    (exists i, i < vertex_count g /\ length (nbrs g i) = lo + length h - 1) /\
    (forall i, i < vertex_count g -> lo <= length (nbrs g i) < lo + length h) /\
    (forall d, lo <= d < lo + length h ->
       nth_error h (d - lo) =
       Some (count (fun i => length (nbrs g i) =? d) (seq 0 (vertex_count g))))).
Proof.
  intros g W. split; intros H.
  - apply degree_histogram_empty; auto.
  - apply degree_histogram_spec; auto.
Qed.
Print Assumptions C32_degree_histogram.


(** ** The four containers *)

(** The generic theorems apply to the containers of [Graph], [SwGraph],
    [WSGraph] and [SpacialGraph]. *)
Theorem C01_four_containers : forall p T P,
  (forall g : graph (node_container T), history p g -> simple_graph g) /\
  (forall g : graph (sw_container T), history p g -> simple_graph g) /\
  (forall g : graph (ws_container T), history p g -> simple_graph g) /\
  (forall g : graph (spacial_container P T), history p g -> simple_graph g).
Proof. intros; splits; apply history_simple. Qed.
Print Assumptions C01_four_containers.

(** The laws which the generic theorems of this development ask of a container hold of
    those four. *)
Theorem C01_containers_lawful : forall T P,
  inhabited (AdjLaws (NodeContainer T)) /\ inhabited (AdjLaws (SwContainer T)) /\
  inhabited (AdjLaws (WSContainer T)) /\ inhabited (AdjLaws (SpacialContainer P T)).
Proof. intros T P. splits; constructor; typeclasses eauto. Qed.
Print Assumptions C01_containers_lawful.

(** A history on a small-world container: two edges added, lists sorted, one
    edge removed. *)
Definition c01_g0 : graph (sw_container nat) := graph_new (fun i => i) 3.
Definition c01_g1 := Eval vm_compute in
  match add_edge Debug c01_g0 1 2 with Done (_, g) => g | _ => c01_g0 end.
Definition c01_g2 := Eval vm_compute in
  match add_edge Debug c01_g1 0 2 with Done (_, g) => g | _ => c01_g0 end.
Definition c01_g3 := Eval vm_compute in
  match sort_adj c01_g2 with Done g => g | _ => c01_g0 end.
Definition c01_g4 := Eval vm_compute in
  match remove_edge Debug c01_g3 2 0 with Done (_, g) => g | _ => c01_g0 end.
Example C01_example :
  history Debug c01_g4 /\ edge_count c01_g4 = 1 /\ map (nbrs c01_g4) [0; 1; 2] = [[]; [2]; [1]].
Proof.
  split; [|vm_compute; auto].
  apply (history_edit (g := c01_g3)); [|apply (edit_remove (i := 2) (j := 0) (r := Ok tt)); vm_compute; reflexivity].
  apply (history_edit (g := c01_g2)); [|apply edit_sort; vm_compute; reflexivity].
  apply (history_edit (g := c01_g1)); [|apply (edit_add (i := 0) (j := 2) (r := Ok tt)); vm_compute; reflexivity].
  apply (history_edit (g := c01_g0)); [|apply (edit_add (i := 1) (j := 2) (r := Ok tt)); vm_compute; reflexivity].
  apply history_new.
Qed.

Example C02_example : edge_count ex_graph = 4 /\ number_of_edges ex_graph = 4 /\
  list_sum (degree_vec ex_graph) = 8.
Proof. vm_compute. auto. Qed.

Example C03_example :
  (exists g', add_edge Debug ex_graph 3 4 = Done (Ok tt, g') /\
              map (nbrs g') [2; 3; 4] = [[1; 0; 3]; [2; 4]; [3]]) /\
  add_edge Release ex_graph 0 2 = Done (Err EdgeExists, ex_graph).
Proof. split; [eexists; split|]; (vm_compute; reflexivity). Qed.

Example C04_example :
  (exists g', remove_edge Debug ex_graph 2 1 = Done (Ok tt, g') /\
              map (nbrs g') [0; 1; 2] = [[1; 2]; [0]; [3; 0]]) /\
  remove_edge Release ex_graph 0 3 = Done (Err EdgeDoesNotExist, ex_graph).
Proof. split; [eexists; split|]; (vm_compute; reflexivity). Qed.

Example C05_example : exists g' g'',
  add_edge Debug ex_graph 4 1 = Done (Ok tt, g') /\
  remove_edge Debug g' 4 1 = Done (Ok tt, ex_graph) /\
  remove_edge Debug ex_graph 2 1 = Done (Ok tt, g'') /\
  exists g3, add_edge Debug g'' 2 1 = Done (Ok tt, g3) /\ nbrs g3 2 = [3; 0; 1].
Proof. do 2 eexists. splits; try (eexists; split); (vm_compute; reflexivity). Qed.

(** The documentation of [add_edge] promises a panic for bad indices; with the
    assertions compiled out there is none. *)
Theorem C06_release_panics_refuted :
  exists (g : graph (node_container nat)) i j,
    simple_graph g /\ ~ (i < vertex_count g /\ j < vertex_count g /\ i <> j) /\
    add_edge Release g i j <> Panic /\ remove_edge Release g i j <> Panic.
Proof.
  exists ex_graph, 0, 7. split; [exact ex_graph_simple|]. split; [simpl; lia|].
  split; vm_compute; discriminate.
Qed.
Print Assumptions C06_release_panics_refuted.

Example C06_example : add_edge Debug ex_graph 0 7 = Panic /\ add_edge Debug ex_graph 2 2 = Panic.
Proof. vm_compute. auto. Qed.

Example C07_example : exists g' g'',
  add_edge Debug ex_graph 3 4 = Done (Ok tt, g') /\ payloads g' = [0; 10; 20; 30; 40] /\
  at_mut_set ex_graph 2 7 = Done g'' /\ payloads g'' = [0; 10; 7; 30; 40] /\
  map (nbrs g'') (seq 0 5) = map (nbrs ex_graph) (seq 0 5).
Proof. do 2 eexists. splits; (vm_compute; reflexivity). Qed.

Example C08_example : exists g' g'',
  sort_adj ex_graph = Done g' /\ nbrs g' 2 = [0; 1; 3] /\
  shuffle_adjs ex_graph (fun i => rev (seq 0 (length (nbrs ex_graph i)))) = Done g'' /\
  nbrs g'' 2 = [3; 0; 1].
Proof. do 2 eexists. splits; (vm_compute; reflexivity). Qed.

(** ** C09 *)

Theorem C09_complete_graph : forall T p (mk : nat -> T) n, 1 <= n ->
  exists g, complete_graph p mk n = Done g /\ simple_graph g /\
    vertex_count g = n /\ edge_count g = Nat.div (n * (n - 1)) 2 /\
    2 * edge_count g = n * (n - 1) /\ payloads g = map mk (seq 0 n) /\
    (forall i j, adj g i j <-> i < n /\ j < n /\ i <> j).
Proof.
  intros T p mk n Hn.
  destruct (complete_spec mk (half_square n)) as (W & P & A).
  exists (mk_graph n (Nat.div (n * (n - 1)) 2) (complete_vertices mk n)).
  splits; auto.
  - unfold complete_graph. destruct n; [lia|]. destruct p; reflexivity.
  - apply half_square.
Qed.
Print Assumptions C09_complete_graph.

Theorem C09_complete_graph_empty : forall T (mk : nat -> T),
  complete_graph Debug mk 0 = Panic /\ complete_graph Release mk 0 = Done (mk_graph 0 0 []).
Proof. intros; split; reflexivity. Qed.
Print Assumptions C09_complete_graph_empty.

Example C09_example : exists g, complete_graph Debug (fun i => i) 4 = Done g /\
  edge_count g = 6 /\ nbrs g 2 = [0; 1; 3].
Proof. eexists. splits; (vm_compute; reflexivity). Qed.

Example C10_example :
  (exists g', init_ring Debug ex_graph 2 = Done (Ok tt, g') /\ nbrs g' 0 = [1; 2; 3; 4] /\
              edge_count g' = 10) /\
  (exists g', init_ring Debug (graph_new (A := node_container nat) (fun i => i) 4) 2
              = Done (Err EdgeExists, g')) /\
  init_ring Debug (graph_new (A := node_container nat) (fun i => i) 2) 2 = Panic.
Proof. splits; try (eexists; splits); (vm_compute; reflexivity). Qed.

Theorem C31_from_iter : forall T (l : list T),
  let g := from_iter l in
  simple_graph g /\ vertex_count g = length l /\ edge_count g = 0 /\
  payloads g = l /\ forall i, nbrs g i = [].
Proof. exact (@from_iter_spec). Qed.
Print Assumptions C31_from_iter.

Theorem C31_reset_from_graph : forall T (g o : graph (node_container T)),
  simple_graph g -> simple_graph o ->
  (vertex_count o <= vertex_count g ->
   exists g', reset_from_graph g o = Done g' /\ simple_graph g' /\
    vertex_count g' = vertex_count g /\ edge_count g' = edge_count o /\
    payloads g' = payloads g /\ forall i, nbrs g' i = nbrs o i) /\
  (vertex_count g < vertex_count o -> reset_from_graph g o = Panic).
Proof.
  intros T g o W Wo. split; intros H.
  - apply reset_from_graph_spec; auto.
  - unfold reset_from_graph. apply Nat.leb_gt in H. rewrite H. auto.
Qed.
Print Assumptions C31_reset_from_graph.

Example C31_example :
  map (nbrs (clone_topology (fun x => x + 1) ex_graph)) (seq 0 5)
    = [[1; 2]; [0; 2]; [1; 0; 3]; [2]; []] /\
  payloads (clone_topology (fun x => x + 1) ex_graph) = [1; 11; 21; 31; 41] /\
  exists g', reset_from_graph (graph_new (fun i => i) 6) ex_graph = Done g' /\
    edge_count g' = 4 /\ map (nbrs g') (seq 0 6) = [[1; 2]; [0; 2]; [1; 0; 3]; [2]; []; []].
Proof. splits; try (eexists; splits); (vm_compute; reflexivity). Qed.

Example C32_example : degree ex_graph 2 = Some 3 /\ degree ex_graph 5 = None /\
  leaf_count ex_graph = 1 /\ degree_histogram ex_graph = Done (0, [1; 1; 2; 1]) /\
  average_degree ex_graph = (8, 5).
Proof. vm_compute. auto 10. Qed.
