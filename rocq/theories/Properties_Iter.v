(** Theorems about the iterators. *)
From Verif Require Import Base BaseFacts Containers ContainerSpec ContainerFacts Graph GraphSpec GraphFacts GraphOps TraversalFacts DualFacts Iter IterSpec IterFacts.

Global Instance nc_neighbors_law T : NeighborLaws (NodeContainer T) nc_neighbors_iter.
Proof. intros c. reflexivity. Qed.
Global Instance sc_neighbors_law T : NeighborLaws (SwContainer T) sc_neighbors_iter.
Proof. intros c. reflexivity. Qed.
Global Instance wc_neighbors_law T : NeighborLaws (WSContainer T) wc_neighbors_iter.
Proof. intros c. reflexivity. Qed.
Global Instance spc_neighbors_law P T : NeighborLaws (SpacialContainer P T) spc_neighbors_iter.
Proof. intros c. reflexivity. Qed.

(** ** C59 *)

(** [SwEdgeIterNeighbors] on any list of edges. *)
Theorem C59_sw : forall l, behaves_as sw_iter l (map se_to l).
Proof. intros l. exact (lawful_behaves sw_lawful eq_refl). Qed.
Print Assumptions C59_sw.

(** [neighbors] of every container. *)
Theorem C59_neighbors {T A : Type} {C : AdjContainer T A} {NI : NeighborIter A} {NL : NeighborLaws C NI} :
  forall c : A, behaves_as wrapper_iter (neighbors c) (ac_neighbors c).
Proof. intros c. rewrite <- neighbors_law. exact (lawful_behaves wrapper_lawful eq_refl). Qed.
Print Assumptions C59_neighbors.

(** [fold], [collect], [reduce] and [into_vec] of [IterWrapper]. *)
Theorem C59_consume : forall w,
  (forall B (f : B -> nat -> B) b, wrapper_fold f b w = Done (fold_left f (wrapper_items w) b)) /\
  wrapper_collect w = Done (wrapper_items w) /\ wrapper_into_vec w = Done (wrapper_items w) /\
  (forall f, wrapper_reduce f w =
     Done (match wrapper_items w with [] => None | x :: t => Some (fold_left f t x) end)).
Proof.
  intros [l|l]; simpl wrapper_items.
  - split; [|split; [|split]]; auto. intros f. destruct l; auto.
  - unfold wrapper_collect, wrapper_into_vec. split; [|split; [|split]].
    + intros B f b. apply sw_fold.
    + rewrite sw_fold, fold_snoc. auto.
    + rewrite sw_fold, fold_snoc. auto.
    + intros f. apply (std_reduce_sim f (lawful_next sw_lawful) eq_refl). rewrite map_length. auto.
Qed.
Print Assumptions C59_consume.

(** [contained_iter]. *)
Theorem C59_contained_iter {T A : Type} {C : AdjContainer T A} : forall g : graph A,
  behaves_as contained_iter_ops (contained_iter g) (payloads g).
Proof.
  intros g. apply (@lawful_behaves _ _ (fun s l => l = map ac_contained s)); [|reflexivity].
  apply mapped_lawful; auto.
Qed.
Print Assumptions C59_contained_iter.

(** [container_iter_neighbors], [contained_iter_neighbors] and
    [contained_iter_neighbors_with_index]. *)
Theorem C59_neighbor_iters {T A : Type} {C : AdjContainer T A} {L : AdjLaws C}
  {NI : NeighborIter A} {NL : NeighborLaws C NI} : forall (g : graph A) i,
  simple_graph g -> i < vertex_count g ->
  exists s cs ts, iter_neighbors g i = Done s /\
    Forall2 (fun v c => nth_error (vertices g) v = Some c) (nbrs g i) cs /\
    Forall2 (fun v t => nth_error (payloads g) v = Some t) (nbrs g i) ts /\
    behaves_as (n_container_iter wrapper_iter) s cs /\
    behaves_as (n_contained_iter wrapper_iter) s ts /\
    behaves_as ni_contained_iter s (combine (nbrs g i) ts).
Proof.
  intros g i W Hi. destruct (iter_neighbors_lt W Hi) as (w & E & Hw & _).
  assert (F : exists cs, Forall2 (fun v c => nth_error (vertices g) v = Some c) (nbrs g i) cs).
  { assert (K : forall v, In v (nbrs g i) -> v < vertex_count g).
    { intros v H. apply (sg_range W i v). exact H. }
    revert K. generalize (nbrs g i). induction l as [|v l IH]; intros K; [exists []; constructor|].
    destruct IH as (cs & F); [intros; apply K; simpl; auto|].
    destruct (container_lt W (K v (or_introl eq_refl))) as (c & Ec & _). exists (c :: cs). constructor; auto. }
  destruct F as (cs & F). exists (vertices g, w), cs, (map ac_contained cs).
  assert (F2 : Forall2 (fun v t => nth_error (payloads g) v = Some t) (nbrs g i) (map ac_contained cs)).
  { clear - F. induction F as [|v c l cs H F IH]; simpl; constructor; auto.
    unfold payloads. rewrite nth_error_map, H. auto. }
  split; auto. split; auto. split; auto. split; [|split].
  - eapply lawful_behaves; [apply (@lookup_lawful _ _ _ _ _ _ _ (vertices g) wrapper_lawful)|].
    split; auto. exists (nbrs g i). split; auto.
    clear - F. induction F as [|v c l cs H F IH]; constructor; auto. unfold vget. rewrite H. auto.
  - eapply lawful_behaves; [apply (@lookup_lawful _ _ _ _ _ _ _ (vertices g) wrapper_lawful)|].
    split; auto. exists (nbrs g i). split; auto.
    clear - F. induction F as [|v c l cs H F IH]; simpl; constructor; auto.
    unfold contained_at, vget. rewrite H. auto.
  - eapply lawful_behaves; [apply (@lookup_lawful _ _ _ _ _ _ _ (vertices g) wrapper_lawful)|].
    split; auto. exists (nbrs g i). split; auto.
    clear - F. induction F as [|v c l cs H F IH]; simpl; constructor; auto.
    unfold contained_at, vget. rewrite H. auto.
Qed.
Print Assumptions C59_neighbor_iters.

(** There is no vertex [i]: a panic before an iterator exists. *)
Theorem C59_out_of_range {T A : Type} {C : AdjContainer T A} {L : AdjLaws C} {NI : NeighborIter A} :
  forall (g : graph A) i, simple_graph g -> vertex_count g <= i ->
  iter_neighbors g i = Panic /\ iter_neighbors_mut g i = Panic.
Proof.
  intros g i W H. unfold iter_neighbors, iter_neighbors_mut. rewrite <- (sg_len W) in H.
  destruct (Nat.ltb_spec i (length (vertices g))); [lia|]. split; auto.
  apply nth_error_None in H. unfold vget. rewrite H. auto.
Qed.
Print Assumptions C59_out_of_range.

(** [NContainedIter2], which only goes forward: its items are the payloads in order, and
    [count] is their number. *)
Theorem C59_other_graph {T A : Type} {C : AdjContainer T A} : forall (g : graph A) l,
  (forall v, In v l -> v < length (vertices g)) ->
  exists ts, drain (nci2_next (vertices g)) (S (length l)) l = Done ts /\
    Forall2 (fun v t => nth_error (payloads g) v = Some t) l ts /\ nci2_count l = length ts.
Proof.
  intros g l. induction l as [|v l IH]; intros H.
  - exists []. split; auto.
  - destruct IH as (ts & E & F & N); [intros; apply H; simpl; auto|].
    destruct (nth_error (vertices g) v) as [c|] eqn:Ec.
    2:{ apply nth_error_None in Ec. specialize (H v (or_introl eq_refl)). lia. }
    exists (ac_contained c :: ts). split; [|split].
    + cbn [length]. remember (S (length l)) as n. simpl. unfold nci2_next at 1. simpl.
      rewrite (vget_done _ _ Ec). simpl. rewrite E. auto.
    + constructor; auto. unfold payloads. rewrite nth_error_map, Ec. auto.
    + unfold nci2_count in *. simpl. auto.
Qed.
Print Assumptions C59_other_graph.

(** Vertex 1 of the path 0 - 1 - 2 - 3 with a chord 1 - 3; the payloads are ten times the
    indices. *)
Definition iter_example : graph (sw_container nat) :=
  match add_edges_try Debug (graph_new (fun i => 10 * i) 4) [(0, 1); (1, 2); (2, 3); (3, 1)] with
  | Done (_, g) => g
  | _ => graph_new (fun i => i) 0
  end.

Example C59_example :
  simple_graph iter_example /\ 1 < vertex_count iter_example /\ nbrs iter_example 1 = [0; 2; 3] /\
  (do s <- iter_neighbors iter_example 1;
   do ' (r, _) <- iter_calls (n_contained_iter wrapper_iter)
     [Len; NextBack; Next; SizeHint; Any (fun t => t =? 20); Next] s; Done r) =
  Done [Number 3; Item (Some 30); Item (Some 0); Bounds 1 (Some 1); Seen [20] true; Item None].
Proof.
  split; [|split; [|split]]; try (vm_compute; auto; fail).
  assert (E : add_edges_try Debug (graph_new (A := sw_container nat) (fun i => 10 * i) 4)
                [(0, 1); (1, 2); (2, 3); (3, 1)] = Done (Ok tt, iter_example)) by (vm_compute; reflexivity).
  exact (proj1 (add_edges_simple (proj1 (graph_new_spec (A := sw_container nat) (fun i => 10 * i) 4)) E)).
Qed.

(** ** C73 *)

(** [contained_iter_neighbors_mut]: for every client, which calls the iterator and writes
    through the references it holds, in any order.  There is no panic and no undefined
    behaviour; the answers are those of the list of neighbours; the references that are
    alive point to different vertices, none of them vertex [i], whose adjacency list is
    borrowed; only payloads of these vertices change. *)
Theorem C73_neighbors_mut {T A : Type} {C : AdjContainer T A} {L : AdjLaws C}
  {NI : NeighborIter A} {NL : NeighborLaws C NI} : forall p (g : graph A) i prog,
  simple_graph g -> i < vertex_count g ->
  exists s g' answers refs, iter_neighbors_mut g i = Done s /\
    client (n_contained_iter_mut p wrapper_iter) (fun r => r) prog g s [] = Done (answers, refs, g') /\
    answers = fst (list_calls (calls_of prog) (nbrs g i)) /\ refs = flat_map given answers /\
    NoDup refs /\ incl refs (nbrs g i) /\ ~ In i refs /\
    simple_graph g' /\ vertex_count g' = vertex_count g /\ edge_count g' = edge_count g /\
    (forall v, nbrs g' v = nbrs g v) /\
    (forall v, ~ In v refs -> nth_error (payloads g') v = nth_error (payloads g) v).
Proof.
  intros p g i prog W Hi. destruct (iter_neighbors_lt W Hi) as (w & _ & Hw & E).
  assert (K : forall v, In v (nbrs g i) -> v < vertex_count g) by (intros v H; apply (sg_range W i v H)).
  exists (vertex_count g, w).
  destruct (@client_spec T A C L _ _ _ _ (fun r => r)
    (@lookup_lawful _ _ _ _ _ (raw_place p) asserted_place (vertex_count g) wrapper_lawful)
    prog g (vertex_count g, w) (nbrs g i) [] W (places_looked p Hw K) K) as (g' & Ec & W' & V & Ce & N & P).
  { intros x []. }
  destruct (list_calls_given (calls_of prog) (sg_nodup W i)) as (Nd & In_).
  exists g'. eexists. eexists. split; [exact E|]. split; [exact Ec|].
  split; auto. simpl. split; auto. split; auto. split; auto. split.
  { intros H. apply In_ in H. apply (sg_irrefl W _ H). }
  split; auto. split; auto. split; auto. split; auto.
  intros v Hv. apply P. rewrite map_id. auto.
Qed.
Print Assumptions C73_neighbors_mut.

(** [contained_iter_neighbors_mut_with_index]: also, each reference comes with the index
    of its vertex. *)
Theorem C73_neighbors_mut_with_index {T A : Type} {C : AdjContainer T A} {L : AdjLaws C}
  {NI : NeighborIter A} {NL : NeighborLaws C NI} : forall (g : graph A) i prog,
  simple_graph g -> i < vertex_count g ->
  exists s g' answers refs, iter_neighbors_mut g i = Done s /\
    client in_contained_iter_mut snd prog g s [] = Done (answers, refs, g') /\
    answers = fst (list_calls (calls_of prog) (map (fun v => (v, v)) (nbrs g i))) /\
    refs = flat_map given answers /\
    NoDup (map snd refs) /\ (forall x, In x refs -> fst x = snd x /\ In (snd x) (nbrs g i) /\ snd x <> i) /\
    simple_graph g' /\ vertex_count g' = vertex_count g /\ edge_count g' = edge_count g /\
    (forall v, nbrs g' v = nbrs g v) /\
    (forall v, ~ In v (map snd refs) -> nth_error (payloads g') v = nth_error (payloads g) v).
Proof.
  intros g i prog W Hi. destruct (iter_neighbors_lt W Hi) as (w & _ & Hw & E).
  assert (K : forall v, In v (nbrs g i) -> v < vertex_count g) by (intros v H; apply (sg_range W i v H)).
  exists (vertex_count g, w).
  assert (Nm : NoDup (map snd (map (fun v => (v, v)) (nbrs g i)))).
  { rewrite map_map, map_id. apply (sg_nodup W i). }
  destruct (@client_spec T A C L _ _ _ _ snd
    (@lookup_lawful _ _ _ _ _ (fun len i => do r <- asserted_place len i; Done (i, r))
       (fun len i => do r <- asserted_place len i; Done (i, r)) (vertex_count g) wrapper_lawful)
    prog g (vertex_count g, w) (map (fun v => (v, v)) (nbrs g i)) [] W (index_places_looked Hw K))
    as (g' & Ec & W' & V & Ce & N & P).
  { intros x H. apply in_map_iff in H. destruct H as (v & <- & H). apply K; auto. }
  { intros x []. }
  destruct (list_calls_given (calls_of prog) (NoDup_map_inv _ _ Nm)) as (Nd & In_).
  exists g'. eexists. eexists. split; [exact E|]. split; [exact Ec|].
  split; auto. simpl. split; auto. split; [exact (NoDup_map_incl Nm In_ Nd)|]. split.
  { intros x H. apply In_ in H. apply in_map_iff in H. destruct H as (v & <- & H). simpl.
    split; auto. split; auto. intros ->. apply (sg_irrefl W _ H). }
  split; auto.
Qed.
Print Assumptions C73_neighbors_mut_with_index.

(** [contained_iter_mut]: the same for the references to all payloads. *)
Theorem C73_contained_iter_mut {T A : Type} {C : AdjContainer T A} {L : AdjLaws C} :
  forall (g : graph A) prog, simple_graph g ->
  exists g' answers refs,
    client contained_iter_mut_ops (fun r => r) prog g (contained_iter_mut g) [] = Done (answers, refs, g') /\
    answers = fst (list_calls (calls_of prog) (seq 0 (vertex_count g))) /\ refs = flat_map given answers /\
    NoDup refs /\
    simple_graph g' /\ vertex_count g' = vertex_count g /\ edge_count g' = edge_count g /\
    (forall v, nbrs g' v = nbrs g v) /\
    (forall v, ~ In v refs -> nth_error (payloads g') v = nth_error (payloads g) v).
Proof.
  intros g prog W. unfold contained_iter_mut. rewrite (sg_len W).
  assert (HI : lawful (fun l m : list nat => l = m) contained_iter_mut_ops).
  { pose proof (@slice_lawful nat) as G. apply lawful_std.
    - exact (lawful_next G).
    - intros n. exact (lawful_nth n G).
    - exact (lawful_next_back G).
    - intros n. exact (lawful_nth_back n G).
    - intros s l f ->. apply (@std_all_sim _ _ (fun l m => l = m)); auto. exact (lawful_next G).
    - intros s l f ->. apply (@std_any_sim _ _ (fun l m => l = m)); auto. exact (lawful_next G).
    - intros s l ->. auto.
    - intros s l ->. auto. }
  destruct (@client_spec T A C L _ _ _ _ (fun r => r) HI prog g _ (seq 0 (vertex_count g)) [] W eq_refl) as (g' & Ec & W' & V & Ce & N & P).
  { intros x H. apply in_seq in H. lia. }
  { intros x []. }
  destruct (list_calls_given (calls_of prog) (seq_NoDup (vertex_count g) 0)) as (Nd & In_).
  exists g'. eexists. eexists. split; [exact Ec|]. split; auto. simpl. split; auto. split; auto.
  split; auto. split; auto. split; auto. split; auto.
  intros v Hv. apply P. rewrite map_id. auto.
Qed.
Print Assumptions C73_contained_iter_mut.

(** One more write through a reference that is alive stores the value in the vertex it
    refers to, and does nothing else. *)
Theorem C73_write {T A : Type} {C : AdjContainer T A} {L : AdjLaws C} :
  forall (S X : Type) (I : iter S X) ref prog (g : graph A) s answers refs g' k x t,
  client I ref prog g s [] = Done (answers, refs, g') ->
  nth_error refs k = Some x -> simple_graph g' -> ref x < vertex_count g' ->
  exists g2, client I ref (prog ++ [Write k t]) g s [] = Done (answers, refs, g2) /\
    nth_error (payloads g2) (ref x) = Some t /\
    (forall v, v <> ref x -> nth_error (payloads g2) v = nth_error (payloads g') v) /\
    (forall v, nbrs g2 v = nbrs g' v) /\ edge_count g2 = edge_count g'.
Proof.
  intros S X I ref prog g s answers refs g' k x t E Hx W Hr.
  destruct (at_mut_set_spec t W Hr) as (g2 & E2 & W2 & V2 & C2 & P2 & N2).
  exists g2. rewrite (client_snoc t E Hx), E2. simpl. split; auto. rewrite P2.
  split. { apply nth_error_upd_same. rewrite payloads_length; auto. }
  split; auto. intros v Hv. apply nth_error_upd_other. auto.
Qed.
Print Assumptions C73_write.

(** Three references are held at once and written in another order. *)
Example C73_example :
  (do s <- iter_neighbors_mut iter_example 1;
   do ' (r, refs, g) <- client (n_contained_iter_mut Release wrapper_iter) (fun r => r)
     [Call NextBack; Call Next; Write 0 7; Call (Nth 0); Write 2 8; Write 1 9; Call Len] iter_example s [];
   Done (r, refs, payloads g)) =
  Done ([Item (Some 3); Item (Some 0); Item (Some 2); Number 0], [3; 0; 2], [9; 10; 8; 7]).
Proof. vm_compute. reflexivity. Qed.
