(** Theorems about the documented running times. *)
From Verif Require Import Base BaseFacts Containers ContainerSpec ContainerFacts Graph GraphSpec GraphFacts.
From Verif Require Import GraphOps GraphBuild Rng ErC Spacial Sw SwSpec SwFacts SwConnect Load.
From Verif Require Import Cost CostFacts CostLoad CostSw CostHub.
From Coq Require Import QArith.
Local Open Scope nat_scope.

(** ** C104 *)

(** Counting the steps changes no result. *)
Theorem C104_same_results {T A : Type} {C : AdjContainer T A} {L : AdjLaws C} :
  (forall g : graph A, fst (clear_edges_c g) = Done (clear_edges g)) /\
  (forall (g : graph A) inc, fst (vertex_load_c g inc) = vertex_load g inc) /\
  (forall (e : er_c T) rs, fst (erc_randomize_c e rs) = erc_randomize e rs) /\
  (forall (e : spacial T) rs, fst (sp_randomize_c e rs) = sp_randomize e rs) /\
  (forall p (e : sw_ensemble T) rs, fst (sw_randomize_c p e rs) = sw_randomize p e rs).
Proof.
  split; [apply clear_edges_same|]. split; [intros; apply vertex_load_same|].
  split; [intros; apply erc_randomize_same|]. split; [intros; apply sp_randomize_same|].
  intros; apply sw_randomize_same.
Qed.
Print Assumptions C104_same_results.

(** [clear_edges]: constant if there is no edge, otherwise linear in the vertices, whatever
    the number of edges. *)
Theorem C104_clear_edges {T A : Type} {C : AdjContainer T A} {L : AdjLaws C} :
  forall g : graph A, simple_graph g ->
  (number_of_edges g = 0 -> snd (clear_edges_c g) = 1) /\
  vertex_count g <= snd (clear_edges_c g) + (if number_of_edges g =? 0 then vertex_count g else 0) /\
  snd (clear_edges_c g) <= 2 * vertex_count g + 3.
Proof.
  intros g W. rewrite <- (sg_count W). split; [|split].
  - intros E. unfold clear_edges_c. rewrite E. reflexivity.
  - destruct (Nat.eqb_spec (edge_count g) 0) as [E|N]; [lia|].
    unfold clear_edges_c. destruct (Nat.eqb_spec (edge_count g) 0); [lia|]. rewrite snd_cbind.
    pose proof (@clear_fold T A C (vertices g) []) as E.
    pose proof (fold_cost_least E) as H. rewrite (sg_len W) in H. lia.
  - rewrite <- (sg_len W). apply clear_edges_cost.
Qed.
Print Assumptions C104_clear_edges.

(** [randomize] of [ErEnsembleC] and of [SpacialEnsemble]: quadratic in the vertices, from
    above whatever the edges and draws, and from below whenever it returns. *)
Theorem C104_pair_ensembles {T : Type} :
  (forall (e : er_c T) rs, simple_graph (erc_graph e) -> let n := vertex_count (erc_graph e) in
    snd (erc_randomize_c e rs) <= 8 * (n * n) + 8 /\
    forall r, erc_randomize e rs = Done r -> n * (n - 1) <= 2 * snd (erc_randomize_c e rs)) /\
  (forall (e : spacial T) rs, simple_graph (sp_graph e) -> let n := vertex_count (sp_graph e) in
    snd (sp_randomize_c e rs) <= 8 * (n * n) + 8 /\
    forall r, sp_randomize e rs = Done r -> n * (n - 1) <= 2 * snd (sp_randomize_c e rs)).
Proof.
  split; intros e rs W n; (split; [|intros r E]).
  - apply erc_randomize_cost; auto.
  - eapply erc_randomize_least; eauto.
  - apply sp_randomize_cost; auto.
  - eapply sp_randomize_least; eauto.
Qed.
Print Assumptions C104_pair_ensembles.

(** [vertex_load]: vertices times the sum of vertices and edges, both from above and, for the
    vertices, from below.  If no vertex is isolated this is the documented product. *)
Theorem C104_vertex_load {T A : Type} {C : AdjContainer T A} {L : AdjLaws C} :
  forall (g : graph A) inc, simple_graph g ->
  let n := vertex_count g in let m := number_of_edges g in
  snd (vertex_load_c g inc) <= 27 * (n * (n + m)) + 1 /\
  4 * ((n - 1) * n) <= snd (vertex_load_c g inc) /\
  ((forall i, i < n -> exists j, adj g i j) -> snd (vertex_load_c g inc) <= 81 * (m * n) + 1).
Proof.
  intros g inc W n m. unfold m. rewrite <- (sg_count W). pose proof (vertex_load_cost inc W) as H.
  fold n in H. split; [auto|]. split; [apply vertex_load_least; auto|].
  intros J. assert (D : n <= 2 * edge_count g).
  { rewrite <- (degree_sum W), degree_vec_nbrs by auto. fold n.
    assert (K : forall l, (forall i, In i l -> i < n) ->
      length l <= list_sum (map (fun i => length (nbrs g i)) l)).
    { induction l as [|i l IH]; intros F; cbn; [lia|].
      assert (length l <= list_sum (map (fun i => length (nbrs g i)) l)) as X by (apply IH; intros; apply F; simpl; auto).
      destruct (J i) as [j Aj]; [apply F; simpl; auto|]. unfold adj in Aj.
      destruct (nbrs g i); [destruct Aj|]. cbn. unfold list_sum in X. lia. }
    specialize (K (seq 0 n)). rewrite seq_length in K. apply K. intros i Hi. apply in_seq in Hi. lia. }
  nia.
Qed.
Print Assumptions C104_vertex_load.

(** The documentation gives "O(edges * vertices)" for [vertex_load].  A graph without edges
    takes quadratic time. *)
Theorem C104_vertex_load_refuted : exists (T A : Type) (C : AdjContainer T A) (L : AdjLaws C),
  forall K inc, exists g : graph A, simple_graph g /\
    let n := vertex_count g in let m := number_of_edges g in
    K * (m * n + n + 1) < snd (vertex_load_c g inc).
Proof.
  exists nat, (node_container nat), _, _. intros K inc.
  destruct (@graph_new_spec nat (node_container nat) _ _ (fun i => i) (K + 3)) as (W & V & E & _).
  exists (graph_new (fun i => i) (K + 3)). split; auto. cbv zeta. rewrite <- (sg_count W), E, V.
  pose proof (vertex_load_least inc W) as H. rewrite V in H. nia.
Qed.
Print Assumptions C104_vertex_load_refuted.

(** [randomize] of [SwEnsemble]: at most quadratic for every ensemble that can be reached. *)
Theorem C104_small_world {T : Type} : forall p n (e : sw_ensemble T) rs,
  5 <= n -> sw_history p n e ->
  n <= snd (sw_randomize_c p e rs) + (if length rs <? 4 * n then n else 0) /\
  snd (sw_randomize_c p e rs) <= 33 * (n * n) + 1.
Proof.
  intros p n e rs Hn H. pose proof (sw_history_inv Hn H) as I. split; [|apply sw_randomize_cost; auto].
  destruct (Nat.ltb_spec (length rs) (4 * n)); [lia|].
  pose proof (@SwChain.randomize_spec T p n 2 e rs I (le_n 2) (or_intror eq_refl)) as S.
  rewrite <- sw_randomize_same in S. unfold sw_randomize_c in *. rewrite (proj1 (proj2 I)) in *.
  destruct (fst (cfoldM _ _ _)) as [s| | |] eqn:E; try tauto; [|lia].
  pose proof (fold_cost_least E) as F. rewrite seq_length in F. lia.
Qed.
Print Assumptions C104_small_world.

(** The documentation gives `O(vertices)`.  For every factor there are a size, draws for
    [new] and draws for a second [randomize] that take longer, in both build profiles. *)
Theorem C104_small_world_refuted {T : Type} : forall p (mk : nat -> T) K,
  exists n ws e vs, sw_new p mk n 1%Q ws = Done (e, []) /\
    (exists e', sw_randomize p e vs = Done (e', [])) /\
    K * (n + 1) < snd (sw_randomize_c p e vs).
Proof. intros. apply sw_randomize_not_linear. Qed.
Print Assumptions C104_small_world_refuted.

(** The steps for five vertices, without edges and in a ring, and for a small-world graph with
    six vertices. *)
Definition ring5 : graph (node_container nat) :=
  match init_ring Debug (graph_new (A := node_container nat) (fun i => i) 5) 1 with
  | Done (_, g) => g
  | _ => graph_new (A := node_container nat) (fun i => i) 5
  end.

Example C104_example :
  let g := graph_new (A := node_container nat) (fun i => i) 5 in
  edge_count ring5 = 5 /\ snd (clear_edges_c g) = 1 /\ snd (clear_edges_c ring5) = 13 /\
  (snd (vertex_load_c g true) <? snd (vertex_load_c ring5 true)) = true.
Proof. vm_compute. auto. Qed.

Example C104_example_small_world :
  match sw_new Debug (fun i : nat => i) 6 1%Q (flat_map (fun i => [0; i]) (seq 0 12)) with
  | Done (e, []) => match sw_randomize_c Debug e (repeat 0 24) with
                    | (Done (_, []), k) => (50 <? k) && (k <=? 1189) = true
                    | _ => False
                    end
  | _ => False
  end.
Proof. vm_compute. reflexivity. Qed.
