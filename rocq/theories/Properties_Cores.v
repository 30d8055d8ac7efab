(** Theorems about connectedness, cores and blocks of the random ensembles. *)
From Verif Require Import Base BaseFacts Sums Containers ContainerSpec ContainerFacts Graph GraphSpec GraphFacts GraphOps
  GraphBuild Search TraversalSpec Traversal TraversalFacts Components ComponentSpec ComponentFacts
  CoreFacts Biconnected BiconnectedSpec BlockCount FamilySpec FamilyMeasures FamilyComplete EnsembleCores
  Rng Ba BaSpec Sw SwSpec Ws Config ConfigSpec
  Properties_Graph Properties_Ba Properties_Sw Properties_Config Properties_Family.
From Coq Require Import QArith.
Local Open Scope nat_scope.

(** ** C90: connectedness and cores of the random ensembles *)

(** If every vertex has at least [q] neighbours, the largest piece of the core is the largest
    component. *)
Theorem C90_degree {T A : Type} {C : AdjContainer T A} {L : AdjLaws C} :
  forall (g : graph A) q, simple_graph g -> 0 < vertex_count g -> 2 <= q ->
  (forall v, v < vertex_count g -> q <= length (nbrs g v)) ->
  exists largest others, connected_components g = Done (largest :: others) /\
    q_core g q = Done (Some largest).
Proof. intros g q. apply degree_core. Qed.
Print Assumptions C90_degree.

(** Then the core is everything just if the graph is connected. *)
Theorem C90_whole {T A : Type} {C : AdjContainer T A} {L : AdjLaws C} :
  forall (g : graph A) q, simple_graph g -> 0 < vertex_count g -> 2 <= q ->
  (forall v, v < vertex_count g -> q <= length (nbrs g v)) ->
  (is_connected g = Done (Some true) <-> q_core g q = Done (Some (vertex_count g))).
Proof.
  intros g q W H0 Hq D. destruct (C90_degree g q W H0 Hq D) as (k & sizes & E1 & E2).
  assert (Hc : is_connected g = Done (Some true) <-> connected g).
  { destruct (is_connected_spec W) as [[? _]|[(_ & ? & ->)|(_ & N & ->)]]; [lia|tauto|].
    split; [discriminate|contradiction]. }
  rewrite Hc. split; intros H.
  - rewrite (connected_sizes W H H0) in E1. rewrite E2. congruence.
  - rewrite E2 in H. injection H as ->.
    destruct (components_spec W) as (sz & comps & E & So & P & Pc & Ne & J). rewrite E in E1. injection E1 as ->.
    assert (I : In (vertex_count g) (map (@length nat) comps)) by (apply (Permutation_in _ P); left; auto).
    apply in_map_iff in I as (c & Lc & Ic).
    assert (Nd : NoDup (concat comps)) by (apply (Permutation_NoDup (Permutation_sym Pc)), seq_NoDup).
    assert (Nc : NoDup c).
    { apply in_split in Ic as (a & b & ->). rewrite concat_app in Nd. cbn [concat] in Nd.
      apply NoDup_app_iff in Nd as (_ & Nd & _). apply NoDup_app_iff in Nd. tauto. }
    assert (All : forall v, v < vertex_count g -> In v c).
    { intros v Hv. apply (@NoDup_length_incl _ c (seq 0 (vertex_count g))); auto; [rewrite seq_length; lia| |apply in_seq; lia].
      intros w Hw. apply (Permutation_in _ Pc), in_concat. eauto. }
    intros u v Hu Hv. apply (J c u v); auto.
Qed.
Print Assumptions C90_whole.

(** A small-world ensemble after any sequence of calls. *)
Theorem C90_small_world {T : Type} : forall p n (e : sw_ensemble T),
  5 <= n -> sw_history p n e ->
  exists largest others, connected_components (sw_graph e) = Done (largest :: others) /\
    q_core (sw_graph e) 2 = Done (Some largest) /\
    (is_connected (sw_graph e) = Done (Some true) <-> largest = n).
Proof.
  intros p n e Hn H. pose proof (C40_history p n e Hn H) as O. destruct (C40_degree n 2 (sw_graph e) O) as [D _].
  pose proof (so_simple O) as W. pose proof (so_vertices O) as V.
  assert (Dg : forall v, v < vertex_count (sw_graph e) -> 2 <= length (nbrs (sw_graph e) v)).
  { intros v Hv. rewrite V in Hv. destruct (D v Hv) as (k & Ek & Hk). rewrite degree_spec in Ek by auto.
    destruct (v <? vertex_count (sw_graph e)); [|discriminate]. injection Ek as <-. auto. }
  destruct (C90_degree (sw_graph e) 2 W ltac:(lia) (le_n 2) Dg) as (k & sizes & E1 & E2). exists k, sizes.
  split; auto. split; auto. rewrite (C90_whole (sw_graph e) 2 W ltac:(lia) (le_n 2) Dg), E2, V.
  split; [congruence|intros ->; auto].
Qed.
Print Assumptions C90_small_world.

(** A configuration model with a smallest degree. *)
Theorem C90_config {T : Type} : forall p v (e : config T) q,
  cm_history p v e -> v <> [] -> 2 <= q -> (forall d, In d v -> q <= d) ->
  exists largest others, connected_components (cm_graph e) = Done (largest :: others) /\
    q_core (cm_graph e) q = Done (Some largest) /\
    (is_connected (cm_graph e) = Done (Some true) <-> largest = length v).
Proof.
  intros p v e q H Ne Hq Hd. destruct (C48_history p v e H) as (O & _ & _).
  pose proof (co_simple O) as W. destruct (co_degrees O) as [V D].
  assert (H0 : 0 < vertex_count (cm_graph e)) by (rewrite V; destruct v; [congruence|cbn; lia]).
  assert (Dg : forall i, i < vertex_count (cm_graph e) -> q <= length (nbrs (cm_graph e) i)).
  { intros i Hi. rewrite D. apply Hd, nth_In. lia. }
  destruct (C90_degree (cm_graph e) q W H0 Hq Dg) as (k & sizes & E1 & E2). exists k, sizes.
  split; auto. split; auto. rewrite (C90_whole (cm_graph e) q W H0 Hq Dg), E2, V.
  split; [congruence|intros ->; auto].
Qed.
Print Assumptions C90_config.

(** A Barabasi-Albert graph takes after its source: it is connected if that is; beyond [m]
    it has the same core; and it has one block if that has. *)
Theorem C90_ba {T : Type} : forall p n m (e : ba T), ba_history p n m e ->
  (1 <= m -> is_connected (ba_source e) = Done (Some true) -> is_connected (ba_graph e) = Done (Some true)) /\
  (forall q, m < q -> q_core (ba_graph e) q = q_core (ba_source e) q) /\
  (forall p', 2 <= m -> 2 <= vertex_count (ba_source e) ->
     vertex_biconnected_components p' (ba_source e) false = Done [vertex_count (ba_source e)] ->
     vertex_biconnected_components p' (ba_graph e) false = Done [n]).
Proof.
  intros p n m e H. destruct (C52_history p n m e H) as (O & _). destruct (bo_grown O) as (order & Gr).
  pose proof (bo_nonempty O) as Hn. pose proof (bo_count O) as V. pose proof (bo_source O) as Ws.
  assert (Le : vertex_count (ba_source e) <= vertex_count (ba_graph e)) by lia.
  split; [|split].
  - intros Hm Hc. assert (K : connected (ba_source e)).
    { destruct (is_connected_spec Ws) as [[? _]|[(_ & ? & _)|(_ & _ & E)]]; [lia|auto|congruence]. }
    pose proof (grown_connected Ws Gr Le Hm (proj1 Hn) K) as K'.
    destruct (is_connected_spec (gr_simple Gr)) as [[? _]|[(_ & _ & ->)|(_ & N & _)]]; [lia|auto|contradiction].
  - intros q Hq. apply (grown_core Ws Gr Le Hq (proj1 Hn)).
  - intros p' Hm H2 E. rewrite <- V. apply blocks_whole; [apply Gr|lia|].
    apply (grown_biconnected Gr Le Hm). apply (blocks_whole p' Ws H2). auto.
Qed.
Print Assumptions C90_ba.

(** With the complete graph that [new] starts from. *)
Theorem C90_ba_new {T : Type} : forall p (mk : nat -> T) n m s rs e rs',
  ba_new p mk n m s rs = Done (e, rs') ->
  (1 <= m -> is_connected (ba_graph e) = Done (Some true) /\ connected_components (ba_graph e) = Done [n]) /\
  (forall q, 2 <= q -> q_core (ba_graph e) q =
     Done (Some (if q <=? m then n else if q <? s then s else 0))) /\
  (forall p', 2 <= m -> vertex_biconnected_components p' (ba_graph e) false = Done [n]) /\
  edge_count (ba_graph e) = s * (s - 1) / 2 + m * (n - s).
Proof.
  intros p mk n m s rs e rs' E. destruct (C52_new p mk n m s rs e rs' E) as (Hs & O & _ & Vs & Ad).
  assert (Hh : ba_history p n m e) by (eapply bah_new; exact E). destruct (C52_history p n m e Hh) as (_ & Hm & _). rewrite Vs in Hm.
  destruct (C90_ba p n m e Hh) as (B1 & B2 & B3). destruct (bo_grown O) as (order & Gr).
  pose proof (bo_count O) as V. pose proof (bo_source O) as Ws.
  assert (K : complete (ba_source e)).
  { intros i j Hi Hj N. apply (gr_source Gr); auto. rewrite Vs in *. apply Ad; auto. }
  destruct (C89_complete p (ba_source e) Ws ltac:(lia) K) as (Kc & _ & _ & _ & Kq & _).
  assert (Cn : 1 <= m -> connected (ba_graph e)).
  { intros H. destruct (is_connected_spec (gr_simple Gr)) as [[? _]|[(_ & ? & _)|(_ & _ & X)]]; [lia|auto|].
    rewrite B1 in X; auto. discriminate. }
  split; [|split; [|split]].
  - intros H. split; auto. rewrite <- V. apply connected_sizes; [apply Gr|auto|lia].
  - intros q Hq. destruct (Nat.leb_spec q m) as [Hqm|Hqm].
    + assert (D : forall v, v < vertex_count (ba_graph e) -> q <= length (nbrs (ba_graph e) v)).
      { intros v Hv. apply Nat.le_trans with m; auto.
        apply (@grown_complete_degree _ _ _ _ _ Gr ltac:(lia) K); auto; lia. }
      rewrite <- V. apply C90_whole; [apply Gr|lia|auto|auto|]. apply B1; auto. lia.
    + rewrite B2 by auto. rewrite Kq by auto. rewrite Vs. auto.
  - intros p' H2. apply B3; auto; [lia|]. destruct (C89_complete p' (ba_source e) Ws ltac:(lia) K) as (_ & _ & _ & _ & _ & _ & _ & Kb).
    apply Kb. lia.
  - rewrite (gr_edges Gr), V, Vs. f_equal.
    pose proof (degree_sum Ws) as X. rewrite degree_vec_nbrs in X by auto.
    rewrite (map_ext_in _ (fun _ => s - 1)) in X.
    2:{ intros i Hi. apply in_seq in Hi. assert (H0 : 0 < vertex_count (ba_source e)) by lia. pose proof (complete_regular Ws H0 K) as R. rewrite (R i) by lia. lia. }
    rewrite Vs in X. change (sum_over (fun _ => s - 1) (seq 0 s) = 2 * edge_count (ba_source e)) in X.
    rewrite sum_over_const, seq_length in X. apply Nat.div_unique with 0; lia.
Qed.
Print Assumptions C90_ba_new.

(** With one edge per vertex and two vertices at the start it is a tree. *)
Theorem C90_ba_tree {T : Type} : forall p (mk : nat -> T) n rs e rs',
  ba_new p mk n 1 2 rs = Done (e, rs') ->
  edge_count (ba_graph e) + 1 = n /\ is_connected (ba_graph e) = Done (Some true) /\
  (forall q, 2 <= q -> q_core (ba_graph e) q = Done (Some 0)).
Proof.
  intros p mk n rs e rs' E. destruct (C90_ba_new p mk n 1 2 rs e rs' E) as (H1 & H2 & _ & H4).
  destruct (C52_new p mk n 1 2 rs e rs' E) as (Hs & _). split.
  - rewrite H4. change (2 * (2 - 1) / 2) with 1. lia.
  - split; [apply H1; auto|]. intros q Hq. rewrite H2 by auto.
    destruct (Nat.leb_spec q 1); [lia|]. destruct (Nat.ltb_spec q 2); [lia|]. auto.
Qed.
Print Assumptions C90_ba_tree.

(** Two added vertices on a complete graph of four; a tree; and two triangles. *)
Definition grown_run := ba_new Debug (fun i : nat => i) 6 2 4 [1; 0; 3; 5; 2; 7; 4].
Definition tree_run := ba_new Debug (fun i : nat => i) 5 1 2 [1; 0; 0; 3; 2; 5; 5].

Example C90_case_ba :
  match grown_run with
  | Done (e, _) => ba_history Debug 6 2 e /\
      q_core (ba_graph e) 2 = Done (Some 6) /\ q_core (ba_graph e) 3 = Done (Some 4) /\
      q_core (ba_graph e) 4 = Done (Some 0) /\ edge_count (ba_graph e) = 10 /\
      vertex_biconnected_components Debug (ba_graph e) false = Done [6]
  | _ => False
  end.
Proof.
  destruct grown_run as [[e rs]| | |] eqn:E; try (vm_compute in E; discriminate).
  split; [eapply bah_new; exact E|]. vm_compute in E. injection E as <- <-. vm_compute. auto.
Qed.

Example C90_case_tree :
  match tree_run with
  | Done (e, _) => map (nbrs (ba_graph e)) (seq 0 5) = [[1; 4]; [0; 3]; [4]; [1]; [0; 2]] /\
      q_core (ba_graph e) 2 = Done (Some 0)
  | _ => False
  end.
Proof. vm_compute. auto. Qed.

Definition triangles : graph (node_container nat) :=
  mk_graph 6 6 (map (fun '(i, l) => mk_nc i l i) [(0, [1; 2]); (1, [0; 2]); (2, [0; 1]); (3, [4; 5]); (4, [3; 5]); (5, [3; 4])]).

Example C90_case_two :
  (forall v, v < vertex_count triangles -> 2 <= length (nbrs triangles v)) /\
  q_core triangles 2 = Done (Some 3) /\ connected_components triangles = Done [3; 3] /\
  is_connected triangles = Done (Some false) /\
  sw_history Debug 6 ex_sw_ensemble /\ q_core (sw_graph ex_sw_ensemble) 2 = Done (Some 6).
Proof.
  split. { intros v Hv. cbn in Hv. do 6 (destruct v as [|v]; [vm_compute; lia|]). lia. }
  split; [vm_compute; reflexivity|]. split; [vm_compute; reflexivity|]. split; [vm_compute; reflexivity|].
  split; [apply C40_case|]. vm_compute. reflexivity.
Qed.

(** Nothing of the kind holds for the Watts-Strogatz ensemble.  In the model of Watts and
    Strogatz an edge keeps one of its ends, so every vertex has at least [d] neighbours;
    here both ends are drawn, and a vertex can lose all its neighbours. *)
Theorem C90_watts_strogatz_refuted : exists n d q rs (e : ws_ensemble nat) rs' v,
  1 <= d /\ (0 < q)%Q /\ ws_new Debug (fun i => i) n d q rs = Done (Ok (e, rs')) /\
  v < n /\ nbrs (ws_graph e) v = [] /\ is_connected (ws_graph e) = Done (Some false).
Proof.
  exists 5, 1, (1 # 18014398509481984)%Q, [0; 0; 1; 3; 2; 4; 1; 1; 1; 1; 1; 1; 1].
  destruct (ws_new _ _ _ _ _ _) as [[[e rs']|]| | |] eqn:E; try (vm_compute in E; discriminate).
  exists e, rs', 0. split; [lia|]. split; [reflexivity|]. split; [auto|]. split; [lia|].
  vm_compute in E. injection E as <- <-. split; vm_compute; reflexivity.
Qed.
Print Assumptions C90_watts_strogatz_refuted.
