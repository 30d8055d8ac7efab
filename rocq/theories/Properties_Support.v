(** Theorems about the graphs [randomize] can make. *)
From Verif Require Import Base BaseFacts Sums Containers ContainerSpec ContainerFacts Graph GraphSpec GraphFacts GraphOps
  GraphBuild Rng RngFacts Runs ErC ErCFacts ErM ErMSpec ErMFacts UniformSpec UniformFacts SwitchFacts
  Ba BaSpec Ws WsSpec WsFacts WsRun Config ConfigSpec ConfigFacts
  SupportFacts BaReach WsReach ConfigReach
  Properties_ErC Properties_ErM Properties_Uniform Properties_Ba Properties_Ws Properties_Config.
From Coq Require Import QArith.
Local Open Scope nat_scope.

(** ** C91: exactly which graphs [randomize] can make *)

(** The configuration model makes the simple graphs with the given degrees, and all of them. *)
Theorem C91_config {T A : Type} {C : AdjContainer T A} {L : AdjLaws C} :
  forall p v (e : config T) (h : graph A), cm_ok v e -> simple_graph h -> vertex_count h = length v ->
  ((exists rs e' rs', cm_randomize p e rs = Done (e', rs') /\
      forall i j, adj (cm_graph e') i j <-> adj h i j) <-> has_degrees v h).
Proof.
  intros p v e h O W V. split.
  - intros (rs & e' & rs' & E & Eq).
    destruct (ConfigRun.randomize_done (ConfigRun.ok_ready O) E) as (O' & _).
    apply (has_degrees_same (co_simple O') W Eq); [|apply O']. rewrite V. apply (co_degrees O').
  - intros D. destruct (ConfigReach.randomize_reach p (ConfigRun.ok_ready O) W D) as (ds & e' & E & Eq).
    exists ds, e', []. split; auto. rewrite <- (app_nil_r ds). apply E.
Qed.
Print Assumptions C91_config.

Theorem C91_config_new {T A : Type} {C : AdjContainer T A} {L : AdjLaws C} :
  forall p (mk : nat -> T) v (h : graph A), valid_degrees v -> simple_graph h -> vertex_count h = length v ->
  ((exists rs e' rs', cm_from_vec p mk v rs = Done (Some (e', rs')) /\
      forall i j, adj (cm_graph e') i j <-> adj h i j) <-> has_degrees v h).
Proof.
  intros p mk v h Va W V. apply degree_vec_is_valid_spec in Va.
  unfold cm_from_vec. rewrite Va. unfold cm_from_vec_unchecked. split.
  - intros (rs & e' & rs' & E & Eq).
    apply bind_done in E as ([e1 rs1] & E & K). injection K as -> ->.
    destruct (ConfigRun.randomize_done (ConfigRun.new_ready mk v) E) as (O' & _).
    apply (has_degrees_same (co_simple O') W Eq); [|apply O']. rewrite V. apply (co_degrees O').
  - intros D. destruct (ConfigReach.randomize_reach p (ConfigRun.new_ready mk v) W D) as (ds & e' & E & Eq).
    exists ds, e', []. split; auto. specialize (E []). rewrite app_nil_r in E. rewrite E. reflexivity.
Qed.
Print Assumptions C91_config_new.

(** The Barabasi-Albert ensemble makes the graphs that can be grown from the source, by
    adding the other vertices in some order, each with [m] edges to those that are there. *)
Theorem C91_barabasi {T : Type} :
  forall p n m (e : ba T) (h : graph (node_container T)),
  ba_history p n m e -> simple_graph h -> vertex_count h = n ->
  ((exists rs e' rs', ba_randomize p e rs = Done (e', rs') /\
      forall i j, adj (ba_graph e') i j <-> adj h i j) <->
   exists order, grown m (ba_source e) h order).
Proof.
  intros p n m e h Hy W V. pose proof (C52_history p n m e Hy) as (O & _). split.
  - intros (rs & e' & rs' & E & Eq).
    destruct (C52_randomize p n m e rs e' rs' O E) as (O' & Es & _).
    destruct (bo_grown O') as (order & Gr). exists order. rewrite Es in Gr.
    apply (grown_same W Eq); auto. rewrite (bo_count O'). auto.
  - intros (order & Gr). pose proof (gr_order Gr) as Po. rewrite V in Po.
    destruct (BaReach.randomize_reach p (BaFacts.ok_ready O) W V Po) as (ds & e' & E & Eq).
    + intros i j. apply (gr_source Gr).
    + apply (gr_attach Gr).
    + exists ds, e', []. split; auto. rewrite <- (app_nil_r ds). apply E.
Qed.
Print Assumptions C91_barabasi.

Lemma ws_distance_small {T : Type} p n d q (e : ws_ensemble T) : ws_history p n d q e -> 2 * d + 1 <= n.
Proof.
  induction 1 as [mk rs e rs' E| |]; auto. pose proof (C46_new p mk n d q rs) as H. rewrite E in H. tauto.
Qed.

(** The Watts-Strogatz ensemble with a rewiring probability that is neither 0 nor 1 makes
    all the simple graphs with [n*d] edges: nothing of the ring need be left.  The bound
    is the largest number that is drawn. *)
Theorem C91_watts_strogatz {T A : Type} {C : AdjContainer T A} {L : AdjLaws C} :
  forall p n d q (e : ws_ensemble T) (h : graph A),
  ws_history p n d q e -> (0 <= q)%Q -> (q < 9007199254740991 # 9007199254740992)%Q ->
  simple_graph h -> vertex_count h = n ->
  ((exists rs e' rs', ws_randomize p e rs = Done (e', rs') /\
      forall i j, adj (ws_graph e') i j <-> adj h i j) <-> edge_count h = n * d).
Proof.
  intros p n d q e h Hy Hq0 Hq1 W V. pose proof (ws_distance_small p n d q e Hy) as Hd.
  destruct (C46_history p n d q e Hy) as (O & Eq & Ed).
  split.
  - intros (rs & e' & rs' & E & Ea).
    pose proof (@WsRun.randomize_runs T False p e n d (wo_simple O) (wo_vertices O) Ed ltac:(lia) ltac:(tauto) rs) as R.
    rewrite E in R. destruct R as [(O' & _) _].
    rewrite <- (edge_count_same (wo_simple O') W Ea); [apply O'|]. rewrite (wo_vertices O'). auto.
  - intros Eh.
    assert (Y : accepts (ws_rewire_prob e) 0 = true).
    { unfold accepts. apply Qle_bool_iff. rewrite Eq. apply (Qle_trans _ 0); [vm_compute; discriminate|exact Hq0]. }
    assert (N : accepts (ws_rewire_prob e) (Z.to_nat 9007199254740991) = false).
    { unfold accepts, unit_float. rewrite Z2Nat.id by lia. apply not_true_iff_false. rewrite Qle_bool_iff.
      apply Qlt_not_le. rewrite Eq. exact Hq1. }
    destruct (WsReach.randomize_reach p (wo_simple O) (wo_vertices O) Ed ltac:(lia) Y N W V Eh)
      as (ds & e' & E & _ & _ & _ & _ & Ea).
    exists ds, e', []. split; auto. rewrite <- (app_nil_r ds). apply E.
Qed.
Print Assumptions C91_watts_strogatz.

(** The Erdos-Renyi ensemble with a fixed number of edges makes all the simple graphs with
    that many edges. *)
Theorem C91_er_m {T A : Type} {C : AdjContainer T A} {L : AdjLaws C} :
  forall p n m (e : er_m T) (h : graph A), erm_ok n m e -> simple_graph h -> vertex_count h = n ->
  ((exists rs e' rs', erm_randomize p e rs = Done (e', rs') /\
      forall i j, adj (erm_graph e') i j <-> adj h i j) <-> edge_count h = m).
Proof.
  intros p n m e h O W V.
  assert (Ok : forall rs e' rs', erm_randomize p e rs = Done (e', rs') -> erm_ok n m e').
  { intros rs e' rs' E. pose proof E as E0. unfold erm_randomize in E0.
    apply bind_done in E0 as ([all rs1] & Es & _). destruct (erm_ok_lengths O) as (L1 & L2 & L3).
    destruct O as [Wo Vo Ce M Al Cu Po].
    destruct (@erm_randomize_spec T p n m e rs Wo Vo M Al L1 L2 _ _ Es) as (e2 & E2 & O2 & _). congruence. }
  split.
  - intros (rs & e' & rs' & E & Eq). specialize (Ok rs e' rs' E).
    rewrite <- (edge_count_same (eo_simple Ok) W Eq); [apply Ok|]. rewrite V. apply Ok.
  - intros Eh. pose proof (C77_randomize p n m e h O W V Eh) as K.
    assert (K0 : 0 < fact m * fact (n * (n - 1) / 2 - m)).
    { pose proof (Factorial.lt_O_fact m). pose proof (Factorial.lt_O_fact (n * (n - 1) / 2 - m)). nia. }
    rewrite <- K in K0. apply count_pos in K0 as (ds & _ & Hd).
    destruct (erm_randomize p e ds) as [[e' rs']| | |] eqn:E; try discriminate.
    exists ds, e', rs'. split; auto. pose proof (Ok _ _ _ E) as O'.
    apply same_edges_all; auto; [apply O'|]. rewrite V. apply O'.
Qed.
Print Assumptions C91_er_m.

(** The one with independent edges makes all the simple graphs. *)
Theorem C91_er_c {T A : Type} {C : AdjContainer T A} {L : AdjLaws C} :
  forall n (e : er_c T) (h : graph A), simple_graph (erc_graph e) -> vertex_count (erc_graph e) = n ->
  (0 <= erc_prob e)%Q -> (erc_prob e < 9007199254740991 # 9007199254740992)%Q ->
  simple_graph h -> vertex_count h = n ->
  exists rs e' rs', erc_randomize e rs = Done (e', rs') /\
      forall i j, adj (erc_graph e') i j <-> adj h i j.
Proof.
  intros n e h We Ve Hq0 Hq1 W V. destruct (@C34_randomize T n) as (pairs & ND & Ip & R).
  set (big := Z.to_nat 9007199254740991).
  set (f := fun ij : nat * nat => if adjb h (fst ij) (snd ij) then 0 else big).
  destruct (R e (map f pairs) We Ve) as (e' & E & W' & V' & _ & _ & _ & _ & Ad); [rewrite map_length; auto|].
  exists (map f pairs), e', (skipn (length pairs) (map f pairs)). split; auto.
  apply same_edges_all; auto; [congruence|]. apply same_edges_spec. intros i j Hij Hj. rewrite V in Hj.
  assert (I : In (i, j) pairs) by (apply Ip; auto). apply In_nth_error in I as (k & Ik).
  rewrite (Ad k i j (f (i, j)) Ik); [|rewrite nth_error_map, Ik; reflexivity].
  unfold f. cbn [fst snd]. destruct (adjb h i j) eqn:B.
  - apply adjb_adj in B. split; auto. intros _. apply (Qle_trans _ 0); [vm_compute; discriminate|exact Hq0].
  - split; intros K; exfalso.
    + revert K. unfold big, unit_float. rewrite Z2Nat.id by lia. apply Qlt_not_le. exact Hq1.
    + apply adjb_adj in K. congruence.
Qed.
Print Assumptions C91_er_c.

(** Two triangles that do not touch: the ring of six vertices can become this, and so can
    any graph in which every vertex has two neighbours. *)
Definition ex_triangles : graph (node_container nat) :=
  mk_graph 6 6 [mk_nc 0 [1; 2] 0; mk_nc 1 [0; 2] 1; mk_nc 2 [1; 0] 2;
                mk_nc 3 [4; 5] 3; mk_nc 4 [3; 5] 4; mk_nc 5 [4; 3] 5].

Example ex_triangles_simple : simple_graph ex_triangles.
Proof.
  assert (E : add_edges_try Debug (graph_new (fun i => i) 6) [(0, 1); (1, 2); (2, 0); (3, 4); (4, 5); (5, 3)]
     = Done (Ok tt, ex_triangles)) by (vm_compute; reflexivity).
  exact (proj1 (add_edges_simple (proj1 (graph_new_spec (A := node_container nat) (fun i => i) 6)) E)).
Qed.

Example C91_case_ring :
  exists e rs', ws_new Debug (fun i => i) 6 1 0 (repeat 1 12) = Done (Ok (e, rs')) /\
    adj (ws_graph e) 2 3 /\
    exists rs e2 rs2, ws_randomize Debug e rs = Done (e2, rs2) /\
      forall i j, adj (ws_graph e2) i j <-> adj ex_triangles i j.
Proof.
  destruct (ws_new Debug (fun i => i) 6 1 0 (repeat 1 12)) as [[[e rs']|]| | |] eqn:E;
    vm_compute in E; try discriminate.
  exists e, rs'. split; [reflexivity|]. split.
  - injection E as <- <-. unfold adj, nbrs. simpl. auto.
  - apply (C91_watts_strogatz Debug 6 1 0 e ex_triangles); try reflexivity.
    + apply (@wsh_new nat Debug 6 1 0 (fun i => i) (repeat 1 12) e rs'). rewrite <- E. vm_compute. reflexivity.
    + vm_compute. discriminate.
    + apply ex_triangles_simple.
Qed.

Example C91_case_degrees :
  valid_degrees [2; 2; 2; 2; 2; 2] /\ has_degrees [2; 2; 2; 2; 2; 2] ex_triangles /\
  match cm_from_vec Debug (fun i => i) [2; 2; 2; 2; 2; 2]
          [0; 7; 3; 5; 2; 9; 4; 1; 3; 1; 1] with
  | Done (Some (e, _)) => map (nbrs (cm_graph e)) (seq 0 6)
  | _ => []
  end = [[3; 2]; [2; 5]; [1; 0]; [0; 4]; [3; 5]; [1; 4]].
Proof.
  splits.
  - split; [simpl; lia|]. split; [simpl; intros d Hd; intuition lia|exists 6; reflexivity].
  - split; [reflexivity|]. intros i. unfold nbrs. do 7 (destruct i as [|i]; [reflexivity|]). reflexivity.
  - vm_compute. reflexivity.
Qed.

(** The triangle 0-1-2 with 3 and 4 joined to two vertices each: 4 first, then 3. *)
Example C91_case_grown :
  exists e rs h, ba_new Debug (fun i : nat => i) 5 2 3 [1; 0; 3; 5; 2; 7; 4] = Done (e, rs) /\
    add_edges_try Debug (graph_new (fun i => i) 5) [(0, 1); (0, 2); (1, 2); (4, 0); (4, 2); (3, 4); (3, 1)]
      = Done (Ok tt, h) /\
    grown 2 (ba_source e) h [4; 3] /\ ~ grown 2 (ba_source e) h [3; 4] /\
    exists rs1 e1 rs2, ba_randomize Debug e rs1 = Done (e1, rs2) /\
      forall i j, adj (ba_graph e1) i j <-> adj h i j.
Proof.
  destruct (ba_new Debug (fun i : nat => i) 5 2 3 [1; 0; 3; 5; 2; 7; 4]) as [[e rs]| | |] eqn:E;
    try (vm_compute in E; discriminate).
  destruct (add_edges_try Debug (graph_new (fun i : nat => i) 5)
     [(0, 1); (0, 2); (1, 2); (4, 0); (4, 2); (3, 4); (3, 1)]) as [[[[]|] h]| | |] eqn:B;
    try (vm_compute in B; discriminate).
  pose proof (proj1 (add_edges_simple (proj1 (graph_new_spec (A := node_container nat) (fun i => i) 5)) B)) as W.
  assert (Hy : ba_history Debug 5 2 e) by (eapply bah_new; eauto).
  assert (Es : ba_source e = mk_graph 3 3 [mk_nc 0 [1; 2] 0; mk_nc 1 [0; 2] 1; mk_nc 2 [0; 1] 2])
    by (vm_compute in E; injection E as <- _; vm_compute; reflexivity).
  vm_compute in B. injection B as <-.
  exists e, rs, (mk_graph 5 7 [mk_nc 0 [1; 2; 4] 0; mk_nc 1 [0; 2; 3] 1; mk_nc 2 [0; 1; 4] 2; mk_nc 3 [4; 1] 3;
     mk_nc 4 [0; 2; 3] 4]).
  assert (Gr : grown 2 (ba_source e) (mk_graph 5 7 [mk_nc 0 [1; 2; 4] 0; mk_nc 1 [0; 2; 3] 1; mk_nc 2 [0; 1; 4] 2;
     mk_nc 3 [4; 1] 3; mk_nc 4 [0; 2; 3] 4]) [4; 3]).
  { rewrite Es. split; auto.
    - apply perm_swap.
    - intros i j Hi Hj. unfold adj, nbrs. cbn in Hi.
      do 3 (destruct i as [|i]; [do 3 (destruct j as [|j]; [simpl; intuition lia|]); cbn in Hj; lia|]). lia.
    - intros [|a [|b [|c l]]] x r K; try discriminate; injection K; intros; subst; reflexivity. }
  splits; auto.
  - intros K. rewrite Es in K. pose proof (gr_attach K [] 3 [4] eq_refl) as K1. discriminate.
  - apply (C91_barabasi Debug 5 2 e _ Hy W eq_refl). eexists; eauto.
Qed.
