(** Theorems about the time until a randomization returns. *)
From Verif Require Import Base BaseFacts Containers ContainerSpec ContainerFacts Graph GraphSpec Sums GraphFacts GraphOps
  GraphBuild Rng RngFacts Runs EnsembleFacts UniformSpec Ba BaSpec BaFacts Ws WsSpec WsFacts WsRun
  Config ConfigSpec ConfigFacts ConfigRun SurelySpec SurelyFacts SurelyBa SurelyWs SurelyConfig.
From Verif Require Properties_Ba Properties_Config.
From Coq Require Import QArith.
Local Open Scope nat_scope.

(** ** C97 *)

(** If each new vertex is to have at most as many edges as the start graph has vertices, then
    randomizing ends with probability one, after finitely many draws on average. *)
Theorem C97_barabasi_albert {T : Type} : forall p n m (e : ba T) h,
  ba_ok n m e -> m <= vertex_count (ba_source e) ->
  2 * (edge_count (ba_source e) + m * n) <= h -> 0 < h ->
  ends_surely h (ba_randomize p e) /\
  exists c, mean_draws_at_most c h (ba_randomize p e).
Proof.
  intros p n m e h O Hm Hh Ph. pose proof (ba_swift p (BaFacts.ok_ready O) Hm Hh Ph) as S. split.
  - eapply swift_surely; eauto.
  - eexists. eapply mean_bound; eauto.
Qed.
Print Assumptions C97_barabasi_albert.

Lemma sum_all v : sum_over (fun i => nth i v 0) (seq 0 (length v)) = list_sum v.
Proof.
  induction v as [|x v IH]; auto. cbn [length seq]. rewrite sum_over_cons, <- seq_shift. cbn [nth].
  unfold sum_over in *. rewrite map_map. cbn [nth]. rewrite IH. reflexivity.
Qed.

(** The number of edges of a complete graph. *)
Lemma complete_edges {T} (g : graph (node_container T)) n : simple_graph g -> vertex_count g = n ->
  (forall i j, adj g i j <-> i < n /\ j < n /\ i <> j) -> 2 * edge_count g = n * (n - 1).
Proof.
  intros W V A. rewrite <- (simple_degsum W). unfold degsum. rewrite V.
  rewrite (@sum_over_ext _ _ (fun _ => n - 1)).
  - clear. rewrite <- (seq_length n 0) at 2. generalize (seq 0 n). intros l. rewrite Nat.mul_comm.
    induction l as [|x l IH]; cbn [length]; [rewrite Nat.mul_0_r; auto|]. rewrite sum_over_cons, IH. nia.
  - intros i Hi. apply in_seq in Hi. assert (P : Permutation (i :: nbrs g i) (seq 0 n)).
    { apply NoDup_Permutation.
      - constructor; [apply (sg_irrefl W)|apply (sg_nodup W)].
      - apply seq_NoDup.
      - intros j. rewrite in_seq. change (In j (i :: nbrs g i)) with (i = j \/ adj g i j). rewrite A. lia. }
    apply Permutation_length in P. rewrite seq_length in P. cbn in P. lia.
Qed.

(** The same for [new]; with more edges than that it never ends. *)
Theorem C97_barabasi_albert_new {T : Type} : forall p (mk : nat -> T) n m s h,
  2 <= s < n ->
  (m <= s -> s * (s - 1) + 2 * (m * n) <= h ->
     ends_surely h (ba_new p mk n m s) /\ exists c, mean_draws_at_most c h (ba_new p mk n m s)) /\
  (s < m -> never_ends (ba_new p mk n m s)).
Proof.
  intros p mk n m s h [H2 Hn]. split.
  - intros Hm Hh. destruct (complete_done p mk H2) as (src & Es & Wc & Vc & Ac).
    destruct (BaFacts.new_ready m H2 Hn Es) as [R V].
    pose proof (complete_edges src s Wc Vc Ac) as Ed.
    assert (S : swift h (n + n * (1 + m)) (fun _ => True) (ba_randomize p (mk_ba src (graph_new mk n) m (repeat 0 n)))).
    { apply ba_swift; auto; cbn [ba_source]; nia. }
    assert (Ex : forall ds, unfinished (ba_new p mk n m s ds) =
      unfinished (ba_randomize p (mk_ba src (graph_new mk n) m (repeat 0 n)) ds)).
    { intros ds. unfold ba_new. destruct (Nat.leb_spec 2 s); [|lia]. destruct (Nat.ltb_spec s n); [|lia].
      cbn [negb]. rewrite Es. reflexivity. }
    split.
    + eapply surely_ext; [exact Ex|]. eapply swift_surely; eauto. nia.
    + eexists. eapply mean_ext; [exact Ex|]. eapply mean_bound; eauto. nia.
  - intros Hm ds. apply Properties_Ba.C53_stuck; auto.
Qed.
Print Assumptions C97_barabasi_albert_new.

(** A ring with fewer edges than the complete graph can be rewired with probability one. *)
Theorem C97_watts_strogatz {T : Type} : forall p (e : ws_ensemble T) n d h,
  ws_ok n d (ws_graph e) -> ws_distance e = d -> 2 * d + 2 <= n -> n <= h ->
  ends_surely h (ws_randomize p e) /\
  exists c, mean_draws_at_most c h (ws_randomize p e).
Proof.
  intros p e n d h O D Hd Hh.
  pose proof (@ws_swift T h p e n d (wo_simple O) (wo_vertices O) D ltac:(lia) Hh) as S. split.
  - eapply swift_surely; eauto. lia.
  - eexists. eapply mean_bound; eauto. lia.
Qed.
Print Assumptions C97_watts_strogatz.

(** [new]: the smallest ring [2 * d + 1] is the only one where this fails, for every chance
    to rewire that is not negative. *)
Theorem C97_watts_strogatz_new {T : Type} : forall p (mk : nat -> T) n d q h,
  1 <= d -> 2 * d + 1 <= n -> (0 <= q)%Q -> n <= h -> (9007199254740992 <= Z.of_nat h)%Z ->
  (ends_surely h (ws_new p mk n d q) <-> 2 * d + 2 <= n) /\
  (2 * d + 2 <= n -> exists c, mean_draws_at_most c h (ws_new p mk n d q)) /\
  (n = 2 * d + 1 -> may_hang h (ws_new p mk n d q)).
Proof.
  intros p mk n d q h Hd Hn Hq Hh Hb.
  destruct (new_unfold p mk q [] (n := n) (d := d)) as (g & Eg & W & V & P & _); [lia|].
  assert (Er : forall ds, ws_new p mk n d q ds = do x <- ws_randomize p (mk_wse g q d) ds; Done (Ok x)).
  { intros ds. destruct (new_unfold p mk q ds (n := n) (d := d)) as (g2 & Eg2 & _ & _ & _ & E); [lia|].
    assert (g2 = g) by congruence. subst. auto. }
  assert (Ex : forall ds, unfinished (ws_new p mk n d q ds) = unfinished (ws_randomize p (mk_wse g q d) ds)).
  { intros ds. rewrite Er. destruct (ws_randomize p _ ds); auto. }
  assert (Sw : 2 * d + 2 <= n -> swift h (n * (4 * n)) (fun _ => True) (ws_randomize p (mk_wse g q d))).
  { intros Hd2. apply (@ws_swift T h p (mk_wse g q d) n d); auto. lia. }
  assert (Hang : n = 2 * d + 1 -> may_hang h (ws_new p mk n d q)).
  { intros E. destruct (@ring_trap T h p (mk_wse g q d) n d) as (u & Fu & Hu); auto.
    apply (trap_hangs Fu). intros rest. rewrite Er, Hu. reflexivity. }
  splits; auto.
  - split.
    + intros S. destruct (Nat.eq_dec n (2 * d + 1)) as [E|]; [|lia]. exfalso.
      apply (@hang_not_surely _ h (ws_new p mk n d q)); auto. lia.
    + intros Hd2. eapply surely_ext; [exact Ex|]. eapply swift_surely; [|exact (Sw Hd2)]. lia.
  - intros Hd2. eexists. eapply mean_ext; [exact Ex|]. eapply mean_bound; [|exact (Sw Hd2)]. lia.
Qed.
Print Assumptions C97_watts_strogatz_new.

(** Degrees that some graph has are found with probability one. *)
Theorem C97_configuration {T : Type} : forall p v (e : config T) h,
  cm_ok v e -> list_sum v <= h -> 0 < h ->
  ends_surely h (cm_randomize p e) /\
  exists c, mean_draws_at_most c h (cm_randomize p e).
Proof.
  intros p v e h O Hh Ph.
  pose proof (degrees_graphical (co_simple O) (co_degrees O)) as G.
  assert (Ev : Nat.Even (list_sum v)).
  { exists (edge_count (cm_graph e)). destruct (co_degrees O) as [V D].
    rewrite <- (simple_degsum (co_simple O)). unfold degsum.
    rewrite V, (@sum_over_ext _ _ (fun i => nth i v 0)) by (intros; apply D). symmetry. apply sum_all. }
  pose proof (cm_swift p (ConfigRun.ok_ready O) Ev G Hh Ph) as S. split.
  - eapply swift_surely; eauto.
  - eexists. eapply mean_bound; eauto.
Qed.
Print Assumptions C97_configuration.

(** [new]: it ends with probability one if a graph with the degrees exists, and never otherwise. *)
Theorem C97_configuration_new {T : Type} : forall p (mk : nat -> T) v h,
  valid_degrees v -> list_sum v <= h -> 0 < h ->
  (graphical v -> ends_surely h (cm_from_vec p mk v) /\ exists c, mean_draws_at_most c h (cm_from_vec p mk v)) /\
  (~ graphical v -> never_ends (cm_from_vec p mk v)).
Proof.
  intros p mk v h Va Hh Ph. pose proof Va as (_ & _ & Ev). split.
  - intros G. pose proof (cm_swift p (ConfigRun.new_ready mk v) Ev G Hh Ph) as S.
    assert (Ex : forall ds, unfinished (cm_from_vec p mk v ds) =
      unfinished (cm_randomize p (mk_cm (graph_new mk (length v)) v [] (edge_halfs v)) ds)).
    { intros ds. unfold cm_from_vec. rewrite (proj2 (degree_vec_is_valid_spec v) Va).
      unfold cm_from_vec_unchecked. destruct (cm_randomize p _ ds); reflexivity. }
    split.
    + eapply surely_ext; [exact Ex|]. eapply swift_surely; eauto.
    + eexists. eapply mean_ext; [exact Ex|]. eapply mean_bound; eauto.
  - intros Ng ds. apply Properties_Config.C51_not_graphical; auto.
Qed.
Print Assumptions C97_configuration_new.

(** Two edges for one new vertex: each draw after the first is wasted with chance one half. *)
Example C97_case :
  map (waiting 6 (ba_new Debug (fun i : nat => i) 3 2 2)) (seq 0 6) = [1; 6; 18; 54; 162; 486] /\
  map (waiting 6 (cm_from_vec Debug (fun i : nat => i) [2; 2; 1; 1])) (seq 0 6) = [1; 6; 36; 216; 1296; 2232] /\
  ends_surely 14 (ba_new Debug (fun i : nat => i) 3 2 2) /\
  never_ends (ba_new Debug (fun i : nat => i) 5 3 2).
Proof.
  split; [vm_compute; auto|]. split; [vm_compute; auto|]. split.
  - apply (C97_barabasi_albert_new Debug (fun i : nat => i) 3 2 2 14); lia.
  - apply (C97_barabasi_albert_new Debug (fun i : nat => i) 5 3 2 14); lia.
Qed.

(** A ring of five vertices may hang if every vertex starts with four neighbours, not if with two. *)
Example C97_ring_case : forall h, (9007199254740992 <= Z.of_nat h)%Z ->
  ends_surely h (ws_new Debug (fun i : nat => i) 5 1 (1 # 10)%Q) /\
  ~ ends_surely h (ws_new Debug (fun i : nat => i) 5 2 (1 # 10)%Q).
Proof.
  intros h Hh. split.
  - apply (C97_watts_strogatz_new Debug (fun i : nat => i) 5 1 (1 # 10)%Q h); auto; try lia. discriminate.
  - intros S. apply (C97_watts_strogatz_new Debug (fun i : nat => i) 5 2 (1 # 10)%Q h) in S; auto; try lia. discriminate.
Qed.

Example C97_degrees_case :
  ends_surely 6 (cm_from_vec Debug (fun i : nat => i) [2; 2; 1; 1]) /\
  never_ends (cm_from_vec Debug (fun i : nat => i) [2; 2; 0; 0]).
Proof.
  assert (V : forall v, degree_vec_is_valid v = true -> valid_degrees v) by (intros v; apply degree_vec_is_valid_spec).
  split.
  - apply (C97_configuration_new Debug (fun i : nat => i) [2; 2; 1; 1] 6); [apply V; reflexivity|cbn; lia|lia|].
    exists (fun i j => match i, j with 0, 1 | 1, 0 | 0, 2 | 2, 0 | 1, 3 | 3, 1 => true | _, _ => false end). splits.
    + intros [|[|[|[|i]]]]; reflexivity.
    + intros [|[|[|[|i]]]] [|[|[|[|j]]]]; reflexivity.
    + intros [|[|[|[|i]]]] Hi; try reflexivity. cbn in Hi. lia.
  - apply (C97_configuration_new Debug (fun i : nat => i) [2; 2; 0; 0] 6); [apply V; reflexivity|cbn; lia|lia|].
    apply Properties_Config.ex_not_graphical.
Qed.
