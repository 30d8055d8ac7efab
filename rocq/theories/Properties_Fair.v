(** Theorems about draws that are rejected and repeated. *)
From Verif Require Import Base BaseFacts Containers ContainerSpec ContainerFacts Graph GraphSpec Sums GraphFacts GraphOps
  GraphBuild Rng RngFacts Runs EnsembleFacts UniformSpec UniformFacts Ba BaSpec BaFacts Ws WsSpec WsFacts WsRun
  SurelySpec SurelyFacts FairSpec FairFacts FairWs FairBa.
From Coq Require Import QArith.
Local Open Scope nat_scope.

(** ** C98 *)

(** A rewired edge goes to each of the places where it may go with the same probability. *)
Theorem C98_rewired_place {T : Type} : forall p (g : graph (ws_container T)) o i j,
  simple_links g -> i < vertex_count g -> j < vertex_count g -> may_join g o i j = true ->
  probability 1 (count (fun ab => may_join g o (fst ab) (snd ab)) (pairs_below (vertex_count g))) (vertex_count g)
    (fun ds => ws_add_random_edge p (g, ds) o) (fun g' => adjb g' i j).
Proof. intros p g o i j H Hi Hj M. apply ws_probability; auto. Qed.
Print Assumptions C98_rewired_place.

(** After how many rejected pairs it does so: each has the same chance to be rejected. *)
Theorem C98_rewired_after {T : Type} : forall p (g : graph (ws_container T)) o i j k,
  simple_links g -> i < vertex_count g -> j < vertex_count g -> may_join g o i j = true ->
  let n := vertex_count g in
  let places := count (fun ab => may_join g o (fst ab) (snd ab)) (pairs_below n) in
  count (fun ds => exactly (fun g' => adjb g' i j) (ws_add_random_edge p (g, ds) o)) (rolls (repeat n (2 * S k))) =
  (n * n - 2 * places) ^ k * 2.
Proof.
  intros p g o i j k H Hi Hj M n places. unfold n. rewrite ws_place by auto.
  pose proof (@ws_rejections T p g o H ltac:(lia)) as R. fold n places in R. fold n. do 2 f_equal. lia.
Qed.
Print Assumptions C98_rewired_after.

(** All edges that [randomize] rewires are placed like this. *)
Theorem C98_rewiring {T : Type} : forall p (e : ws_ensemble T) n d,
  ws_ok n d (ws_graph e) -> ws_distance e = d -> 2 * d + 1 <= n ->
  exists ring,
    (forall rs, ws_randomize p e rs =
       do ' (g, rs') <- foldM (ws_randomize_vertex p (ws_rewire_prob e)) (ring, rs) (seq 0 n);
       Done (mk_wse g (ws_rewire_prob e) d, rs')) /\
    forall before i after rs g rs1, seq 0 n = before ++ i :: after ->
      foldM (ws_randomize_vertex p (ws_rewire_prob e)) (ring, rs) before = Done (g, rs1) ->
      ws_randomize_vertex p (ws_rewire_prob e) (g, rs1) i = NoFuel \/
      exists g2 moved rs2,
        ws_randomize_vertex p (ws_rewire_prob e) (g, rs1) i = foldM (ws_add_random_edge p) (g2, rs2) moved /\
        forall done left g3 rs3, moved = done ++ left -> foldM (ws_add_random_edge p) (g2, rs2) done = Done (g3, rs3) ->
          simple_links g3 /\ vertex_count g3 = n.
Proof.
  intros p e n d O D Hd. apply (@randomize_adds T p e n d); auto; try apply O. lia.
Qed.
Print Assumptions C98_rewiring.

(** A new vertex gets its links one after the other: the loop for [m] links is a loop for one more
    link followed by the loop for [m] links. *)
Theorem C98_one_by_one {T : Type} : forall p ws i m (g : graph (node_container T)) rs,
  simple_graph g -> i < vertex_count g -> length ws = vertex_count g -> nth i ws 0 = 0 ->
  0 < list_sum ws -> length (nbrs g i) < m ->
  loop (S (length rs)) (ba_attach p m ws (list_sum ws) i) g rs =
  do ' (g1, rs1) <- loop (S (length rs)) (ba_attach p (S (length (nbrs g i))) ws (list_sum ws) i) g rs;
  loop (S (length rs1)) (ba_attach p m ws (list_sum ws) i) g1 rs1.
Proof. intros p ws i m g rs W Hi Lw Zi Pt Lt. apply (@one_by_one T p ws i m rs g); auto. Qed.
Print Assumptions C98_one_by_one.

(** The next link goes to each vertex that is not yet linked with a probability proportional to its
    weight, which is its degree. *)
Theorem C98_next_link {T : Type} : forall p ws i j (g : graph (node_container T)),
  simple_graph g -> i < vertex_count g -> length ws = vertex_count g -> nth i ws 0 = 0 ->
  weight_of ws (nbrs g i) < list_sum ws -> ~ adj g i j ->
  probability (nth j ws 0) (list_sum ws - weight_of ws (nbrs g i)) (list_sum ws)
    (fun ds => loop (S (length ds)) (ba_attach p (S (length (nbrs g i))) ws (list_sum ws) i) g ds)
    (fun g' => adjb g' i j).
Proof. intros p ws i j g W Hi Lw Zi Lt Na. apply (@next_probability T p ws i g j); auto. lia. Qed.
Print Assumptions C98_next_link.

(** After how many rejected draws it does so. *)
Theorem C98_next_link_after {T : Type} : forall p ws i j (g : graph (node_container T)) k,
  simple_graph g -> i < vertex_count g -> length ws = vertex_count g -> nth i ws 0 = 0 ->
  0 < list_sum ws -> ~ adj g i j ->
  count (fun ds => exactly (fun g' => adjb g' i j)
           (loop (S (length ds)) (ba_attach p (S (length (nbrs g i))) ws (list_sum ws) i) g ds))
    (rolls (repeat (list_sum ws) (S k))) =
  weight_of ws (nbrs g i) ^ k * nth j ws 0.
Proof. intros p ws i j g k W Hi Lw Zi Pt Na. apply (@next_link T p ws i g j); auto. Qed.
Print Assumptions C98_next_link_after.

(** The path 0 - 1 - 2 and a vertex that has its first link, to 1: the next one goes to 0 or 2. *)
Definition C98_grown : graph (node_container nat) :=
  mk_graph 4 3 [mk_nc 0 [1] 0; mk_nc 1 [0; 2; 3] 1; mk_nc 2 [1] 2; mk_nc 3 [1] 3].

Lemma C98_grown_simple : simple_graph C98_grown.
Proof.
  assert (E : add_edges_try Debug (graph_new (fun i => i) 4) [(0, 1); (1, 2); (1, 3)] = Done (Ok tt, C98_grown))
    by (vm_compute; reflexivity).
  exact (proj1 (add_edges_simple (proj1 (graph_new_spec (A := node_container nat) (fun i => i) 4)) E)).
Qed.

Example C98_link_case :
  probability 1 2 4 (fun ds => loop (S (length ds)) (ba_attach Debug 2 [1; 2; 1; 0] 4 3) C98_grown ds)
    (fun g' => adjb g' 3 2) /\
  map (successes 4 (fun ds => loop (S (length ds)) (ba_attach Debug 2 [1; 2; 1; 0] 4 3) C98_grown ds)
    (fun g' => adjb g' 3 2)) (seq 0 6) = [0; 1; 6; 28; 120; 496].
Proof.
  split; [|vm_compute; reflexivity].
  apply (C98_next_link Debug [1; 2; 1; 0] 3 2 C98_grown C98_grown_simple); cbn; lia.
Qed.

(** The ring 0 - 1 - 2 - 3 without its last edge, which is to be rewired: it goes to 0 - 2 or 1 - 3. *)
Definition C98_ring : graph (ws_container nat) :=
  mk_graph 4 4
    [mk_wc 0 0 [1] [mk_oe 0 1 true]; mk_wc 1 1 [0; 2] [mk_oe 1 0 true; mk_oe 1 2 true];
     mk_wc 2 2 [1; 3] [mk_oe 2 1 true; mk_oe 2 3 true]; mk_wc 3 3 [2] [mk_oe 3 2 true]].

Lemma C98_ring_links : simple_links C98_ring.
Proof.
  assert (E : exists g, add_edges_try Debug (graph_new (A := ws_container nat) (fun i => i) 4) [(0, 1); (1, 2); (2, 3)] =
    Done (Ok tt, g) /\ g = mk_graph (next_id C98_ring) (number_of_edges C98_ring) (vertices C98_ring)).
  { eexists. split; vm_compute; reflexivity. }
  destruct E as (g & E & Eg). unfold simple_links. rewrite <- Eg.
  exact (proj1 (add_edges_simple (proj1 (graph_new_spec (A := ws_container nat) (fun i => i) 4)) E)).
Qed.

Example C98_ring_case :
  probability 1 2 4 (fun ds => ws_add_random_edge Debug (C98_ring, ds) (mk_oe 3 0 true)) (fun g' => adjb g' 0 2) /\
  map (successes 4 (fun ds => ws_add_random_edge Debug (C98_ring, ds) (mk_oe 3 0 true)) (fun g' => adjb g' 0 2)) (seq 0 5)
  = [0; 0; 2; 8; 56].
Proof.
  split; [|vm_compute; reflexivity].
  apply (C98_rewired_place Debug C98_ring (mk_oe 3 0 true) 0 2 C98_ring_links); cbn; auto; lia.
Qed.
