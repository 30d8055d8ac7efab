(** Theorems about the Watts-Strogatz ensemble. *)
From Verif Require Import Base BaseFacts Sums Containers ContainerSpec ContainerFacts Graph GraphSpec GraphFacts GraphOps GraphBuild Rng RngFacts Runs Ws WsSpec WsFacts WsRun.
From Coq Require Import QArith.
Local Open Scope nat_scope.

(** ** C46 *)

(** Whatever the draws, [new] never panics, and what it returns is in order. *)
Theorem C46_new {T : Type} : forall p (mk : nat -> T) n d q rs,
  match ws_new p mk n d q rs with
  | Done (Err e) => n < 2 * d + 1 /\ e = ImpossibleRingRequest
  | Done (Ok (e, rs')) => 2 * d + 1 <= n /\ ws_ok n d (ws_graph e) /\
      payloads (ws_graph e) = map mk (seq 0 n) /\ ws_rewire_prob e = q /\ ws_distance e = d /\
      exists used, rs = used ++ rs'
  | NoFuel => 2 * d + 1 <= n
  | _ => False
  end.
Proof.
  intros p mk n d q rs. destruct (Nat.lt_ge_cases n (1 + 2 * d)) as [H|H].
  - unfold ws_new. destruct (Nat.ltb_spec n (1 + 2 * d)); [|lia]. split; auto. lia.
  - destruct (new_unfold p mk q rs (n := n) (d := d)) as (g & _ & W & V & P & ->); [lia|].
    pose proof (@randomize_runs T False p (mk_wse g q d) n d W V eq_refl ltac:(lia) ltac:(tauto) rs) as R.
    destruct (ws_randomize p (mk_wse g q d) rs) as [[e rs']| | |]; cbn [bind]; try tauto; try lia.
    destruct R as [(R1 & R2 & R3 & R4) (u & Eu & _)]. splits; auto; try lia.
    + cbn in R2. congruence.
    + exists u. auto.
Qed.
Print Assumptions C46_new.

(** The same for [randomize] on any simple graph, however it came about. *)
Theorem C46_randomize {T : Type} : forall p (e : ws_ensemble T) rs,
  simple_graph (ws_graph e) -> 2 * ws_distance e + 1 <= vertex_count (ws_graph e) ->
  match ws_randomize p e rs with
  | Done (e', rs') => ws_ok (vertex_count (ws_graph e)) (ws_distance e) (ws_graph e') /\
      payloads (ws_graph e') = payloads (ws_graph e) /\
      ws_rewire_prob e' = ws_rewire_prob e /\ ws_distance e' = ws_distance e /\
      exists used, rs = used ++ rs'
  | NoFuel => True
  | _ => False
  end.
Proof.
  intros p e rs W Hd.
  pose proof (@randomize_runs T False p e _ _ W eq_refl eq_refl ltac:(lia) ltac:(tauto) rs) as R.
  destruct (ws_randomize p e rs) as [[e' rs']| | |]; auto.
  destruct R as [(R1 & R2 & R3 & R4) (u & Eu & _)]. splits; auto. exists u. auto.
Qed.
Print Assumptions C46_randomize.

Theorem C46_history {T : Type} : forall p n d q (e : ws_ensemble T),
  ws_history p n d q e -> ws_ok n d (ws_graph e) /\ ws_rewire_prob e = q /\ ws_distance e = d.
Proof.
  intros p n d q e H.
  assert (K : (ws_ok n d (ws_graph e) /\ ws_rewire_prob e = q /\ ws_distance e = d) /\ 2 * d + 1 <= n); [|tauto].
  induction H as [mk rs e rs' E|e rs e' rs' H IH E|e g' H IH E].
  - pose proof (C46_new p mk n d q rs) as K. rewrite E in K. tauto.
  - destruct IH as [(I1 & I2 & I3) Hd]. split; auto.
    pose proof (C46_randomize p e rs (wo_simple I1)) as K. rewrite E, (wo_vertices I1), I3 in K.
    destruct (K Hd) as (K1 & _ & K2 & K3 & _). rewrite K2. auto.
  - destruct IH as [(I1 & I2 & I3) Hd]. split; auto. cbn. splits; auto.
    apply (sort_ws_ok I1) in E; [tauto|lia].
Qed.
Print Assumptions C46_history.

(** Five vertices, distance one: the edge 0-1 moves to 2-0 at its first draw; the other
    draws, two for each of the four other edges, leave the edges where they are. *)
Definition ws_draws : list nat := [1; 0; 2; 0; 1; 1; 1; 1; 1; 1; 1].

Example C46_example :
  match ws_new Debug (fun i => i) 5 1 0%Q ws_draws with
  | Done (Ok (e, rs')) =>
      map (fun c => (wc_to c, wc_original c)) (vertices (ws_graph e)) =
      [([4; 2], [mk_oe 0 4 true; mk_oe 1 0 false]);
       ([2], [mk_oe 1 2 true]);
       ([1; 3; 0], [mk_oe 2 1 true; mk_oe 2 3 true; mk_oe 0 1 false]);
       ([2; 4], [mk_oe 3 2 true; mk_oe 3 4 true]);
       ([3; 0], [mk_oe 4 3 true; mk_oe 4 0 true])] /\ edge_count (ws_graph e) = 5 /\ rs' = []
  | _ => False
  end.
Proof. vm_compute. auto. Qed.

(** ** C47 *)

(** One vertex more than the smallest ring is enough: a run that waits for draws can
    always be completed. *)
Theorem C47_returns {T : Type} : forall p (mk : nat -> T) n d q rs,
  2 * d + 2 <= n -> ws_new p mk n d q rs = NoFuel ->
  exists more e, forall rest, ws_new p mk n d q (rs ++ more ++ rest) = Done (Ok (e, rest)).
Proof.
  intros p mk n d q rs Hd E.
  destruct (new_unfold p mk q rs (n := n) (d := d)) as (g & Eg & W & V & P & Er); [lia|].
  rewrite Er in E.
  pose proof (@randomize_runs T True p (mk_wse g q d) n d W V eq_refl ltac:(lia) ltac:(lia) rs) as R.
  destruct (ws_randomize p (mk_wse g q d) rs) as [[e rs']| | |]; cbn [bind] in E; try discriminate E.
  destruct (R I) as (more & e & H & _). exists more, e. intros rest.
  destruct (new_unfold p mk q (rs ++ more ++ rest) (n := n) (d := d)) as (g2 & Eg2 & _ & _ & _ & ->); [lia|].
  assert (g2 = g) by congruence. subst g2. rewrite H. reflexivity.
Qed.
Print Assumptions C47_returns.

Lemma accepts_one q : (1 <= q)%Q -> forall r, accepts q r = true.
Proof.
  intros H r. unfold accepts. apply Qle_bool_iff. eapply Qle_trans; [|exact H].
  apply Qlt_le_weak. apply unit_float_range.
Qed.

(** The smallest ring is the complete graph: if every edge is to be rewired, there is
    no place left for the last one. *)
Theorem C47_smallest_ring {T : Type} : forall p (mk : nat -> T) d q rs,
  1 <= d -> (1 <= q)%Q -> ws_new p mk (2 * d + 1) d q rs = NoFuel.
Proof.
  intros p mk d q rs Hd Hq.
  destruct (new_unfold p mk q rs (n := 2 * d + 1) (d := d)) as (g & _ & W & V & _ & ->); [lia|].
  rewrite (@randomize_stuck T p (mk_wse g q d) (2 * d + 1) d W V); auto.
  apply accepts_one; auto.
Qed.
Print Assumptions C47_smallest_ring.

Theorem C47_terminates_refuted :
  exists n d q, 2 * d + 1 <= n /\ 1 <= d /\ (0 <= q <= 1)%Q /\
    forall p (mk : nat -> unit) rs, ws_new p mk n d q rs = NoFuel.
Proof.
  exists 3, 1, 1%Q. splits; try lia; try discriminate.
  intros p mk rs. apply (C47_smallest_ring p mk 1); [lia|discriminate].
Qed.
Print Assumptions C47_terminates_refuted.

(** In the example one draw is missing. *)
Example C47_example :
  ws_new Release (fun i => i) 5 1 0%Q [1; 0; 2] = NoFuel /\
  exists e, ws_new Release (fun i => i) 5 1 0%Q ([1; 0; 2] ++ skipn 3 ws_draws ++ [7]) = Done (Ok (e, [7])).
Proof. vm_compute. eauto. Qed.

(** ** C64 *)

(** The ring is left as it is exactly if the random generator decides against rewiring
    twice for each of the [n*d] edges. *)
Theorem C64_two_draws_per_edge {T : Type} : forall p (e : ws_ensemble T) rs rs',
  simple_graph (ws_graph e) -> 2 * ws_distance e + 1 <= vertex_count (ws_graph e) ->
  (exists e', ws_randomize p e rs = Done (e', rs') /\
     forall i j o, In (j, o) (ws_entries (ws_graph e') i) -> oe_at_origin o = true) <->
  (exists used, rs = used ++ rs' /\
     length used = 2 * (vertex_count (ws_graph e) * ws_distance e) /\
     forall r, In r used -> (ws_rewire_prob e < unit_float r)%Q).
Proof.
  intros p e rs rs' W Hd.
  pose proof (@randomize_kept T p e _ _ W eq_refl eq_refl ltac:(lia) rs rs') as K.
  assert (Q : forall r, accepts (ws_rewire_prob e) r = false <-> (ws_rewire_prob e < unit_float r)%Q).
  { intros r. unfold accepts. rewrite <- not_true_iff_false, Qle_bool_iff. split.
    - apply Qnot_le_lt.
    - apply Qlt_not_le. }
  split.
  - intros (e' & E & H). destruct (proj1 K) as (u & H1 & H2 & H3).
    + exists e'. split; auto. intros k [j o]. apply H.
    + exists u. splits; auto. rewrite Forall_forall in H2. intros r Hr. apply Q. auto.
  - intros (u & H1 & H2 & H3). destruct (proj2 K) as (e' & E & H).
    + exists u. splits; auto. apply Forall_forall. intros r Hr. apply Q. auto.
    + exists e'. split; auto. intros i j o. apply H.
Qed.
Print Assumptions C64_two_draws_per_edge.

(** Vertex 0 uses up two draws and keeps both its edges; then vertex 1 draws again for
    the edge 0-1 and moves it. *)
Theorem C64_one_draw_refuted :
  exists p n d q rs g0 e rs',
    init_ring p (graph_new (fun _ => tt) n) d = Done (Ok tt, g0) /\
    adj g0 0 1 /\
    ws_randomize_vertex p q (g0, rs) 0 = Done (g0, skipn 2 rs) /\
    ws_randomize p (mk_wse g0 q d) rs = Done (e, rs') /\
    ~ adj (ws_graph e) 0 1.
Proof.
  exists Debug, 5, 1, 0%Q, [1; 1; 1; 0; 3; 0; 1; 1; 1; 1; 1; 1]. eexists. eexists. eexists.
  split; [vm_compute; reflexivity|]. split; [vm_compute; auto|].
  split; [vm_compute; reflexivity|]. split; [vm_compute; reflexivity|].
  vm_compute. intuition discriminate.
Qed.
Print Assumptions C64_one_draw_refuted.
