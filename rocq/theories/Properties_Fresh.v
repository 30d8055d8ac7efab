(** Whether [randomize] gives a sample that does not depend on the graph before. *)
From Verif Require Import Base BaseFacts Containers ContainerSpec ContainerFacts Graph GraphSpec GraphFacts GraphOps
  GraphBuild Rng RngFacts Markov ErC Ws Ba BaSpec BaFacts Spacial SpacialSpec Dog Sw SwSpec SwFacts SwChain UniformFacts
  FreshFacts.
From Coq Require Import QArith.
Local Open Scope nat_scope.

(** ** C84 *)

(** Two ensembles with the same parameters and payloads, whatever their edges are: the same
    draws give the same ensemble and leave the same draws. *)
Theorem C84_er_c {T : Type} : forall (e f : er_c T) rs,
  simple_graph (erc_graph e) -> simple_graph (erc_graph f) -> payloads (erc_graph f) = payloads (erc_graph e) ->
  erc_prob f = erc_prob e -> erc_c_target f = erc_c_target e ->
  erc_randomize f rs = erc_randomize e rs.
Proof. intros. apply erc_fresh; auto. Qed.
Print Assumptions C84_er_c.

Theorem C84_watts_strogatz {T : Type} : forall p (e f : ws_ensemble T) rs,
  simple_graph (ws_graph e) -> simple_graph (ws_graph f) -> payloads (ws_graph f) = payloads (ws_graph e) ->
  ws_rewire_prob f = ws_rewire_prob e -> ws_distance f = ws_distance e ->
  ws_randomize p f rs = ws_randomize p e rs.
Proof. intros. apply ws_fresh; auto. Qed.
Print Assumptions C84_watts_strogatz.

(** With positions, these have to agree as well: they are not drawn again. *)
Theorem C84_spacial {T : Type} : forall (e f : spacial T) rs,
  simple_graph (sp_graph e) -> simple_graph (sp_graph f) -> payloads (sp_graph f) = payloads (sp_graph e) ->
  positions (sp_graph f) = positions (sp_graph e) -> sp_accept f = sp_accept e ->
  sp_randomize f rs = sp_randomize e rs.
Proof. intros. apply sp_fresh; auto. Qed.
Print Assumptions C84_spacial.

Theorem C84_dog {T : Type} : forall p (e f : dog T) rs,
  simple_graph (dog_graph e) -> simple_graph (dog_graph f) -> payloads (dog_graph f) = payloads (dog_graph e) ->
  positions (dog_graph f) = positions (dog_graph e) ->
  dog_accept f = dog_accept e -> dog_tau f = dog_tau e -> dog_lambda f = dog_lambda e ->
  dog_randomize p f rs = dog_randomize p e rs.
Proof. intros. apply dog_fresh; auto. Qed.
Print Assumptions C84_dog.

Theorem C84_barabasi {T : Type} : forall p n m (e f : ba T) rs,
  ba_ok n m e -> ba_ok n m f -> simple_graph (ba_graph e) -> simple_graph (ba_graph f) ->
  payloads (ba_graph f) = payloads (ba_graph e) -> ba_source f = ba_source e ->
  ba_randomize p f rs = ba_randomize p e rs.
Proof.
  intros p n m e f rs K K' W W' P S. apply ba_fresh with (n := n); auto.
  - rewrite (bo_m K), (bo_m K'). auto.
  - apply K.
  - apply (bo_weights K).
  - apply (bo_weights K').
Qed.
Print Assumptions C84_barabasi.

(** Payloads, edges and other data of two ensembles that are different but meet the
    hypotheses. *)
Example C84_case :
  let g := mk_graph 3 2 [mk_nc 0 [1; 2] 7; mk_nc 1 [0] 8; mk_nc 2 [0] 9] in
  let h := mk_graph 3 1 [mk_nc 0 [] 7; mk_nc 1 [2] 8; mk_nc 2 [1] 9] in
  payloads h = payloads g /\ g <> h /\
  erc_randomize (mk_erc g 0 1) [0; 1; 0] = erc_randomize (mk_erc h 0 1) [0; 1; 0] /\
  match erc_randomize (mk_erc g 0 1) [0; 1; 0] with
  | Done (e, _) => edge_count (erc_graph e) = 2
  | _ => False
  end /\
  match ws_new Debug (fun i => i) 5 1 0%Q (repeat 1 10), ws_new Debug (fun i => i) 5 1 0%Q [1; 0; 2; 0; 1; 1; 1; 1; 1; 1; 1] with
  | Done (Ok (e, _)), Done (Ok (f, _)) => ws_graph e <> ws_graph f /\ payloads (ws_graph f) = payloads (ws_graph e)
  | _, _ => False
  end /\
  match ba_new Debug (fun i => i) 4 1 2 [0; 2; 1; 0; 0; 0; 0; 0; 0; 0; 0; 0; 0],
        ba_new Debug (fun i => i) 4 1 2 [1; 1; 1; 2; 1; 0; 0; 0; 0; 0; 0; 0; 0] with
  | Done (e, _), Done (f, _) => ba_graph e <> ba_graph f /\ ba_source f = ba_source e
  | _, _ => False
  end.
Proof. vm_compute. splits; auto; discriminate. Qed.

(** *** The small-world ensemble *)

(** When every draw decides against rewiring, the graph stays as it is if each edge is at
    its original place, or finds that place taken. *)
Theorem C84_small_world_stays {T : Type} : forall p n (e : sw_ensemble T) rs, sw_ok n 2 (sw_graph e) ->
  (forall i j o, rooted_from (sw_graph e) i j o -> o <> j -> adj (sw_graph e) i o) ->
  2 * n <= length rs -> Forall (fun r => Qle_bool (unit_float r) (sw_r_prob e) = false) rs ->
  sw_randomize p e rs = Done (e, skipn (2 * n) rs).
Proof. intros p n e rs O. apply sw_ok_inv in O. revert O. apply randomize_stays. Qed.
Print Assumptions C84_small_world_stays.

(** The ring, and the ring after some steps with rewiring probability 1. *)
Definition ex_ring : sw_ensemble nat := Eval vm_compute in
  match sw_new Debug (fun i => i) 6 0 (repeat 1 12) with Done (e, _) => e | _ => mk_swe (graph_new (fun i => i) 0) 0 end.

Definition ex_moved (k : nat) (rs : list nat) : sw_ensemble nat :=
  match m_steps (sw_m_step Debug) k (mk_swe (sw_graph ex_ring) 1) rs with
  | Done (_, e, _) => mk_swe (sw_graph e) 0
  | _ => mk_swe (graph_new (fun i => i) 0) 0
  end.

Definition ex_late : sw_ensemble nat := Eval vm_compute in ex_moved 2 [0; 0; 2; 3; 0; 0].

Definition ex_stuck : sw_ensemble nat := Eval vm_compute in
  ex_moved 7 [10; 0; 2; 0; 0; 4; 2; 0; 0; 4; 0; 1; 7; 0; 2; 9; 0; 3; 10; 0; 4].

Lemma ring_history : sw_history Debug 6 ex_ring.
Proof. apply swh_new with (mk := fun i => i) (q := 0%Q) (rs := repeat 1 12) (rs' := []). vm_compute. reflexivity. Qed.

Lemma steps_history {T} p n k : forall (e : sw_ensemble T) rs l e' rs', sw_history p n e ->
  m_steps (sw_m_step p) k e rs = Done (l, e', rs') -> sw_history p n e'.
Proof.
  induction k as [|k IH]; intros e rs l e' rs' H E; cbn [m_steps] in E.
  - injection E as <- <- <-. auto.
  - apply bind_done in E as ([[r s1] rs1] & E1 & E).
    apply bind_done in E as ([[l2 s2] rs2] & E2 & E). injection E as <- <- <-.
    apply (IH s1 rs1 l2 s2 rs2); auto. eapply swh_step; eauto.
Qed.

Lemma moved_history k rs e : (exists l h rs', m_steps (sw_m_step Debug) k (mk_swe (sw_graph ex_ring) 1) rs = Done (l, h, rs') /\
  e = mk_swe (sw_graph h) 0) -> sw_history Debug 6 e.
Proof.
  intros (l & h & rs' & E & ->). apply swh_set_prob.
  eapply steps_history; [|exact E]. apply swh_set_prob, ring_history.
Qed.

Lemma late_history : sw_history Debug 6 ex_late.
Proof.
  apply moved_history with (k := 2) (rs := [0; 0; 2; 3; 0; 0]). eexists; eexists; eexists.
  split; vm_compute; reflexivity.
Qed.

Lemma stuck_history : sw_history Debug 6 ex_stuck.
Proof.
  apply moved_history with (k := 7) (rs := [10; 0; 2; 0; 0; 4; 2; 0; 0; 4; 0; 1; 7; 0; 2; 9; 0; 3; 10; 0; 4]).
  eexists; eexists; eexists. split; vm_compute; reflexivity.
Qed.

(** Both ensembles have rewiring probability 0, the same vertices, and draws that decide
    against rewiring.  One becomes the ring, the other does not: vertex 0 finds the place of
    its edge taken by an edge of vertex 1, which goes back only afterwards. *)
Theorem C84_small_world_refuted : exists e f : sw_ensemble nat,
  sw_history Debug 6 e /\ sw_history Debug 6 f /\ payloads (sw_graph f) = payloads (sw_graph e) /\
  sw_r_prob e = 0%Q /\ sw_r_prob f = 0%Q /\
  forall p rs, 12 <= length rs -> Forall (fun r => Qle_bool (unit_float r) 0 = false) rs ->
  exists e' f', sw_randomize p e rs = Done (e', skipn 12 rs) /\ sw_randomize p f rs = Done (f', skipn 12 rs) /\
    count_long_ranging_edges (sw_graph e') = 0 /\ adj (sw_graph e') 0 1 /\
    long_range (sw_graph f') 0 3 /\ ~ adj (sw_graph f') 0 1 /\ sw_graph e' <> sw_graph f'.
Proof.
  exists ex_ring, ex_late. splits; auto using ring_history, late_history.
  intros p rs L F.
  rewrite (@randomize_resets nat p ex_ring rs L F), (@randomize_resets nat p ex_late rs L F).
  assert (A : exists g', foldM (reset_vertex p) (sw_graph ex_late) (seq 0 6) = Done g' /\
    nbrs g' 0 = [3; 2; 4; 5] /\ entries g' 0 = [mk_se 3 (Some 1); mk_se 2 (Some 2); mk_se 4 None; mk_se 5 None]).
  { destruct p; eexists; (split; [vm_compute; reflexivity|]); vm_compute; auto. }
  assert (B : foldM (reset_vertex p) (sw_graph ex_ring) (seq 0 6) = Done (sw_graph ex_ring)) by (destruct p; vm_compute; auto).
  destruct A as (g' & A & N & R).
  change (vertex_count (sw_graph ex_ring)) with 6. change (vertex_count (sw_graph ex_late)) with 6.
  rewrite A, B. cbn [bind]. eexists; eexists. splits; try reflexivity; cbn [sw_graph].
  - unfold adj. vm_compute. auto.
  - exists 1. split; [|discriminate]. unfold rooted_from. rewrite R. simpl. auto.
  - unfold adj. rewrite N. simpl. intuition discriminate.
  - intros X. rewrite <- X in N. vm_compute in N. discriminate.
Qed.
Print Assumptions C84_small_world_refuted.

(** It can be stuck altogether: here vertex [i] has its edge to [i + 1] at [i - 1].  The
    neighbours are those of the ring, but every reset finds its place taken, for ever. *)
Theorem C84_small_world_stuck : exists e : sw_ensemble nat, sw_history Debug 6 e /\ sw_r_prob e = 0%Q /\
  (forall i j, adj (sw_graph e) i j <-> adj (sw_graph ex_ring) i j) /\
  count_long_ranging_edges (sw_graph e) = 6 /\ count_long_ranging_edges (sw_graph ex_ring) = 0 /\
  forall p rs, 12 <= length rs -> Forall (fun r => Qle_bool (unit_float r) 0 = false) rs ->
    sw_randomize p e rs = Done (e, skipn 12 rs).
Proof.
  exists ex_stuck. splits; auto using stuck_history.
  - intros i j. unfold adj.
    destruct i as [|[|[|[|[|[|i]]]]]]; try (vm_compute; intuition lia).
  - intros p rs L F. rewrite (@randomize_resets nat p ex_stuck rs L F).
    change (vertex_count (sw_graph ex_stuck)) with 6.
    assert (B : foldM (reset_vertex p) (sw_graph ex_stuck) (seq 0 6) = Done (sw_graph ex_stuck))
      by (destruct p; vm_compute; auto).
    rewrite B. reflexivity.
Qed.
Print Assumptions C84_small_world_stuck.

(** Draws that decide against rewiring exist, and [C84_small_world_stays] applies to the ring. *)
Example C84_small_world_case :
  Forall (fun r => Qle_bool (unit_float r) 0 = false) (repeat 1 12) /\
  sw_randomize Debug ex_ring (repeat 1 12 ++ [5]) = Done (ex_ring, [5]).
Proof. split; [repeat constructor|]. vm_compute. auto. Qed.
