(** Theorems about memory safety: what safe code may call without undefined behaviour. *)
From Verif Require Import Base BaseFacts Containers ContainerSpec ContainerFacts Graph GraphSpec GraphFacts GraphOps GraphBuild Rng RngFacts Runs ErC ErM Sw Ws Config ConfigSpec Ba BaSpec BaFacts Spacial SafeSpec SafeFacts SafeRings.
From Coq Require Import QArith.
Local Open Scope nat_scope.

(** ** C102 *)

(** In a release build, [add_edge] and [remove_edge] of a simple graph are undefined exactly
    for two equal vertices and for vertices that are not there. *)
Theorem C102_edges {T A : Type} {C : AdjContainer T A} {L : AdjLaws C} : forall (g : graph A) i j, simple_graph g ->
  (add_edge Release g i j = UB <-> ~ apart (vertex_count g) (i, j)) /\
  (remove_edge Release g i j = UB <-> ~ apart (vertex_count g) (i, j)) /\
  add_edge Debug g i j <> UB /\ remove_edge Debug g i j <> UB.
Proof.
  intros g i j W. splits; [apply add_edge_ub; auto|apply remove_edge_ub; auto| |].
  - apply (@safe_add_edge _ _ _ _ Debug (vertex_count g) g i j); [split; auto|intros E; discriminate].
  - apply (@safe_remove_edge _ _ _ _ Debug (vertex_count g) g i j); [split; auto|intros E; discriminate].
Qed.
Print Assumptions C102_edges.

(** Programs: whatever they call, and in whatever order, with whatever numbers drawn, nothing is
    undefined.  In a release build the steps given to be undone must name pairs of
    different vertices of the ensemble; see below for where such steps come from. *)
Theorem C102_er_c {T : Type} : forall p (mk : nat -> T) n c rs l, careful erc_arguments p n l ->
  safe (fun r => simple_graph (erc_graph (fst r)) /\ vertex_count (erc_graph (fst r)) = n)
    (do s <- erc_new p mk n c rs; program (erc_do p) s l).
Proof. exact (@safe_erc T). Qed.
Print Assumptions C102_er_c.

Theorem C102_er_m {T : Type} : forall p (mk : nat -> T) n m rs l, careful erm_arguments p n l ->
  safe (fun r => simple_graph (erm_graph (fst r)) /\ vertex_count (erm_graph (fst r)) = n)
    (do s <- erm_new p mk n m rs; program (erm_do p) s l).
Proof. exact (@safe_erm T). Qed.
Print Assumptions C102_er_m.

Theorem C102_spacial {T : Type} : forall p (mk : nat -> T) n accept rs l, careful sp_arguments p n l ->
  safe (fun r => simple_graph (sp_graph (fst r)) /\ vertex_count (sp_graph (fst r)) = n)
    (do s <- sp_new mk n accept rs; program (sp_do p) s l).
Proof. exact (@safe_sp T). Qed.
Print Assumptions C102_spacial.

(** Also from vectors that are no degree sequences, for which a program may only hang or panic. *)
Theorem C102_config {T : Type} : forall p (mk : nat -> T) v rs l, careful cm_arguments p (length v) l ->
  safe (fun r => simple_graph (cm_graph (fst r)) /\ vertex_count (cm_graph (fst r)) = length v)
    (do s <- cm_from_vec_unchecked p mk v rs; program (cm_do p) s l).
Proof.
  intros p mk v rs l H. eapply safe_bind; [apply safe_cm_unchecked|]. intros s K.
  eapply safe_weaken; [|apply (safe_cm_program H K)]. intros r Kr. apply (ct_graph Kr).
Qed.
Print Assumptions C102_config.

Theorem C102_config_from {T : Type} : forall p (mk : nat -> T) v rs l, careful cm_arguments p (length v) l ->
  safe (fun o => match o with Some r => simple_graph (cm_graph (fst r)) /\ vertex_count (cm_graph (fst r)) = length v | None => True end)
    (do o <- cm_from_vec p mk v rs;
     match o with Some s => do r <- program (cm_do p) s l; Done (Some r) | None => Done None end).
Proof.
  intros p mk v rs l H. unfold cm_from_vec. destruct (degree_vec_is_valid v); cbn [bind]; [|apply safe_done; auto].
  pose proof (C102_config p mk v rs l H) as S. destruct (cm_from_vec_unchecked p mk v rs) as [s| | |]; cbn [bind] in *; auto.
  - eapply safe_bind; [apply S|]. intros r Kr. apply safe_done. exact Kr.
  - apply safe_panic.
  - destruct S as [S _]. congruence.
  - apply safe_nofuel.
Qed.
Print Assumptions C102_config_from.

Theorem C102_config_const {T : Type} : forall p (mk : nat -> T) k n rs l, careful cm_arguments p n l ->
  safe (fun o => match o with Some r => simple_graph (cm_graph (fst r)) /\ vertex_count (cm_graph (fst r)) = n | None => True end)
    (do o <- cm_from_const p mk k n rs;
     match o with Some s => do r <- program (cm_do p) s l; Done (Some r) | None => Done None end).
Proof.
  intros p mk k n rs l H. unfold cm_from_const. destruct (usub p n 1) as [x| | |] eqn:E; cbn [bind].
  - destruct (_ || _); cbn [bind]; [apply safe_done; auto|].
    pose proof (C102_config p mk (repeat k n) rs l) as S. rewrite repeat_length in S. specialize (S H).
    destruct (cm_from_vec_unchecked p mk (repeat k n) rs) as [s| | |]; cbn [bind] in *.
    + eapply safe_bind; [apply S|]. intros r Kr. apply safe_done. exact Kr.
    + apply safe_panic.
    + destruct S as [S _]. congruence.
    + apply safe_nofuel.
  - apply safe_panic.
  - destruct (safe_usub p n 1). congruence.
  - apply safe_nofuel.
Qed.
Print Assumptions C102_config_const.

(** The other two ways to start: with the degrees, or as a copy, of any simple graph. *)
Theorem C102_config_generic {T A : Type} {C : AdjContainer T A} {L : AdjLaws C} :
  forall p (mk : nat -> T) (g : graph A) rs l, simple_graph g -> careful cm_arguments p (vertex_count g) l ->
  safe (fun r => simple_graph (cm_graph (fst r)) /\ vertex_count (cm_graph (fst r)) = vertex_count g)
    (do s <- cm_from_generic_graph p mk g rs; program (cm_do p) s l) /\
  safe (fun r => simple_graph (cm_graph (fst r)) /\ vertex_count (cm_graph (fst r)) = vertex_count g)
    (program (cm_do p) (cm_clone_from_generic_graph g, rs) l).
Proof.
  intros p mk g rs l W H. assert (E : length (degree_vec g) = vertex_count g).
  { unfold degree_vec. rewrite map_length. apply (sg_len W). }
  split.
  - pose proof (C102_config p mk (degree_vec g) rs l) as S. rewrite E in S. exact (S H).
  - eapply safe_weaken; [|apply (safe_cm_program H)]; [|apply (cm_tame_clone W)]. intros r Kr. apply (ct_graph Kr).
Qed.
Print Assumptions C102_config_generic.

Theorem C102_sw {T : Type} : forall p (mk : nat -> T) n q rs l, careful sw_arguments p n l ->
  (do s <- sw_new p mk n q rs; program (sw_do p) s l) = UB <-> p = Release /\ 1 <= n <= 2.
Proof.
  intros p mk n q rs l H. destruct (@graph_new_spec T (sw_container T) _ _ mk n) as (W & V & _). cbv zeta in W, V.
  assert (D : p = Release /\ 1 <= n <= 2 \/ (p = Release -> n <> 1 /\ n <> 2)).
  { destruct p; [right; discriminate|]. destruct (Nat.le_gt_cases 1 n), (Nat.le_gt_cases n 2); auto; right; lia. }
  destruct D as [[-> Hn]|Hn].
  - split; auto. intros _. unfold sw_new, sw_init_ring_2.
    rewrite (@init_ring_tiny T _ _ _ Release (graph_new mk n) 2 W) by (rewrite V; lia). reflexivity.
  - split; [|intros [E K]; specialize (Hn E); lia]. intros E. exfalso. revert E.
    assert (S : safe (fun r => sw_tame n (fst r)) (do s <- sw_new p mk n q rs; program (sw_do p) s l)); [|apply S].
    eapply safe_bind; [apply safe_sw_new; auto|]. intros s K. apply (safe_sw_program H K).
Qed.
Print Assumptions C102_sw.

Theorem C102_sw_distance {T : Type} : forall p (mk : nat -> T) n d q rs l, careful sw_arguments p n l ->
  (do o <- sw_new_with_distance p mk n d q rs;
   match o with Ok s => do r <- program (sw_do p) s l; Done (Ok r) | Err e => Done (Err e) end) = UB <->
  p = Release /\ 1 <= n <= d.
Proof.
  intros p mk n d q rs l H. destruct (@graph_new_spec T (sw_container T) _ _ mk n) as (W & V & _). cbv zeta in W, V.
  assert (D : p = Release /\ 1 <= n <= d \/ (p = Release -> n = 0 \/ d < n)).
  { destruct p; [right; discriminate|]. destruct (Nat.le_gt_cases 1 n), (Nat.le_gt_cases n d); auto; right; lia. }
  destruct D as [[-> Hn]|Hn].
  - split; auto. intros _. unfold sw_new_with_distance.
    rewrite (@init_ring_tiny T _ _ _ Release (graph_new mk n) d W) by (rewrite V; lia). reflexivity.
  - split; [|intros [E K]; specialize (Hn E); lia]. intros E. exfalso. revert E.
    match goal with |- ?m = UB -> False => assert (S : safe (fun _ => True) m); [|apply S] end.
    eapply safe_bind; [apply safe_sw_new_with; auto|]. intros [s|e] K; [|apply safe_done; auto].
    eapply safe_bind; [apply (safe_sw_program H K)|]. intros r _. apply safe_done; auto.
Qed.
Print Assumptions C102_sw_distance.

(** [WattsStrogatzEnsemble] and [BarabasiAlbert] have no steps to be undone. *)
Theorem C102_ws {T : Type} : forall p (mk : nat -> T) n d q rs l,
  (do o <- ws_new p mk n d q rs;
   match o with Ok s => do r <- program (ws_do p) s l; Done (Ok r) | Err e => Done (Err e) end) <> UB.
Proof.
  intros p mk n d q rs l. match goal with |- ?m <> UB => assert (S : safe (fun _ => True) m); [|apply S] end.
  eapply safe_bind; [apply safe_ws_new|]. intros [s|e] K; [|apply safe_done; auto].
  eapply safe_bind; [apply (@safe_ws_program T p n d); tauto|]. intros r _. apply safe_done; auto.
Qed.
Print Assumptions C102_ws.

Theorem C102_ba {T A : Type} {C : AdjContainer T A} {L : AdjLaws C} :
  forall p (mk : nat -> T) n m k (src : graph (node_container T)) (gen : graph A) rs l,
  simple_graph src -> simple_graph gen ->
  safe (fun r => simple_graph (ba_graph (fst r)) /\ vertex_count (ba_graph (fst r)) = n)
    (do s <- ba_new p mk n m k rs; program (ba_do p) s l) /\
  safe (fun r => simple_graph (ba_graph (fst r)) /\ vertex_count (ba_graph (fst r)) = n)
    (do s <- ba_new_from_graph p mk n m src rs; program (ba_do p) s l) /\
  safe (fun r => simple_graph (ba_graph (fst r)) /\ vertex_count (ba_graph (fst r)) = n)
    (do s <- ba_new_from_generic_graph p mk n m gen rs; program (ba_do p) s l).
Proof.
  intros p mk n m k src gen rs l Ws Wg.
  assert (K : forall (s : ba T * rng), ba_ready n m (fst s) ->
    safe (fun r => simple_graph (ba_graph (fst r)) /\ vertex_count (ba_graph (fst r)) = n) (program (ba_do p) s l)).
  { intros s R. eapply safe_weaken; [|apply (@safe_ba_program T p n m s l R)]. intros r Kr. split; apply Kr. }
  splits; (eapply safe_bind; [|exact K]).
  - apply safe_ba_new.
  - apply safe_ba_from_graph; auto.
  - apply safe_ba_from_generic; auto.
Qed.
Print Assumptions C102_ba.

(** ** Undoing any step that one can make up *)

Theorem C102_undo_er_c {T : Type} : forall (e : er_c T) s, simple_graph (erc_graph e) ->
  (erc_undo_step Release e s = UB <-> ~ Forall (apart (vertex_count (erc_graph e))) (erc_names s)) /\
  (erc_undo_step_quiet Release e s = UB <-> ~ Forall (apart (vertex_count (erc_graph e))) (erc_names s)).
Proof. exact (@erc_undo_ub T). Qed.
Print Assumptions C102_undo_er_c.

Theorem C102_undo_er_m {T : Type} : forall (e : er_m T) s, simple_graph (erm_graph e) ->
  let n := vertex_count (erm_graph e) in
  let bad := ~ apart n (esm_inserted s) \/
     (adj (erm_graph e) (fst (esm_inserted s)) (snd (esm_inserted s)) /\ ~ apart n (esm_removed s)) in
  (erm_undo_step Release e s = UB <-> bad) /\ (erm_undo_step_quiet Release e s = UB <-> bad).
Proof. exact (@erm_undo_ub T). Qed.
Print Assumptions C102_undo_er_m.

Theorem C102_undo_spacial {T : Type} : forall (e : spacial T) s, simple_graph (sp_graph e) ->
  (sp_undo_step Release e s = UB <-> ~ Forall (apart (vertex_count (sp_graph e))) (sp_names s)) /\
  (sp_undo_step_quiet Release e s = UB <-> ~ Forall (apart (vertex_count (sp_graph e))) (sp_names s)).
Proof. exact (@sp_undo_ub T). Qed.
Print Assumptions C102_undo_spacial.

Theorem C102_undo_config {T : Type} : forall (e : config T) s, simple_graph (cm_graph e) ->
  (cm_undo_step Release e s = UB <-> cm_undo_bad (vertex_count (cm_graph e)) (cm_graph e) s) /\
  (cm_undo_step_quiet Release e s = UB <-> cm_undo_bad (vertex_count (cm_graph e)) (cm_graph e) s).
Proof. intros e s W. apply cm_undo_ub. split; auto. Qed.
Print Assumptions C102_undo_config.

(** After any careful program. *)
Theorem C102_undo_sw {T : Type} : forall (mk : nat -> T) n q rs l e rs' s, careful sw_arguments Release n l ->
  (do s <- sw_new Release mk n q rs; program (sw_do Release) s l) = Done (e, rs') ->
  (sw_undo_step Release e s = UB <-> ~ Forall (apart n) (sw_names s)) /\
  (sw_undo_step_quiet Release e s = UB <-> ~ Forall (apart n) (sw_names s)).
Proof.
  intros mk n q rs l e rs' s H E. apply sw_undo_ub.
  assert (Hn : ~ 1 <= n <= 2).
  { intros Hn. rewrite (proj2 (@C102_sw T Release mk n q rs l H)) in E; auto. discriminate. }
  assert (S : safe (fun r => sw_tame n (fst r)) (do s <- sw_new Release mk n q rs; program (sw_do Release) s l)).
  { eapply safe_bind; [apply safe_sw_new; intros _; lia|]. intros s0 K. apply (safe_sw_program H K). }
  apply (proj2 S _ E).
Qed.
Print Assumptions C102_undo_sw.

(** ** Where harmless steps come from: [m_step] of an ensemble that is not larger. *)

Lemma bind_assoc {X Y Z} (m : outcome X) (f : X -> outcome Y) (h : Y -> outcome Z) :
  bind (bind m f) h = bind m (fun x => bind (f x) h).
Proof. destruct m; reflexivity. Qed.

Lemma apart_le n k ij : n <= k -> apart n ij -> apart k ij.
Proof. unfold apart. intuition lia. Qed.

Lemma apart_all n k l : n <= k -> Forall (apart n) l -> Forall (apart k) l.
Proof. intros H. apply Forall_impl. intros ij. apply apart_le; auto. Qed.

Theorem C102_steps_er_c {T : Type} : forall p (mk : nat -> T) n c rs l s e rs' k, careful erc_arguments p n l -> n <= k ->
  (do a <- erc_new p mk n c rs; do b <- program (erc_do p) a l; erc_m_step p (fst b) (snd b)) = Done (s, e, rs') ->
  Forall (apart k) (erc_names s).
Proof.
  intros p mk n c rs l s e rs' k H Hk E. rewrite <- bind_assoc in E. apply bind_done in E as (b & Eb & E).
  apply (apart_all n); auto. apply (proj2 (C102_er_c p mk n c rs l H)) in Eb.
  apply (proj2 (safe_erc_step p (snd b) Eb)) in E. apply E.
Qed.
Print Assumptions C102_steps_er_c.

Theorem C102_steps_er_m {T : Type} : forall p (mk : nat -> T) n m rs l s e rs' k, careful erm_arguments p n l -> n <= k ->
  (do a <- erm_new p mk n m rs; do b <- program (erm_do p) a l; erm_m_step p (fst b) (snd b)) = Done (s, e, rs') ->
  Forall (apart k) (erm_names s).
Proof.
  intros p mk n m rs l s e rs' k H Hk E. apply bind_done in E as (a & Ea & E). apply bind_done in E as (b & Eb & E).
  apply (apart_all n); auto. apply (proj2 (safe_erm_start p mk n m rs)) in Ea.
  assert (S : safe (fun r => erm_tame n (fst r)) (program (erm_do p) a l)).
  { apply safe_program with (P := erm_tame n); auto. intros e1 c1 rs1 Hc Ke. apply safe_erm_do; auto.
    intros ij Hij. eapply careful_In; eauto. }
  apply (proj2 S) in Eb. apply (proj2 (safe_erm_m_step p (snd b) Eb)) in E. apply E.
Qed.
Print Assumptions C102_steps_er_m.

Theorem C102_steps_spacial {T : Type} : forall p (mk : nat -> T) n accept rs l s e rs' k, careful sp_arguments p n l -> n <= k ->
  (do a <- sp_new mk n accept rs; do b <- program (sp_do p) a l; sp_m_step p (fst b) (snd b)) = Done (s, e, rs') ->
  Forall (apart k) (sp_names s).
Proof.
  intros p mk n accept rs l s e rs' k H Hk E. rewrite <- bind_assoc in E. apply bind_done in E as (b & Eb & E).
  apply (apart_all n); auto. apply (proj2 (C102_spacial p mk n accept rs l H)) in Eb.
  apply (proj2 (safe_sp_step p (snd b) Eb)) in E. apply E.
Qed.
Print Assumptions C102_steps_spacial.

Theorem C102_steps_config {T : Type} : forall p (mk : nat -> T) v rs l s e rs' k, careful cm_arguments p (length v) l -> length v <= k ->
  (do a <- cm_from_vec_unchecked p mk v rs; do b <- program (cm_do p) a l; cm_m_step p (fst b) (snd b)) = Done (s, e, rs') ->
  Forall (apart k) (cm_names s).
Proof.
  intros p mk v rs l s e rs' k H Hk E. apply bind_done in E as (a & Ea & E). apply bind_done in E as (b & Eb & E).
  apply (apart_all (length v)); auto. apply (proj2 (safe_cm_unchecked p mk v rs)) in Ea.
  apply (proj2 (safe_cm_program H Ea)) in Eb. apply (proj2 (safe_cm_step p (snd b) Eb)) in E. apply E.
Qed.
Print Assumptions C102_steps_config.

Theorem C102_steps_sw {T : Type} : forall p (mk : nat -> T) n q rs l s e rs' k, careful sw_arguments p n l -> n <= k ->
  (do a <- sw_new p mk n q rs; do b <- program (sw_do p) a l; sw_m_step p (fst b) (snd b)) = Done (s, e, rs') ->
  Forall (apart k) (sw_names s).
Proof.
  intros p mk n q rs l s e rs' k H Hk E. rewrite <- bind_assoc in E. apply bind_done in E as (b & Eb & E).
  apply (apart_all n); auto.
  assert (Hn : p = Release -> n <> 1 /\ n <> 2).
  { intros Ep. assert (~ 1 <= n <= 2); [|lia]. intros Hn.
    rewrite (proj2 (@C102_sw T p mk n q rs l H)) in Eb; auto. discriminate. }
  assert (S : safe (fun r => sw_tame n (fst r)) (do s <- sw_new p mk n q rs; program (sw_do p) s l)).
  { eapply safe_bind; [apply safe_sw_new; auto|]. intros s0 K. apply (safe_sw_program H K). }
  apply (proj2 S) in Eb. apply (proj2 (safe_sw_step p (snd b) Eb)) in E. apply E.
Qed.
Print Assumptions C102_steps_sw.

(** ** Other steps

    The steps of four of the ensembles are public enumerations that anyone can build, and a step of
    [ErEnsembleM] can come from a larger ensemble.  The functions that undo them are safe to call, but
    not safe: a step of an ensemble of five vertices is undefined for one of three. *)
Theorem C102_foreign_steps_refuted :
  (exists rs big rs1 s big' rs2 small rs3,
     erc_new Release (fun i : nat => i) 5 (0 # 1) rs = Done (big, rs1) /\
     erc_m_step Release big rs1 = Done (s, big', rs2) /\
     erc_new Release (fun i : nat => i) 3 (1 # 1) [0; 1; 2] = Done (small, rs3) /\
     erc_undo_step Release small s = UB /\ erc_undo_step Debug small s = Panic) /\
  (exists rs big rs1 s big' rs2 small rs3,
     erm_new Release (fun i : nat => i) 5 3 rs = Done (big, rs1) /\
     erm_m_step Release big rs1 = Done (s, big', rs2) /\
     erm_new Release (fun i : nat => i) 3 2 [0; 0; 0] = Done (small, rs3) /\
     erm_undo_step Release small s = UB /\ erm_undo_step Debug small s = Panic).
Proof.
  split.
  - destruct (erc_new Release (fun i : nat => i) 5 (0 # 1) [9; 9; 9; 9; 9; 9; 9; 9; 9; 9; 3; 3; 0; 7])
      as [[big rs1]| | |] eqn:E1; try (vm_compute in E1; discriminate).
    destruct (erc_m_step Release big rs1) as [[[s big'] rs2]| | |] eqn:E2;
      assert (E0 := E1); vm_compute in E1; injection E1 as <- <-; try (vm_compute in E2; discriminate).
    destruct (erc_new Release (fun i : nat => i) 3 (1 # 1) [0; 1; 2]) as [[small rs3]| | |] eqn:E3;
      try (vm_compute in E3; discriminate).
    do 8 eexists. split; [exact E0|]. split; [exact E2|]. split; [reflexivity|].
    vm_compute in E2. injection E2 as <- <- <-. vm_compute in E3. injection E3 as <- <-. split; vm_compute; reflexivity.
  - destruct (erm_new Release (fun i : nat => i) 5 3 [0; 0; 0; 0; 0; 0; 0; 0; 0; 2; 5])
      as [[big rs1]| | |] eqn:E1; try (vm_compute in E1; discriminate).
    destruct (erm_m_step Release big rs1) as [[[s big'] rs2]| | |] eqn:E2;
      assert (E0 := E1); vm_compute in E1; injection E1 as <- <-; try (vm_compute in E2; discriminate).
    destruct (erm_new Release (fun i : nat => i) 3 2 [0; 0; 0]) as [[small rs3]| | |] eqn:E3;
      try (vm_compute in E3; discriminate).
    do 8 eexists. split; [exact E0|]. split; [exact E2|]. split; [reflexivity|].
    vm_compute in E2. injection E2 as <- <- <-. vm_compute in E3. injection E3 as <- <-. split; vm_compute; reflexivity.
Qed.
Print Assumptions C102_foreign_steps_refuted.

(** A made-up step may also name only vertices that are there. *)
Theorem C102_made_up_steps_refuted :
  exists (e : config nat) a b c d,
    simple_graph (cm_graph e) /\ vertex_count (cm_graph e) = 4 /\
    apart 4 (a, b) /\ apart 4 (c, d) /\
    cm_undo_step Release e (Cm_Added (a, b) (c, d)) = UB /\ cm_undo_step_quiet Release e (Cm_Added (a, b) (c, d)) = UB.
Proof.
  exists (mk_cm (graph_new (fun i => i) 4) [0; 0; 0; 0] [] []), 0, 2, 1, 2.
  destruct (@graph_new_spec nat (node_container nat) _ _ (fun i => i) 4) as (W & V & _).
  split; [exact W|]. split; [exact V|]. repeat split; cbn; auto; lia.
Qed.
Print Assumptions C102_made_up_steps_refuted.

(** Cases: release builds that randomize, step and undo, also a step that was never made. *)
Example C102_case :
  (let l := [Ec_step; Ec_undo (ErC_RemovedEdge (0, 2)); Ec_randomize; Ec_sort; Ec_connect; Ec_write 1 7] in
   careful erc_arguments Release 3 l /\
   match (do s <- erc_new Release (fun i : nat => i) 3 (1 # 1) (repeat 3 20); program (erc_do Release) s l) with
   | Done (e, rs) => vertex_count (erc_graph e) = 3 /\ length rs = 11
   | _ => False
   end) /\
  (let l := [Cc_step; Cc_undo (Cm_Added (0, 1) (2, 3)); Cc_swap_unchecked [0; 0; 0; 0]; Cc_randomize] in
   @careful (cm_call nat) cm_arguments Release 4 l /\
   match (do s <- cm_from_vec_unchecked Release (fun i : nat => i) [1; 1; 1; 1] (repeat 2 20); program (cm_do Release) s l) with
   | Done (e, rs) => edge_count (cm_graph e) = 0
   | _ => False
   end) /\
  (let l := [Wc_step; Wc_undo (Sw_Rewire 0 1 1); Wc_undo (Sw_Reset 0 2 5); Wc_connect 3; Wc_randomize] in
   @careful (sw_call nat) sw_arguments Release 6 l /\
   match (do s <- sw_new Release (fun i : nat => i) 6 (1 # 2) (repeat 3 60); program (sw_do Release) s l) with
   | Done (e, rs) => edge_count (sw_graph e) = 12
   | _ => False
   end) /\
  sw_new Release (fun i : nat => i) 2 (1 # 2) [] = UB /\
  sw_new_with_distance Release (fun i : nat => i) 3 3 (1 # 2) [] = UB /\
  sw_new_with_distance Debug (fun i : nat => i) 3 3 (1 # 2) [] = Panic.
Proof.
  split; [|split; [|split]].
  - cbv zeta. split; [intros _; repeat constructor; cbn; lia|vm_compute; auto].
  - cbv zeta. split; [intros _; repeat constructor; cbn; lia|vm_compute; auto].
  - cbv zeta. split; [intros _; repeat constructor; cbn; lia|vm_compute; auto].
  - splits; vm_compute; reflexivity.
Qed.
