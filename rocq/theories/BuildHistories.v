(** What a debug build reaches, a release build reaches. *)
From Verif Require Import Base BaseFacts Sums Containers ContainerSpec ContainerFacts Graph GraphSpec GraphFacts GraphOps GraphBuild Search Traversal TraversalSpec TraversalFacts Components ComponentFacts Rng RngFacts EnsembleFacts Sw SwSpec SwFacts SwChain SwConnect ErM ErMSpec Ws WsSpec Config ConfigSpec Ba BaSpec Markov SessionSpec GraphOps BuildSpec BuildFacts.
From Coq Require Import QArith.
Set Implicit Arguments.
Unset Strict Implicit.
Local Open Scope nat_scope.

Lemma ag_done {X} (d r : outcome X) x : agree d r -> d = Done x -> r = Done x.
Proof. intros [->| ->]; [discriminate|auto]. Qed.

Lemma graph_history {T A} {C : AdjContainer T A} (g : graph A) : history Debug g -> history Release g.
Proof.
  induction 1 as [mk n|l|g g' H IH E]; [constructor|constructor|].
  apply history_edit with (1 := IH). destruct E.
  - eapply edit_add. eapply ag_done; [apply ag_add_edge|eauto].
  - eapply edit_remove. eapply ag_done; [apply ag_remove_edge|eauto].
  - constructor.
  - apply edit_sort. auto.
  - eapply edit_shuffles; eauto.
  - eapply edit_shuffle; eauto.
  - eapply edit_ring. eapply ag_done; [apply ag_init_ring|eauto].
  - eapply edit_set; eauto.
Qed.

Lemma erm_history_builds {T} n m (e : er_m T) : erm_history Debug n m e -> erm_history Release n m e.
Proof.
  induction 1.
  - eapply emh_new. eapply ag_done; [apply ag_erm_new|eauto].
  - eapply emh_randomize; eauto. eapply ag_done; [apply ag_erm_randomize|eauto].
  - eapply emh_step; eauto. eapply ag_done; [apply ag_erm_m_step|eauto].
  - eapply emh_undo; eauto. eapply ag_done; [apply ag_erm_undo_step|eauto].
  - eapply emh_undo_quiet; eauto. eapply ag_done; [apply ag_erm_undo_step_quiet|eauto].
  - eapply emh_sort; eauto.
Qed.

Lemma cm_history_builds {T} v (e : config T) : cm_history Debug v e -> cm_history Release v e.
Proof.
  induction 1.
  - eapply cmh_from_vec. eapply ag_done; [apply ag_cm_from_vec|eauto].
  - eapply cmh_from_const. eapply ag_done; [apply ag_cm_from_const|eauto].
  - eapply cmh_unchecked. eapply ag_done; [apply ag_cm_from_vec_unchecked|eauto].
  - eapply cmh_clone; eauto.
  - eapply cmh_swap; [eauto|]. eapply ag_done; [apply ag_cm_swap_degree_vec_unchecked|eauto].
  - eapply cmh_randomize; eauto. eapply ag_done; [apply ag_cm_randomize|eauto].
  - eapply cmh_step; eauto. eapply ag_done; [apply ag_cm_m_step|eauto].
  - eapply cmh_undo; eauto. eapply ag_done; [apply ag_cm_undo_step|eauto].
  - eapply cmh_undo_quiet; eauto. eapply ag_done; [apply ag_cm_undo_step_quiet|eauto].
  - eapply cmh_sort; eauto.
Qed.

Lemma ba_history_builds {T} n m (e : ba T) : ba_history Debug n m e -> ba_history Release n m e.
Proof.
  induction 1.
  - eapply bah_new. eapply ag_done; [apply ag_ba_new|eauto].
  - eapply bah_graph; eauto. eapply ag_done; [apply ag_ba_new_from_graph|eauto].
  - eapply bah_generic; eauto. eapply ag_done; [apply ag_ba_new_from_generic_graph|eauto].
  - eapply bah_randomize; eauto. eapply ag_done; [apply ag_ba_randomize|eauto].
  - eapply bah_sort; eauto.
Qed.

Lemma ws_history_builds {T} n d q (e : ws_ensemble T) : ws_history Debug n d q e -> ws_history Release n d q e.
Proof.
  induction 1.
  - eapply wsh_new. eapply ag_done; [apply ag_ws_new|eauto].
  - eapply wsh_randomize; eauto. eapply ag_done; [apply ag_ws_randomize|eauto].
  - eapply wsh_sort; eauto.
Qed.

Lemma rewire_debug {T} n d (g : graph (sw_container T)) i0 i1 i2 s g' :
  sw_inv n d g -> sw_rewire_edge Debug g i0 i1 i2 = Done (s, g') -> rooted g i0 i1 \/ g' = g.
Proof.
  intros I E. pose proof I as (W & V & _ & _ & P).
  destruct (Nat.eqb_spec i1 i2) as [Eq|N3].
  { unfold sw_rewire_edge in E. rewrite Eq, Nat.eqb_refl in E. injection E as <- <-. auto. }
  assert (H : exists r, get_3_mut Debug g i0 i1 i2 = Done r).
  { unfold sw_rewire_edge in E. destruct (Nat.eqb_spec i1 i2); [congruence|].
    apply bind_done in E as (r & E & _). eauto. }
  destruct H as [r H]. destruct (get_3_mut_done W H) as (N1 & _ & N2 & H0 & H1 & H2). clear H r.
  assert (N2' : i0 <> i2) by auto.
  destruct (container_entries W H0) as (c0 & E0 & D0 & A0).
  destruct (container_entries W H1) as (c1 & E1 & D1 & A1).
  destruct (container_entries W H2) as (c2 & E2 & D2 & A2).
  unfold sw_rewire_edge in E. destruct (Nat.eqb_spec i1 i2); [congruence|].
  rewrite (@get_3_mut_ok _ Debug g i0 i1 i2 c0 c1 c2) in E by auto. cbn [bind] in E.
  unfold sc_rewire in E. rewrite D0, D1, D2 in E.
  assert (U : with_vertices g (upd (upd (upd (vertices g) i0 c0) i1 c1) i2 c2) = g)
    by (rewrite (upd_same _ _ E0), (upd_same _ _ E1), (upd_same _ _ E2); apply with_vertices_same).
  destruct (adj_dec g i0 i1) as [A|A].
  - apply adj_entries in A as ([t o] & He & Et). cbn [se_to] in Et. subst t.
    destruct o as [o|]; [left; exists o; exact He|].
    destruct (sc_position_entry W E0 He) as (k & Ek & Nk). cbn [se_to] in Ek. rewrite Ek in E.
    destruct (sc_is_adjacent c0 i2).
    + cbn [bind] in E. injection E as <- <-. rewrite U. auto.
    + unfold vget in E. rewrite Nk in E. discriminate.
  - destruct (sc_adj_position c0 i1) as [k|] eqn:Ek.
    + destruct A. unfold adj. rewrite (nbrs_nth E0).
      destruct (position_nth _ _ Ek) as (x & Hx & Q). apply Nat.eqb_eq in Q. subst x.
      eapply nth_error_In; eauto.
    + cbn [bind] in E. injection E as <- <-. rewrite U. auto.
Qed.

Lemma sw_set_same {T} (e : sw_ensemble T) : sw_set e (sw_graph e) = e.
Proof. destruct e; auto. Qed.

Lemma sw_history_builds {T} n (e : sw_ensemble T) : 5 <= n -> sw_history Debug n e -> sw_history Release n e.
Proof.
  intros Hn. induction 1 as [mk q rs e rs' E|e rs e' rs' H IH E|e rs s e' rs' H IH E
    |e s s' e' H IH U E|e fuel e' H IH E|e g' H IH E|e q H IH].
  - eapply swh_new. eapply ag_done; [apply ag_sw_new|eauto].
  - eapply swh_randomize; eauto. eapply ag_done; [apply ag_sw_randomize|eauto].
  - eapply swh_step; eauto. eapply ag_done; [apply ag_sw_m_step|eauto].
  - pose proof (sw_history_inv Hn H) as I.
    assert (X : sw_undoable Release (sw_graph e) s \/ e' = e).
    { destruct s as [| | |r a b|r a b|ge]; cbn [sw_undo_step sw_undoable] in *; auto;
        apply bind_done in E as ([u g'] & E & E'); injection E' as _ <-;
        (destruct (rewire_debug I E) as [R|R]; [left; auto|right; rewrite R; apply sw_set_same]). }
    destruct X as [X| ->]; auto. eapply swh_undo; eauto. eapply ag_done; [apply ag_sw_undo_step|eauto].
  - eapply swh_connect; eauto. eapply ag_done; [apply ag_sw_make_connected|eauto].
  - eapply swh_sort; eauto.
  - eapply swh_set_prob; eauto.
Qed.

Lemma session_builds {S R U} (m m' : S -> rng -> outcome (R * S * rng)) (u u' : S -> R -> outcome (U * S))
    (q q' : S -> R -> outcome S) (sort : S -> outcome S) e0 e l :
  (forall s rs, agree (m s rs) (m' s rs)) -> (forall s r, agree (u s r) (u' s r)) -> (forall s r, agree (q s r) (q' s r)) ->
  session m u q sort e0 e l -> session m' u' q' sort e0 e l.
Proof.
  intros Am Au Aq. induction 1.
  - constructor.
  - eapply ses_step; eauto. eapply ag_done; eauto.
  - eapply ses_undo; eauto. eapply ag_done; eauto.
  - eapply ses_undo_quiet; eauto. eapply ag_done; eauto.
  - eapply ses_sort; eauto.
Qed.
