(** Theorems about [ErEnsembleM]. *)
From Verif Require Import Base BaseFacts Containers ContainerSpec ContainerFacts Graph GraphSpec GraphFacts GraphOps GraphBuild Rng RngFacts Markov EnsembleFacts ErC ErM ErMSpec ErMFacts.

(** ** C38 *)

Theorem C38_new {T : Type} : forall p (mk : nat -> T) n m rs,
  1 <= n ->
  (n * (n - 1) / 2 < m -> erm_new p mk n m rs = Panic) /\
  (m <= n * (n - 1) / 2 -> n * (n - 1) / 2 <= length rs ->
   exists e rs', erm_new p mk n m rs = Done (e, rs') /\ erm_ok n m e /\
     payloads (erm_graph e) = map mk (seq 0 n)).
Proof.
  intros p mk n m rs Hn. split.
  - intros Hm. unfold erm_new, usub. destruct (Nat.leb_spec 1 n); [|lia]. cbn [bind]. cbv zeta.
    destruct (Nat.leb_spec m (n * (n - 1) / 2)); [lia|reflexivity].
  - intros Hm Hr. destruct (@erm_new_total T p mk n m rs) as [e E]; auto; [lia|].
    destruct (erm_new_done Hn E) as (_ & O & P). eauto.
Qed.
Print Assumptions C38_new.

Theorem C38_history {T : Type} : forall p n m (e : er_m T),
  1 <= n -> erm_history p n m e ->
  erm_ok n m e /\ number_of_edges (erm_graph e) = m /\ erm_get_m e = m /\
  length (erm_current e) = m /\ length (erm_possible e) = n * (n - 1) / 2 - m.
Proof.
  intros p n m e Hn H. pose proof (erm_history_ok Hn H) as O.
  destruct (erm_ok_lengths O) as (L1 & L2 & L3). splits; auto; try lia.
  - rewrite <- (sg_count (eo_simple O)). apply (eo_edges O).
  - apply (eo_m O).
Qed.
Print Assumptions C38_history.

(** [randomize] gives a consistent ensemble from any consistent one. *)
Theorem C38_randomize {T : Type} : forall p n m (e : er_m T) rs,
  erm_ok n m e -> n * (n - 1) / 2 <= length rs ->
  exists e' rs', erm_randomize p e rs = Done (e', rs') /\ erm_ok n m e' /\
    payloads (erm_graph e') = payloads (erm_graph e).
Proof.
  intros p n m e rs O Hr. destruct (erm_ok_lengths O) as (L1 & L2 & L3).
  destruct (@shuffle_spec _ (erm_all e) rs) as (all & Es & _); [lia|].
  destruct O as [W V Ce M Al Cu Po].
  destruct (@erm_randomize_spec T p n m e rs W V M Al L1 L2 _ _ Es) as (e' & E & O & P & _). eauto.
Qed.
Print Assumptions C38_randomize.

(** [new(0, m)] computes [0 - 1]. *)
Theorem C38_empty {T : Type} : forall (mk : nat -> T) m rs, erm_new Debug mk 0 m rs = Panic.
Proof. reflexivity. Qed.
Print Assumptions C38_empty.

Definition ex_erm_draws : list nat := [5; 4; 1; 0; 1; 0; 7; 7].

Example C38_case :
  match erm_new Debug (fun i : nat => i) 4 2 ex_erm_draws with
  | Done (e, rs) => erm_history Debug 4 2 e /\ length (erm_current e) = 2 /\ rs = [0; 7; 7]
  | _ => False
  end.
Proof.
  destruct (erm_new Debug (fun i : nat => i) 4 2 ex_erm_draws) as [[e rs]| | |] eqn:E;
    try (vm_compute in E; discriminate).
  split; [eapply emh_new; eauto|]. vm_compute in E. injection E as <- <-. auto.
Qed.

(** ** C39 *)

Lemma erm_like_refl {T} (e : er_m T) : erm_like e e.
Proof. unfold erm_like. splits; auto. apply same_topology_refl. Qed.

Theorem C39_undo {T : Type} : forall p n m k (e : er_m T) rs steps e' rs',
  erm_ok n m e ->
  m_steps (erm_m_step p) k e rs = Done (steps, e', rs') ->
  erm_ok n m e' /\ length steps = k /\
  exists us h, undo_steps (erm_undo_step p) e' steps = Done (us, h) /\
    us = map esm_inverted (rev steps) /\ erm_ok n m h /\ erm_like e h.
Proof.
  intros p n m k e rs steps e' rs' W E.
  assert (SI : forall (s : er_m T) rs r s' rs', erm_ok n m s ->
    erm_m_step p s rs = Done (r, s', rs') -> erm_ok n m s')
    by (intros; eapply erm_m_step_spec; eauto).
  destruct (m_steps_inv (inv := @erm_ok T n m) SI W E) as [W' Len].
  splits; auto.
  apply (@undo_chain _ _ _ (erm_m_step p) (erm_undo_step p)
    (@erm_ok T n m) (@erm_like T) (fun r u => u = esm_inverted r) SI) with (h := e') in E; auto.
  - destruct E as (us & h & E1 & F & O & S). exists us, h. splits; auto.
    clear - F. induction F as [|x y l l' H F IH]; cbn [map]; congruence.
  - intros s rs0 r s' rs0' Ws Es h Wh Hh. eapply erm_step_undo; eauto.
  - apply erm_like_refl.
Qed.
Print Assumptions C39_undo.

Theorem C39_undo_quiet {T : Type} : forall p n m k (e : er_m T) rs steps e' rs',
  erm_ok n m e ->
  m_steps (erm_m_step p) k e rs = Done (steps, e', rs') ->
  exists h, undo_steps_quiet (erm_undo_step_quiet p) e' steps = Done h /\
    erm_ok n m h /\ erm_like e h.
Proof.
  intros p n m k e rs steps e' rs' W E.
  assert (SI : forall (s : er_m T) rs r s' rs', erm_ok n m s ->
    erm_m_step p s rs = Done (r, s', rs') -> erm_ok n m s')
    by (intros; eapply erm_m_step_spec; eauto).
  destruct (m_steps_inv (inv := @erm_ok T n m) SI W E) as [W' Len].
  apply (@undo_quiet_chain _ _ (erm_m_step p) (erm_undo_step_quiet p)
    (@erm_ok T n m) (@erm_like T) SI) with (h := e') in E; auto.
  - intros s rs0 r s' rs0' Ws Es h Wh Hh. eapply erm_step_undo_quiet; eauto.
  - apply erm_like_refl.
Qed.
Print Assumptions C39_undo_quiet.

(** A step exchanges the edges it reports, at the positions it draws. *)
Theorem C39_step_returns {T : Type} : forall p n m (e : er_m T) x y rs,
  erm_ok n m e -> 0 < m < n * (n - 1) / 2 ->
  exists s e', erm_m_step p e (x :: y :: rs) = Done (s, e', rs) /\ erm_ok n m e' /\
    nth_error (erm_current e) (x mod m) = Some (esm_removed s) /\
    nth_error (erm_possible e) (y mod (n * (n - 1) / 2 - m)) = Some (esm_inserted s) /\
    payloads (erm_graph e') = payloads (erm_graph e) /\
    forall a b, a < b -> (adj (erm_graph e') a b <->
      (adj (erm_graph e) a b /\ (a, b) <> esm_removed s) \/ (a, b) = esm_inserted s).
Proof.
  intros p n m e x y rs O Hm. destruct (@erm_m_step_total T p n m e x y rs O Hm) as (s & e' & E).
  exists s, e'. destruct (erm_m_step_spec O E) as (O' & Es & E1 & E2).
  destruct (erm_ok_lengths O) as (L1 & L2 & L3).
  assert (I1 : esm_i_removed s = x mod m /\ esm_i_inserted s = y mod (n * (n - 1) / 2 - m)).
  { unfold erm_m_step in E. rewrite gen_range_cons in E by lia. cbn [bind] in E.
    rewrite gen_range_cons in E by lia. cbn [bind] in E.
    apply bind_done in E as (a & _ & E). apply bind_done in E as (b & _ & E). cbv zeta in E.
    apply bind_done in E as (e1 & _ & E). injection E as <- <- .
    cbn [esm_i_removed esm_i_inserted].
    replace (n * (n - 1) / 2 - m) with (length (erm_possible e)) by lia. rewrite L1. auto. }
  destruct I1 as [I1 I2]. destruct s as [[r1 r2] i [q1 q2] j].
  cbn [esm_removed esm_inserted esm_i_removed esm_i_inserted] in *.
  destruct (erm_step_spec p O E1 E2) as (e2 & Es' & _ & P & _ & _ & _ & A).
  rewrite Es in Es'. injection Es' as <-. cbn [fst snd] in A.
  subst i j. splits; auto. intros a b Hab. rewrite A. unfold is_pair.
  destruct (proj1 (proj2 (eo_current O) _ _) (nth_error_In _ _ E1)) as [R1 _].
  destruct (proj1 (proj2 (eo_possible O) _ _) (nth_error_In _ _ E2)) as [R2 _].
  split.
  - intros [[H1 H2]|[[-> ->]|[-> ->]]]; auto; try lia. left. split; auto.
    intros X. injection X as -> ->. tauto.
  - intros [[H1 H2]|X]; [|injection X as -> ->; auto]. left. split; auto.
    intros [[-> ->]|[-> ->]]; [congruence|lia].
Qed.
Print Assumptions C39_step_returns.

Theorem C39_step_panics {T : Type} : forall p n m (e : er_m T) x rs,
  erm_ok n m e -> m = 0 \/ m = n * (n - 1) / 2 -> erm_m_step p e (x :: rs) = Panic.
Proof.
  intros p n m e x rs O Hm. destruct (erm_ok_lengths O) as (L1 & L2 & L3).
  unfold erm_m_step. destruct (erm_current e) as [|c cs] eqn:Ec; [reflexivity|].
  assert (Pn : erm_possible e = []).
  { destruct (erm_possible e); auto. simpl in *. lia. }
  rewrite gen_range_cons by (simpl; lia). cbn [bind]. rewrite Pn. reflexivity.
Qed.
Print Assumptions C39_step_panics.

Example C39_case :
  match erm_new Debug (fun i : nat => i) 4 2 ex_erm_draws with
  | Done (e, _) =>
      erm_ok 4 2 e /\ 0 < 2 < 4 * (4 - 1) / 2 /\
      match m_steps (erm_m_step Debug) 2 e [0; 3; 1; 1] with
      | Done (steps, _, _) => map esm_i_removed steps = [0; 1]
      | _ => False
      end
  | _ => False
  end.
Proof.
  destruct (erm_new Debug (fun i : nat => i) 4 2 ex_erm_draws) as [[e rs]| | |] eqn:E;
    try (vm_compute in E; discriminate).
  splits; try (simpl; lia).
  - eapply erm_new_done; [|eauto]. lia.
  - vm_compute in E. injection E as <- <-. vm_compute. auto.
Qed.

(** ** C62: an undo in the wrong order need not panic.  It may leave the bookkeeping
    inconsistent with the graph, and a later step may panic then. *)

Theorem C62_undo_detects_refuted :
  exists (e e1 e2 e3 e4 : er_m nat) a b c,
    erm_ok 4 2 e /\
    erm_m_step Debug e [0; 0] = Done (a, e1, []) /\
    erm_m_step Debug e1 [0; 1] = Done (b, e2, []) /\
    erm_m_step Debug e2 [1; 1] = Done (c, e3, []) /\
    erm_undo_step_quiet Debug e3 a = Done e4 /\
    (exists i j, In (i, j) (erm_current e4) /\ ~ adj (erm_graph e4) i j) /\
    exists x y, erm_m_step Debug e4 [x; y] = Panic.
Proof.
  destruct (erm_new Debug (fun i : nat => i) 4 2 [5; 4; 3; 2; 1]) as [[e rs]| | |] eqn:E;
    try (vm_compute in E; discriminate).
  exists e. assert (O : erm_ok 4 2 e) by (eapply erm_new_done; [|eauto]; lia).
  vm_compute in E. injection E as <- <-.
  do 7 eexists. splits; [exact O| | | | | |].
  1-4: vm_compute; reflexivity.
  - exists 0, 3. vm_compute. split; [auto|]. intros [H|[]]. discriminate.
  - exists 1, 0. vm_compute. reflexivity.
Qed.
Print Assumptions C62_undo_detects_refuted.
