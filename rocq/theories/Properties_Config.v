(** Theorems about [ConfigurationModel]. *)
From Verif Require Import Base BaseFacts Containers ContainerSpec ContainerFacts Graph GraphSpec GraphFacts GraphOps
  GraphBuild Rng RngFacts Runs Markov EnsembleFacts Config ConfigSpec ConfigFacts ConfigRun ConfigStep.

(** ** C48 *)

(** [from_vec] gives [None] exactly for the documented vectors. *)
Theorem C48_rejects {T : Type} : forall p (mk : nat -> T) v rs,
  cm_from_vec p mk v rs = Done None <-> ~ valid_degrees v.
Proof.
  intros p mk v rs. unfold cm_from_vec. rewrite <- degree_vec_is_valid_spec.
  destruct (degree_vec_is_valid v).
  - destruct (cm_from_vec_unchecked p mk v rs); cbn; split; try discriminate; congruence.
  - split; [discriminate|auto].
Qed.
Print Assumptions C48_rejects.

(** Whatever the vector, a graph that is returned has the degrees asked for. *)
Theorem C48_new {T : Type} : forall p (mk : nat -> T) v rs e rs',
  cm_from_vec_unchecked p mk v rs = Done (e, rs') ->
  cm_ok v e /\ payloads (cm_graph e) = map mk (seq 0 (length v)).
Proof.
  intros p mk v rs e rs' E. destruct (randomize_done (new_ready mk v) E) as (O & P & _).
  split; auto. rewrite P. apply (@graph_new_spec T (node_container T) _ _ mk (length v)).
Qed.
Print Assumptions C48_new.

Theorem C48_randomize {T : Type} : forall p v (e : config T) rs e' rs',
  cm_ok v e -> cm_randomize p e rs = Done (e', rs') ->
  cm_ok v e' /\ payloads (cm_graph e') = payloads (cm_graph e).
Proof. intros p v e rs e' rs' O E. destruct (randomize_done (ok_ready O) E) as (A1 & A2 & _). auto. Qed.
Print Assumptions C48_randomize.

Theorem C48_clone {T A : Type} {C : AdjContainer T A} {L : AdjLaws C} : forall (g : graph A),
  simple_graph g ->
  let e := cm_clone_from_generic_graph g in
  cm_ok (degree_vec g) e /\ payloads (cm_graph e) = payloads g /\
  edge_count (cm_graph e) = edge_count g /\ forall i, nbrs (cm_graph e) i = nbrs g i.
Proof.
  intros g W. destruct (graph_from_spec W) as (W' & V & Ec & P & N). destruct (vec_degrees W) as [D1 D2].
  cbn. splits; auto. constructor; cbn; auto.
  - split; [congruence|]. intros i. rewrite N. auto.
  - apply edge_halfs_count.
Qed.
Print Assumptions C48_clone.

(** [swap_degree_vec] panics for another length, otherwise draws with the new vector and
    gives the old one back. *)
Theorem C48_swap {T : Type} : forall p v (e : config T) w rs,
  cm_ok v e ->
  (length v <> length w -> cm_swap_degree_vec_unchecked p e w rs = Panic) /\
  (~ valid_degrees w -> cm_swap_degree_vec p e w rs = Panic) /\
  (valid_degrees w -> cm_swap_degree_vec p e w rs = cm_swap_degree_vec_unchecked p e w rs) /\
  forall old e' rs', cm_swap_degree_vec_unchecked p e w rs = Done (old, e', rs') ->
    old = v /\ cm_ok w e' /\ payloads (cm_graph e') = payloads (cm_graph e).
Proof.
  intros p v e w rs O. unfold cm_swap_degree_vec, cm_swap_degree_vec_unchecked.
  rewrite (co_vec O). splits.
  - intros N. destruct (Nat.eqb_spec (length v) (length w)); [congruence|auto].
  - intros N. rewrite <- degree_vec_is_valid_spec in N. destruct (degree_vec_is_valid w); [congruence|auto].
  - intros N. rewrite <- degree_vec_is_valid_spec in N. rewrite N. auto.
  - intros old e' rs' E. destruct (Nat.eqb_spec (length v) (length w)) as [El|]; [|discriminate].
    apply bind_done in E as ([e1 rs1] & E1 & E). injection E as <- <- <-.
    destruct (randomize_done (swap_ready _ O El) E1) as (A1 & A2 & _). auto.
Qed.
Print Assumptions C48_swap.

(** [degree_vec_from_generic_graph] panics for another number of vertices and otherwise does what
    [swap_degree_vec_unchecked] does with the degrees of the graph. *)
Theorem C48_from_generic {T T1 A1 : Type} {C : AdjContainer T1 A1} {L : AdjLaws C} :
  forall p (mk : nat -> T) v (e : config T) (g : graph A1) rs,
  simple_graph g ->
  (forall e' rs', cm_from_generic_graph p mk g rs = Done (e', rs') -> cm_ok (degree_vec g) e') /\
  (cm_ok v e ->
   (length v <> vertex_count g -> cm_degree_vec_from_generic_graph p e g rs = Panic) /\
   cm_degree_vec_from_generic_graph p e g rs =
     (do ' (_, e', rs') <- cm_swap_degree_vec_unchecked p e (degree_vec g) rs; Done (e', rs')) /\
   forall e' rs', cm_degree_vec_from_generic_graph p e g rs = Done (e', rs') ->
     cm_ok (degree_vec g) e' /\ payloads (cm_graph e') = payloads (cm_graph e)).
Proof.
  intros p mk v e g rs W. split.
  - intros e' rs' E. apply C48_new in E. tauto.
  - intros O. splits.
    + intros N. unfold cm_degree_vec_from_generic_graph. rewrite (co_vec O).
      destruct (Nat.eqb_spec (length v) (length (vertices g))); [|reflexivity]. destruct N. rewrite <- (sg_len W). assumption.
    + unfold cm_degree_vec_from_generic_graph, cm_swap_degree_vec_unchecked. unfold degree_vec at 3. rewrite map_length.
      destruct (_ =? _); [|reflexivity]. destruct (cm_randomize _ _ _) as [[x r]| | |]; reflexivity.
    + intros e' rs' E. unfold cm_degree_vec_from_generic_graph in E. rewrite (co_vec O) in E.
      destruct (Nat.eqb_spec (length v) (length (vertices g))) as [El|]; [|discriminate].
      apply (@randomize_done T p (degree_vec g)) in E; [tauto|].
      apply (swap_ready (v := v)); auto. unfold degree_vec. rewrite map_length. auto.
Qed.
Print Assumptions C48_from_generic.

(** After any history the graph is simple and has the degrees of the vector. *)
Theorem C48_history {T : Type} : forall p v (e : config T),
  cm_history p v e -> cm_ok v e /\ degree_vec (cm_graph e) = v /\ list_sum v = 2 * edge_count (cm_graph e).
Proof.
  intros p v e H.
  assert (O : cm_ok v e).
  { induction H as [mk v rs e rs' E|mk c n rs e rs' E|mk v rs e rs' E|A C L g v W D
      |v w e rs x e' rs' H IH E|v e rs e' rs' H IH E|v e rs s e' rs' H IH E
      |v e s r e' H IH Sh E|v e s e' H IH Sh E|v e g' H IH E].
    - unfold cm_from_vec in E. destruct (degree_vec_is_valid v); [|discriminate].
      apply bind_done in E as ([e1 rs1] & E1 & E). injection E as <- <-. eapply C48_new; eauto.
    - unfold cm_from_const in E. apply bind_done in E as (s & _ & E).
      destruct (_ || _); [discriminate|].
      apply bind_done in E as ([e1 rs1] & E1 & E). injection E as <- <-. eapply C48_new; eauto.
    - eapply C48_new; eauto.
    - rewrite <- (degrees_vec W D). apply C48_clone; auto.
    - eapply C48_swap; eauto.
    - eapply C48_randomize; eauto.
    - eapply step_done; eauto.
    - destruct (undo_any p IH Sh) as (r2 & e2 & E2 & O & _). congruence.
    - destruct (undo_any p IH Sh) as (r2 & e2 & E2 & O & _ & _ & _ & M). destruct r2.
      + destruct M as (_ & M & _). congruence.
      + destruct M as (_ & M). congruence.
    - destruct IH as [W [V D] De B]. destruct (sort_adj_spec W) as (g & Eg & W' & S & _).
      rewrite E in Eg. injection Eg as <-. pose proof S as (S1 & S2 & S3 & S4).
      constructor; cbn [cm_graph cm_degrees cm_backup]; auto. split; [congruence|].
      intros i. rewrite <- D. symmetry. apply Permutation_length, S4. }
  splits; auto; [apply degrees_vec|apply degrees_sum]; apply O.
Qed.
Print Assumptions C48_history.

Definition ex_cm_degrees : list nat := [1; 2; 2; 1].

(** The first shuffle cannot be completed, the second can. *)
Example C48_case :
  match cm_from_vec Debug (fun i : nat => i) ex_cm_degrees [3; 3; 3; 3; 3; 2; 1; 2; 1; 1; 7] with
  | Done (Some (e, rs)) => cm_history Debug ex_cm_degrees e /\ rs = [7] /\
      map (nbrs (cm_graph e)) [0; 1; 2; 3] = [[1]; [0; 2]; [3; 1]; [2]]
  | _ => False
  end.
Proof.
  destruct (cm_from_vec _ _ _ _) as [[[e rs]|]| | |] eqn:E; try (vm_compute in E; discriminate).
  split; [eapply cmh_from_vec; eauto|]. vm_compute in E. injection E as <- <-. auto.
Qed.

(** ** C49 *)

(** What a step does, for all draws: it never panics, it can always be completed, and it
    either replaces two edges or leaves the whole model as it was. *)
Theorem C49_step {T : Type} : forall p v (e : config T) rs,
  cm_ok v e -> 0 < edge_count (cm_graph e) ->
  match cm_m_step p e rs with
  | Done (s, e', rs') => cm_ok v e' /\ step_effect e s e' /\ exists used, rs = used ++ rs'
  | NoFuel => exists more s e', cm_ok v e' /\ step_effect e s e' /\
      forall rest, cm_m_step p e (rs ++ more ++ rest) = Done (s, e', rest)
  | _ => False
  end.
Proof.
  intros p v e rs O H. pose proof (step_runs True p O H rs) as R. cbv beta in R.
  destruct (cm_m_step p e rs) as [[[s e'] rs']| | |]; try tauto.
  - destruct R as ((A1 & A2) & u & Eu & _). splits; auto. eauto.
  - destruct (R I) as (more & [s e'] & E & A1 & A2). exists more, s, e'. auto.
Qed.
Print Assumptions C49_step.

(** Without edges a step panics. *)
Theorem C49_no_edges {T : Type} : forall p v (e : config T) rs,
  cm_ok v e -> edge_count (cm_graph e) = 0 -> cm_m_step p e rs = Panic.
Proof. intros. eapply step_no_edges; eauto. Qed.
Print Assumptions C49_no_edges.

Lemma cm_like_refl {T} (e : config T) : cm_like e e.
Proof. unfold cm_like. split; auto. apply same_topology_refl. Qed.

Theorem C49_undo {T : Type} : forall p v k (e : config T) rs steps e' rs',
  cm_ok v e -> m_steps (cm_m_step p) k e rs = Done (steps, e', rs') ->
  cm_ok v e' /\ length steps = k /\
  exists us h, undo_steps (cm_undo_step p) e' steps = Done (us, h) /\
    us = repeat (Ok tt) k /\ cm_ok v h /\ cm_like e h.
Proof.
  intros p v k e rs steps e' rs' W E.
  assert (SI : forall (s : config T) rs r s' rs', cm_ok v s ->
    cm_m_step p s rs = Done (r, s', rs') -> cm_ok v s')
    by (intros; eapply step_done; eauto).
  destruct (m_steps_inv (inv := @cm_ok T v) SI W E) as [W' Len]. splits; auto.
  apply (@undo_chain _ _ _ (cm_m_step p) (cm_undo_step p)
    (@cm_ok T v) (@cm_like T) (fun _ u => u = Ok tt) SI) with (h := e') in E; auto.
  - destruct E as (us & h & E1 & F & O & S). exists us, h. splits; auto; try apply S.
    rewrite <- Len, <- (rev_length steps). clear - F.
    induction F as [|x y l l' H F IH]; cbn [repeat length]; congruence.
  - intros s rs0 r s' rs0' Ws Es h Wh Hh. destruct (step_undo Ws Es Wh Hh) as (h' & E1 & _ & O & L).
    exists (Ok tt), h'. auto.
  - apply cm_like_refl.
Qed.
Print Assumptions C49_undo.

Theorem C49_undo_quiet {T : Type} : forall p v k (e : config T) rs steps e' rs',
  cm_ok v e -> m_steps (cm_m_step p) k e rs = Done (steps, e', rs') ->
  exists h, undo_steps_quiet (cm_undo_step_quiet p) e' steps = Done h /\ cm_ok v h /\ cm_like e h.
Proof.
  intros p v k e rs steps e' rs' W E.
  assert (SI : forall (s : config T) rs r s' rs', cm_ok v s ->
    cm_m_step p s rs = Done (r, s', rs') -> cm_ok v s')
    by (intros; eapply step_done; eauto).
  destruct (m_steps_inv (inv := @cm_ok T v) SI W E) as [W' Len].
  apply (@undo_quiet_chain _ _ (cm_m_step p) (cm_undo_step_quiet p)
    (@cm_ok T v) (@cm_like T) SI) with (h := e') in E; auto.
  - intros s rs0 r s' rs0' Ws Es h Wh Hh. destruct (step_undo Ws Es Wh Hh) as (h' & _ & E1 & O & L). eauto.
  - apply cm_like_refl.
Qed.
Print Assumptions C49_undo_quiet.

(** A model with five vertices and three edges. *)
Definition ex_cm : config nat :=
  match cm_from_vec Debug (fun i : nat => i) [1; 1; 1; 1; 2] [0; 0; 0; 0; 0] with
  | Done (Some (e, _)) => e
  | _ => mk_cm (graph_new (fun i => i) 0) [] [] []
  end.

Lemma ex_cm_history : cm_history Debug [1; 1; 1; 1; 2] ex_cm.
Proof.
  apply cmh_from_vec with (mk := fun i : nat => i) (rs := [0; 0; 0; 0; 0]) (rs' := []).
  vm_compute. reflexivity.
Qed.

(** A step that fails and one that replaces two edges; a step of another graph cannot be
    undone here. *)
Example C49_case :
  cm_ok [1; 1; 1; 1; 2] ex_cm /\ 0 < edge_count (cm_graph ex_cm) /\
  (exists e', m_steps (cm_m_step Debug) 2 ex_cm [0; 1; 0; 0; 0; 0; 0; 0] =
     Done ([Cm_Error; Cm_Added (0, 4) (1, 2)], e', []) /\
     map (nbrs (cm_graph e')) [0; 1; 2; 3; 4] = [[1]; [0]; [4]; [4]; [2; 3]]) /\
  step_shape 5 (Cm_Added (3, 1) (0, 2)) /\
  exists w e', cm_undo_step Debug ex_cm (Cm_Added (3, 1) (0, 2)) = Done (Err w, e').
Proof.
  splits.
  - apply (C48_history _ _ _ ex_cm_history).
  - vm_compute. lia.
  - eexists. split; [vm_compute; reflexivity|]. vm_compute. reflexivity.
  - cbn. lia.
  - eexists _, _. vm_compute. reflexivity.
Qed.

(** ** C50 *)

(** Undoing any step of the right shape, whether or not it was made on this graph, either
    exchanges the edges or reports an error and leaves the edges as they were. *)
Theorem C50_atomic {T : Type} : forall p v (e : config T) s,
  cm_ok v e -> step_shape (length v) s ->
  exists r e', cm_undo_step p e s = Done (r, e') /\ cm_ok v e' /\
    cm_degrees e' = cm_degrees e /\ cm_backup e' = cm_backup e /\
    match r with
    | Err _ => same_topology (cm_graph e) (cm_graph e')
    | Ok _ => payloads (cm_graph e') = payloads (cm_graph e) /\
        match s with
        | Cm_Error => e' = e
        | Cm_Added e1 e2 =>
            forall x y, adj (cm_graph e') x y <->
              (adj (cm_graph e) x y \/ ends e1 x y \/ ends e2 x y) /\
              ~ ends (fst e1, fst e2) x y /\ ~ ends (snd e1, snd e2) x y
        end
    end.
Proof.
  intros p v e s O Sh. destruct (undo_any p O Sh) as (r & e' & E & O' & D1 & D2 & D3 & M).
  exists r, e'. splits; auto. destruct r; tauto.
Qed.
Print Assumptions C50_atomic.

(** [undo_step_quiet] does the same where [undo_step] succeeds and panics where it fails. *)
Theorem C50_quiet {T : Type} : forall p v (e : config T) s,
  cm_ok v e -> step_shape (length v) s ->
  cm_undo_step_quiet p e s =
  match cm_undo_step p e s with
  | Done (Ok _, e') => Done e'
  | _ => Panic
  end.
Proof.
  intros p v e s O Sh. destruct (undo_any p O Sh) as (r & e' & E & O' & D1 & D2 & D3 & M).
  rewrite E. destruct r; tauto.
Qed.
Print Assumptions C50_quiet.

(** Every step of every model with that many vertices has the right shape. *)
Theorem C50_shape {T : Type} : forall p v (e : config T) rs s e' rs',
  cm_ok v e -> cm_m_step p e rs = Done (s, e', rs') -> step_shape (length v) s.
Proof. intros. eapply effect_shape; eauto. eapply step_done; eauto. Qed.
Print Assumptions C50_shape.

(** ** C51 *)

(** A sequence that is accepted and that some graph has: every run can be completed. *)
Theorem C51_returns {T : Type} : forall p (mk : nat -> T) v rs,
  valid_degrees v -> graphical v ->
  match cm_from_vec p mk v rs with
  | Done (Some (e, rs')) => cm_ok v e /\ exists used, rs = used ++ rs'
  | NoFuel => exists more e, cm_ok v e /\
      forall rest, cm_from_vec p mk v (rs ++ more ++ rest) = Done (Some (e, rest))
  | _ => False
  end.
Proof.
  intros p mk v rs Va Gr. pose proof Va as (_ & _ & Ev).
  pose proof (randomize_runs p (new_ready mk v) Ev rs) as R. cbv beta in R.
  apply degree_vec_is_valid_spec in Va. unfold cm_from_vec. rewrite Va.
  unfold cm_from_vec_unchecked.
  destruct (cm_randomize p _ rs) as [[e rs']| | |]; cbn [bind]; try tauto.
  - destruct R as ((A & _) & u & Eu & _). eauto.
  - destruct (R Gr) as (more & e & E & A & _). exists more, e. split; auto. intros rest. rewrite E. auto.
Qed.
Print Assumptions C51_returns.

(** If no graph has the degrees, the loop never ends: for every sequence of draws the
    model is still asking for more. *)
Theorem C51_not_graphical {T : Type} : forall p (mk : nat -> T) v,
  valid_degrees v -> ~ graphical v -> forall rs, cm_from_vec p mk v rs = NoFuel.
Proof.
  intros p mk v Va Ng rs. pose proof Va as (_ & _ & Ev).
  pose proof (randomize_runs p (new_ready mk v) Ev rs) as R. cbv beta in R.
  apply degree_vec_is_valid_spec in Va. unfold cm_from_vec. rewrite Va.
  unfold cm_from_vec_unchecked.
  destruct (cm_randomize p _ rs) as [[e rs']| | |]; cbn [bind]; try tauto; auto.
  destruct R as ((O & _) & _). exfalso. apply Ng. apply (degrees_graphical (co_simple O) (co_degrees O)).
Qed.
Print Assumptions C51_not_graphical.

Lemma ex_not_graphical : ~ graphical [2; 2; 0; 0].
Proof.
  intros (R & Ir & Sy & H).
  pose proof (H 0 ltac:(cbn; lia)) as H0. pose proof (H 2 ltac:(cbn; lia)) as H2.
  pose proof (H 3 ltac:(cbn; lia)) as H3. cbn in H0, H2, H3. unfold count in *. cbn in H0, H2, H3.
  rewrite Ir in H0. rewrite (Sy 0 2), (Sy 0 3) in H0.
  destruct (R 2 0); [cbn in H2; lia|]. destruct (R 3 0); [cbn in H3; lia|].
  destruct (R 0 1); cbn in H0; lia.
Qed.

(** [degree_vec_is_valid] accepts sequences that cannot be realised. *)
Theorem C51_terminates_refuted : exists v, valid_degrees v /\ degree_vec_is_valid v = true /\
  forall (T : Type) p (mk : nat -> T) rs, cm_from_vec p mk v rs = NoFuel.
Proof.
  exists [2; 2; 0; 0].
  assert (Va : valid_degrees [2; 2; 0; 0]) by (apply degree_vec_is_valid_spec; reflexivity).
  splits; auto. intros T p mk rs. apply C51_not_graphical; auto. apply ex_not_graphical.
Qed.
Print Assumptions C51_terminates_refuted.

(** Constant degrees are always realised. *)
Theorem C51_constant {T : Type} : forall p (mk : nat -> T) c n rs,
  valid_degrees (repeat c n) -> graphical (repeat c n) /\
  match cm_from_const p mk c n rs with
  | Done (Some (e, rs')) => cm_ok (repeat c n) e /\ exists used, rs = used ++ rs'
  | NoFuel => exists more e, cm_ok (repeat c n) e /\
      forall rest, cm_from_const p mk c n (rs ++ more ++ rest) = Done (Some (e, rest))
  | _ => False
  end.
Proof.
  intros p mk c n rs Va.
  assert (Hn : 2 <= n) by (destruct Va as (H & _); rewrite repeat_length in H; lia).
  assert (Sm : forall k, list_sum (repeat c k) = k * c).
  { induction k as [|k IH]; auto. cbn [repeat]. change (list_sum (c :: repeat c k)) with (c + list_sum (repeat c k)).
    rewrite IH. lia. }
  assert (Hc : c <= n - 2).
  { destruct Va as (_ & H & _). rewrite repeat_length in H. apply H.
    destruct n; [lia|]. cbn [repeat]. simpl. auto. }
  assert (Ev : Nat.Even (n * c)) by (rewrite <- Sm; apply Va).
  assert (Gr : graphical (repeat c n)) by (apply constant_graphical; auto; lia).
  split; auto.
  assert (E : forall rs, cm_from_const p mk c n rs = cm_from_vec p mk (repeat c n) rs).
  { intros us. unfold cm_from_const, cm_from_vec, usub. destruct (Nat.leb_spec 1 n); [|lia]. cbn [bind].
    destruct (Nat.leb_spec (n - 1) c); [lia|]. apply Nat.even_spec in Ev. rewrite Ev. cbn [orb negb].
    apply degree_vec_is_valid_spec in Va. rewrite Va. reflexivity. }
  pose proof (C51_returns p mk (repeat c n) rs Va Gr) as R. rewrite E.
  destruct (cm_from_vec p mk (repeat c n) rs) as [[[e rs']|]| | |]; auto.
  destruct R as (more & e & O & R). exists more, e. split; auto. intros rest. rewrite E. auto.
Qed.
Print Assumptions C51_constant.

Example C51_case : valid_degrees (repeat 3 6) /\ graphical [1; 2; 2; 1].
Proof.
  split; [apply degree_vec_is_valid_spec; reflexivity|].
  exists (fun i j => ((i + 1 =? j) || (j + 1 =? i)) && (i <? 4) && (j <? 4)). splits.
  - intros i. destruct (Nat.eqb_spec (i + 1) i); [lia|]. reflexivity.
  - intros i j. rewrite (orb_comm (j + 1 =? i)). rewrite <- !andb_assoc, (andb_comm (j <? 4)). reflexivity.
  - intros i Hi. cbn in Hi. destruct i as [|[|[|[|i]]]]; try lia; reflexivity.
Qed.

(** ** C65 *)

(** The edges in [Added] are those the step removed; none of them is an edge afterwards. *)
Theorem C65_reports_removed {T : Type} : forall p v (e : config T) rs e1 e2 e' rs',
  cm_ok v e -> cm_m_step p e rs = Done (Cm_Added e1 e2, e', rs') ->
  adj (cm_graph e) (fst e1) (snd e1) /\ adj (cm_graph e) (fst e2) (snd e2) /\
  ~ adj (cm_graph e') (fst e1) (snd e1) /\ ~ adj (cm_graph e') (fst e2) (snd e2).
Proof.
  intros p v e rs e1 e2 e' rs' O E. destruct (step_done O E) as [O' Ef].
  pose proof (effect_shape O Ef) as Sh. destruct e1 as [a b], e2 as [c d]. cbn [fst snd].
  cbn in Sh. destruct Ef as (A1 & A2 & A3 & A4 & A5 & A6 & A & _). splits; auto.
  - rewrite A. unfold ends. cbn. intros [(_ & K & _)|[K|K]]; [tauto| |];
      destruct K as [[? ?]|[? ?]]; subst; try lia; try tauto;
      apply A4; apply (sg_sym (co_simple O)); auto.
  - rewrite A. unfold ends. cbn. intros [(_ & _ & K)|[K|K]]; [tauto| |];
      destruct K as [[? ?]|[? ?]]; subst; try lia; try tauto;
      first [apply A3; apply (sg_sym (co_simple O)); auto; fail | apply A4; auto; fail
            | apply A4; apply (sg_sym (co_simple O)); auto].
Qed.
Print Assumptions C65_reports_removed.

(** The documentation of [Added] says that it holds the newly added edges. *)
Theorem C65_added_refuted : exists (e : config nat) rs e1 e2 e' rs',
  cm_history Debug [1; 1; 1; 1; 2] e /\
  cm_m_step Debug e rs = Done (Cm_Added e1 e2, e', rs') /\
  ~ adj (cm_graph e') (fst e1) (snd e1) /\ ~ adj (cm_graph e') (fst e2) (snd e2).
Proof.
  assert (E : exists e', cm_m_step Debug ex_cm [0; 2; 0; 0] = Done (Cm_Added (1, 2) (3, 4), e', [])).
  { eexists. vm_compute. reflexivity. }
  destruct E as (e' & E). pose proof (C48_history _ _ _ ex_cm_history) as (O & _).
  destruct (C65_reports_removed _ _ _ _ _ _ _ _ O E) as (_ & _ & H1 & H2).
  exists ex_cm, [0; 2; 0; 0], (1, 2), (3, 4), e', [].
  split; [apply ex_cm_history|]. split; [exact E|]. auto.
Qed.
Print Assumptions C65_added_refuted.

(** ** C66 *)

Theorem C66_same {T : Type} : forall p (mk : nat -> T) c n rs,
  1 <= n -> cm_from_const p mk c n rs = cm_from_vec p mk (repeat c n) rs.
Proof.
  intros p mk c n rs Hn. unfold cm_from_const, usub. destruct (Nat.leb_spec 1 n); [|lia]. cbn [bind].
  assert (Sm : forall k, list_sum (repeat c k) = k * c).
  { induction k as [|k IH]; auto. cbn [repeat]. change (list_sum (c :: repeat c k)) with (c + list_sum (repeat c k)).
    rewrite IH. lia. }
  assert (E : degree_vec_is_valid (repeat c n) = negb ((n - 1 <=? c) || negb (Nat.even (n * c)))).
  { apply eq_true_iff_eq. rewrite degree_vec_is_valid_spec, negb_true_iff, orb_false_iff, negb_false_iff.
    unfold valid_degrees. rewrite Sm, repeat_length, <- Nat.even_spec, Nat.leb_gt. split.
    - intros (H1 & H2 & H3). split; auto. assert (I : In c (repeat c n)) by (destruct n; [lia|simpl; auto]).
      specialize (H2 c I). lia.
    - intros (H1 & H2). splits; auto; [lia|]. intros d I. apply repeat_spec in I. lia. }
  unfold cm_from_vec. rewrite E. destruct (_ || _); reflexivity.
Qed.
Print Assumptions C66_same.

(** For no vertices at all [from_vec] says [None], while [from_const] computes [0 - 1]. *)
Theorem C66_empty_refuted : exists c, forall (T : Type) (mk : nat -> T) rs,
  cm_from_vec Debug mk (repeat c 0) rs = Done None /\ cm_from_const Debug mk c 0 rs = Panic.
Proof. exists 0. intros T mk rs. split; reflexivity. Qed.
Print Assumptions C66_empty_refuted.

Example C66_case : cm_from_const Debug (fun i : nat => i) 2 3 [] = Done None /\
  exists e rs, cm_from_const Debug (fun i : nat => i) 1 4 [0; 0; 0; 5] = Done (Some (e, rs)).
Proof. split; [reflexivity|]. eexists _, _. vm_compute. reflexivity. Qed.
