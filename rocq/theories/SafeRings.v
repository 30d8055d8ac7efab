(** Memory safety of the two ensembles that start from a ring. *)
From Verif Require Import Base BaseFacts Containers ContainerSpec ContainerFacts Graph GraphSpec GraphFacts GraphOps GraphBuild Traversal Components Rng RngFacts Runs Sw Ws SafeSpec SafeFacts.
From Coq Require Import QArith.
Set Implicit Arguments.
Unset Strict Implicit.
Local Open Scope nat_scope.

(** ** Graphs whose vertices satisfy a condition *)

Section Held.
Context {T A : Type} {C : AdjContainer T A}.
Variable ok : nat -> A -> Prop.

Record held (n : nat) (g : graph A) : Prop := {
  he_next : next_id g = n;
  he_len : length (vertices g) = n;
  he_ok : forall i c, nth_error (vertices g) i = Some c -> ok i c
}.

Lemma held_lt n g i c : held n g -> nth_error (vertices g) i = Some c -> i < n.
Proof. intros H E. rewrite <- (he_len H). apply nth_error_Some. congruence. Qed.

Lemma held_get n g i : held n g -> i < n -> exists c, nth_error (vertices g) i = Some c.
Proof.
  intros H Hi. destruct (nth_error (vertices g) i) eqn:E; eauto. apply nth_error_None in E. rewrite (he_len H) in E. lia.
Qed.

Lemma held_upd n g ec i c : held n g -> ok i c -> held n (mk_graph (next_id g) ec (upd (vertices g) i c)).
Proof.
  intros H K. constructor; cbn.
  - apply H.
  - rewrite upd_length. apply H.
  - intros j d. rewrite nth_error_upd. destruct (Nat.eqb_spec i j) as [<-|N]; [|apply H].
    destruct (i <? length (vertices g)); cbn [andb]; [|apply H]. intros E. injection E as <-. auto.
Qed.

Lemma safe_get2 p n g i j : held n g -> allowed p n (i, j) ->
  safe (fun r => apart n (i, j) /\ ok i (fst r) /\ ok j (snd r)) (get_2_mut p g i j).
Proof.
  intros H K. unfold get_2_mut.
  assert (D : apart n (i, j) ->
    safe (fun r => apart n (i, j) /\ ok i (fst r) /\ ok j (snd r))
      match nth_error (vertices g) i, nth_error (vertices g) j with
      | Some a, Some b => if i =? j then UB else Done (a, b)
      | _, _ => UB
      end).
  { intros P. assert (P' := P). destruct P' as (Hi & Hj & N). cbn [fst snd] in *.
    destruct (held_get H Hi) as (a & Ea). destruct (held_get H Hj) as (b & Eb). rewrite Ea, Eb.
    destruct (Nat.eqb_spec i j); [congruence|]. apply safe_done. cbn. split; [exact P|]. split; eapply he_ok; eauto. }
  destruct ((i <? next_id g) && (j <? next_id g) && negb (i =? j)) eqn:B.
  - assert (P : apart n (i, j)).
    { rewrite (he_next H) in B. apply andb_true_iff in B as [B1 B2]. apply andb_true_iff in B1 as [B0 B1].
      apply Nat.ltb_lt in B0, B1. destruct (Nat.eqb_spec i j); [discriminate|]. repeat split; auto. }
    destruct p; auto.
  - destruct p; [apply safe_panic|]. apply D. apply K. auto.
Qed.

Lemma held_put n g ec i j a b : held n g -> ok i a -> ok j b -> held n (mk_graph (next_id g) ec (put_2 (vertices g) i j a b)).
Proof. intros H Ka Kb. unfold put_2. apply (@held_upd n (mk_graph (next_id g) ec (upd (vertices g) i a)) ec); auto. apply held_upd; auto. Qed.

Lemma held_new mk n : (forall i, i < n -> ok i (ac_new i (mk i))) -> held n (graph_new mk n).
Proof.
  intros H. constructor; cbn; auto; [rewrite map_length, seq_length; auto|].
  intros i c E. rewrite nth_error_map in E. destruct (nth_error (seq 0 n) i) as [x|] eqn:Ex; [|discriminate].
  injection E as <-. assert (Hi : i < n) by (rewrite <- (seq_length n 0); apply nth_error_Some; congruence).
  assert (x = i) as ->; [|auto]. apply nth_error_nth with (d := 0) in Ex. rewrite seq_nth in Ex by auto. lia.
Qed.

Lemma held_clear n g : (forall i c, ok i c -> ok i (ac_clear_edges c)) -> held n g -> held n (clear_edges g).
Proof.
  intros K H. unfold clear_edges. destruct (edge_count g =? 0); auto. constructor; cbn; try apply H.
  - rewrite map_length. apply H.
  - intros i c E. rewrite nth_error_map in E. destruct (nth_error (vertices g) i) eqn:Ei; [|discriminate].
    injection E as <-. apply K. eapply he_ok; eauto.
Qed.

Lemma safe_mapM {X Y} (f : X -> outcome Y) (P : X -> Y -> Prop) l : (forall x, In x l -> safe (P x) (f x)) ->
  safe (Forall2 P l) (mapM f l).
Proof.
  induction l as [|x l IH]; intros H; cbn [mapM]; [apply safe_done; constructor|].
  eapply safe_bind; [apply H; cbn; auto|]. intros y Hy. eapply safe_bind; [apply IH; intros; apply H; cbn; auto|].
  intros ys Hys. apply safe_done. constructor; auto.
Qed.

Lemma Forall2_nth {X Y} (P : X -> Y -> Prop) l l' i y : Forall2 P l l' -> nth_error l' i = Some y ->
  exists x, nth_error l i = Some x /\ P x y.
Proof.
  intros H. revert i. induction H; intros [|i] E; cbn in *; try discriminate; eauto. injection E as <-. eauto.
Qed.

Lemma held_sort n g : (forall i c, ok i c -> safe (ok i) (ac_sort_adj c)) -> held n g -> safe (held n) (sort_adj g).
Proof.
  intros K H. unfold sort_adj.
  eapply safe_bind; [apply (@safe_mapM _ _ ac_sort_adj (fun c c' => forall i, ok i c -> ok i c'))|].
  - intros c Hc. apply In_nth_error in Hc as (i0 & E0). split.
    + apply (K i0). eapply he_ok; eauto.
    + intros c' Ec i Hi. apply (K i c Hi). auto.
  - intros vs F. apply safe_done. constructor; cbn; try apply H.
    + rewrite <- (he_len H). symmetry. clear - F. induction F; cbn; congruence.
    + intros i c E. destruct (Forall2_nth F E) as (x & Ex & Hx). apply Hx. eapply he_ok; eauto.
Qed.

Lemma held_write n g i t : (forall i c, ok i c -> ok i (ac_set_contained c t)) -> held n g ->
  safe (held n) (at_mut_set g i t).
Proof.
  intros K H. unfold at_mut_set, container. eapply safe_bind; [apply safe_vget|]. intros c E. cbv beta in E.
  apply safe_done. apply held_upd; auto. apply K. eapply he_ok; eauto.
Qed.

Lemma safe_held_add p n g i j :
  (forall a b, apart n (i, j) -> ok i a -> ok j b ->
    safe (fun r => match r with Ok (a', b') => ok i a' /\ ok j b' | Err _ => True end) (ac_push a b)) ->
  held n g -> allowed p n (i, j) -> safe (fun r => held n (snd r)) (add_edge p g i j).
Proof.
  intros K H Ha. unfold add_edge. eapply safe_bind; [apply (safe_get2 H Ha)|]. intros [a b] (P & Ka & Kb).
  eapply safe_bind; [apply (K a b P Ka Kb)|]. intros [[a' b']|e] R; apply safe_done; cbn; auto.
  apply held_put; tauto.
Qed.

Lemma safe_init_ring p n g d :
  (forall i j a b, apart n (i, j) -> ok i a -> ok j b ->
    safe (fun r => match r with Ok (a', b') => ok i a' /\ ok j b' | Err _ => True end) (ac_push a b)) ->
  (forall i c, ok i c -> ok i (ac_clear_edges c)) ->
  (p = Release -> n = 0 \/ d < n) -> held n g -> safe (fun r => held n (snd r)) (init_ring p g d).
Proof.
  intros K Kc Hd H. unfold init_ring. apply (held_clear Kc) in H. unfold vertex_count. rewrite (he_next H).
  assert (F : forall ij, In ij (ring_pairs n d) -> allowed p n ij).
  { intros [i j] I E. destruct (Hd E) as [->|Hn]; [destruct I|]. pose proof (@init_ring_range_ok n d Hn) as R.
    unfold pairs_ok in R. rewrite ?Forall_forall in R. specialize (R _ I). cbn in R. repeat split; cbn; tauto. }
  revert H F. generalize (clear_edges g). induction (ring_pairs n d) as [|[i j] l IH]; intros g0 H F; cbn [add_edges_try].
  - apply safe_done; auto.
  - eapply safe_bind; [apply (@safe_held_add p n g0 i j); auto; apply F; cbn; auto|].
    intros [[u|e] g1] H1; cbn [snd] in H1; [apply IH; auto; intros; apply F; cbn; auto|apply safe_done; auto].
Qed.

End Held.

(** ** Walks never use unchecked indices *)

Section Walks.
Context {T A : Type} {C : AdjContainer T A}.

Lemma safe_mark l : forall h, safe (fun _ => True) (handle_new h l).
Proof.
  unfold handle_new. induction l as [|i l IH]; intros h; cbn [mark_new]; [apply safe_done; auto|].
  eapply safe_bind; [apply safe_vget|]. intros [|] _; [apply IH|]. eapply safe_bind; [apply safe_vset|]. intros h1 _.
  eapply safe_bind; [apply IH|]. intros [h2 new] _. apply safe_done; auto.
Qed.

Lemma safe_dfs_index g i : safe (fun _ => True) (dfs_index_all g i).
Proof.
  apply safe_drain. intros s. unfold dfs_index_next. destruct (dfs_stack s); [apply safe_done; auto|].
  eapply safe_bind; [apply safe_vget|]. intros c _. eapply safe_bind; [apply safe_mark|]. intros [h new] _. apply safe_done; auto.
Qed.

Lemma safe_is_connected g : safe (fun _ => True) (is_connected g).
Proof.
  unfold is_connected. destruct (vertex_count g =? 0); [apply safe_done; auto|].
  eapply safe_bind with (P := fun _ => True).
  - apply safe_drain. intros s. unfold dfs_next. destruct (dfs_stack s); [apply safe_done; auto|].
    eapply safe_bind; [apply safe_vget|]. intros c _. eapply safe_bind; [apply safe_mark|]. intros [h new] _.
    apply safe_done; auto.
  - intros l _. apply safe_done; auto.
Qed.

Lemma safe_ids g : safe (fun _ => True) (connected_components_ids g).
Proof.
  unfold connected_components_ids. eapply safe_bind with (P := fun _ => True).
  - apply (@safe_foldM _ _ (fun _ => True)); auto. intros [ids cur] i _ _. unfold ids_pass.
    eapply safe_bind; [apply safe_vget|]. intros [x|] _; [apply safe_done; auto|].
    eapply safe_bind with (P := fun _ => True); [|intros; apply safe_done; auto].
    unfold label_component. eapply safe_bind; [apply safe_dfs_index|]. intros l _.
    apply (@safe_foldM _ _ (fun _ => True)); auto. intros s x _ _. eapply safe_weaken; [|apply safe_vset]. auto.
  - intros [ids cur] _. apply safe_done; auto.
Qed.

End Walks.

(** ** [WattsStrogatzEnsemble] *)

Section Ws.
Context {T : Type}.

Definition ws_sized : nat -> graph (ws_container T) -> Prop := held (fun _ _ => True).

Lemma ws_push_safe (a b : ws_container T) :
  safe (fun r => match r with Ok (_, _) => True /\ True | Err _ => True end) (ac_push a b).
Proof. cbn. unfold wc_push. destruct (contains (wc_to a) (wc_id b)); apply safe_done; auto. Qed.

Lemma safe_find_pair n (g : graph (ws_container T)) o : next_id g = n -> forall f rs,
  safe (fun r => apart n (fst r)) (ws_find_pair f g o rs).
Proof.
  intros V. induction f as [|f IH]; intros rs; cbn [ws_find_pair]; [apply safe_nofuel|].
  unfold vertex_count. rewrite V.
  eapply safe_bind; [apply safe_gen_range|]. intros [a rs1] Ha. eapply safe_bind; [apply safe_gen_range|]. intros [b rs2] Hb.
  cbn [fst] in Ha, Hb. destruct (Nat.eqb_spec a b) as [|N]; cbn [orb]; [apply IH|].
  destruct (_ || _); [apply IH|]. eapply safe_bind; [apply safe_vget|]. intros c _.
  destruct (contains (wc_to c) b); [apply IH|]. apply safe_done. repeat split; auto.
Qed.

Lemma safe_ws_create p n (g : graph (ws_container T)) i j o : ws_sized n g -> apart n (i, j) ->
  safe (ws_sized n) (ws_create_edge p g i j o).
Proof.
  intros H K. unfold ws_create_edge. eapply safe_bind; [apply (@safe_get2 _ _ p n g i j H); apply apart_allowed; auto|].
  intros [a b] _. apply safe_done. apply held_put; auto.
Qed.

Lemma safe_ws_add p n (s : graph (ws_container T) * rng) o : ws_sized n (fst s) ->
  safe (fun r => ws_sized n (fst r)) (ws_add_random_edge p s o).
Proof.
  destruct s as [g rs]. cbn [fst]. intros H. unfold ws_add_random_edge.
  eapply safe_bind; [apply (@safe_find_pair n); apply H|]. intros [[a b] rs1] K. cbn [fst] in K.
  eapply safe_bind with (P := ws_sized n).
  - destruct (_ || _); apply safe_ws_create; auto. unfold apart in *; cbn in *; intuition.
  - intros g' H'. apply safe_done. exact H'.
Qed.

Lemma safe_ws_other n (g : graph (ws_container T)) o : ws_sized n g -> safe (ws_sized n) (ws_remove_other g o).
Proof.
  intros H. unfold ws_remove_other. eapply safe_bind; [apply safe_vget|]. intros c _.
  eapply safe_bind with (P := fun _ => True).
  - unfold wc_swap_remove_elem. eapply safe_bind; [apply safe_expect|]. intros i _.
    eapply safe_bind; [apply safe_swap_remove|]. intros l _. eapply safe_bind; [apply safe_swap_remove|]. intros l' _.
    apply safe_done; auto.
  - intros c' _. apply safe_done. apply held_upd; auto.
Qed.

Lemma safe_ws_vertex p q n (s : graph (ws_container T) * rng) i : ws_sized n (fst s) ->
  safe (fun r => ws_sized n (fst r)) (ws_randomize_vertex p q s i).
Proof.
  destruct s as [g rs]. cbn [fst]. intros H. unfold ws_randomize_vertex.
  eapply safe_bind; [apply safe_vget|]. intros c _.
  eapply safe_bind with (P := fun _ => True).
  { destruct p; [|apply safe_done; auto]. destruct (_ =? _); [apply safe_done; auto|apply safe_panic]. }
  intros u _. eapply safe_bind with (P := fun _ => True).
  { apply (@safe_foldM _ _ (fun _ => True)); auto. intros [[[to orig] rw] rs1] j _ _. unfold ws_pick.
    eapply safe_bind; [apply safe_vget|]. intros o _. destruct (oe_at_origin o); [|apply safe_done; auto].
    eapply safe_bind; [apply safe_gen_f64|]. intros [x rs2] _. destruct (Qle_bool x q); [|apply safe_done; auto].
    eapply safe_bind; [apply safe_swap_remove|]. intros l _. eapply safe_bind; [apply safe_swap_remove|]. intros l' _.
    apply safe_done; auto. }
  intros [[[to orig] rw] rs1] _. eapply safe_bind with (P := ws_sized n).
  - apply safe_foldM; [intros; apply safe_ws_other; auto|]. apply held_upd; auto.
  - intros g2 H2. apply (@safe_foldM _ _ (fun s => ws_sized n (fst s))); auto. intros; apply safe_ws_add; auto.
Qed.

Record ws_tame n d (e : ws_ensemble T) : Prop := {
  wt_graph : ws_sized n (ws_graph e);
  wt_distance : ws_distance e = d
}.

Lemma safe_ws_randomize p n d (e : ws_ensemble T) rs : (p = Release -> n = 0 \/ d < n) -> ws_tame n d e ->
  safe (fun r => ws_tame n d (fst r)) (ws_randomize p e rs).
Proof.
  intros Hd [H D]. unfold ws_randomize. rewrite D. eapply safe_bind.
  - apply (@safe_init_ring _ _ _ (fun _ _ => True) p n); auto. intros; apply ws_push_safe.
  - intros [r g] Hg. cbn [snd] in Hg. eapply safe_bind; [apply safe_unwrap|]. intros u _.
    eapply safe_bind with (P := fun s => ws_sized n (fst s)).
    + apply (@safe_foldM _ _ (fun s => ws_sized n (fst s))); auto. intros; apply safe_ws_vertex; auto.
    + intros [g' rs'] H'. apply safe_done. constructor; auto.
Qed.

Lemma safe_ws_do p n d (e : ws_ensemble T) c rs : (p = Release -> n = 0 \/ d < n) -> ws_tame n d e ->
  safe (fun r => ws_tame n d (fst r)) (ws_do p e c rs).
Proof.
  intros Hd K. destruct c as [| |i t]; cbn [ws_do].
  - apply safe_ws_randomize; auto.
  - eapply safe_bind; [apply (@held_sort _ _ _ (fun _ _ => True) n)|].
    + intros i c _. cbn. unfold wc_sort_adj. destruct (_ =? _); [apply safe_done; auto|apply safe_panic].
    + apply K.
    + intros g H. apply safe_done. constructor; cbn; auto. apply K.
  - eapply safe_bind; [apply (@held_write _ _ _ (fun _ _ => True) n); auto; apply K|].
    intros g H. apply safe_done. constructor; cbn; auto. apply K.
Qed.

Lemma safe_ws_new p (mk : nat -> T) n d q rs :
  safe (fun r => match r with Ok s => ws_tame n d (fst s) /\ d < n | Err _ => True end) (ws_new p mk n d q rs).
Proof.
  unfold ws_new. destruct (Nat.ltb_spec n (1 + 2 * d)) as [|Hn]; [apply safe_done; auto|].
  assert (Hd : d < n) by lia. eapply safe_bind.
  - apply (@safe_init_ring _ _ _ (fun _ _ => True) p n); auto; [intros; apply ws_push_safe|]. apply held_new. auto.
  - intros [[u|er] g] H; [|apply safe_done; auto]. cbn [snd] in H.
    eapply safe_bind; [apply (@safe_ws_randomize p n d); auto; constructor; auto|].
    intros x Hx. apply safe_done. auto.
Qed.

Lemma safe_ws_program p n d s l : d < n -> ws_tame n d (fst s) ->
  safe (fun r => ws_tame n d (fst r)) (program (@ws_do T p) s l).
Proof.
  intros Hd K. apply safe_program with (P := fun e => ws_tame n d e); auto. intros; apply safe_ws_do; auto.
Qed.

End Ws.

(** ** [SwEnsemble] *)

Section Sw.
Context {T : Type}.

(** Every edge of vertex [i] goes, and went, to another vertex. *)
Definition se_fine (n i : nat) (x : sw_edge) : Prop :=
  se_to x < n /\ se_to x <> i /\ forall o, se_orig x = Some o -> o < n /\ o <> i.

Definition sc_fine (n i : nat) (c : sw_container T) : Prop :=
  sc_id c = i /\ forall x, In x (sc_adj c) -> se_fine n i x.

Definition sw_sized (n : nat) : graph (sw_container T) -> Prop := held (sc_fine n) n.

Lemma fine_intro n i x : se_to x < n -> se_to x <> i -> (forall o, se_orig x = Some o -> o < n /\ o <> i) -> se_fine n i x.
Proof. intros. split; auto. Qed.

Lemma fine_with n i (c : sw_container T) l : sc_fine n i c -> (forall x, In x l -> se_fine n i x) -> sc_fine n i (sc_with c l).
Proof. intros [H _] K. split; auto. Qed.

Lemma fine_app n i (c : sw_container T) x : sc_fine n i c -> se_fine n i x -> forall y, In y (sc_adj c ++ [x]) -> se_fine n i y.
Proof. intros [_ H] K y Hy. apply in_app_iff in Hy as [Hy|[<-|[]]]; auto. Qed.

Lemma In_upd {X} (l : list X) i x y : In y (upd l i x) -> y = x \/ In y l.
Proof.
  intros H. apply In_nth_error in H as (k & E). rewrite nth_error_upd in E.
  destruct ((i =? k) && (i <? length l)); [injection E as <-; auto|]. right. eapply nth_error_In; eauto.
Qed.

Lemma sw_push_safe n i j (a b : sw_container T) : apart n (i, j) -> sc_fine n i a -> sc_fine n j b ->
  safe (fun r => match r with Ok (a', b') => sc_fine n i a' /\ sc_fine n j b' | Err _ => True end) (ac_push a b).
Proof.
  intros (Hi & Hj & N) Ka Kb. cbn in Hi, Hj, N. cbn. unfold sc_push. destruct (sc_is_adjacent a (sc_id b)); apply safe_done; auto.
  assert (Ea := proj1 Ka). assert (Eb := proj1 Kb). split; split; cbn; auto.
  - apply (fine_app Ka). apply fine_intro; cbn; try congruence. intros o E. injection E as <-. rewrite Eb. auto.
  - apply (fine_app Kb). apply fine_intro; cbn; congruence.
Qed.

Lemma fine_clear n i (c : sw_container T) : sc_fine n i c -> sc_fine n i (ac_clear_edges c).
Proof. intros [H _]. split; cbn; auto. tauto. Qed.

Lemma sw_sized_new (mk : nat -> T) n : sw_sized n (graph_new mk n).
Proof. apply held_new. intros i Hi. split; cbn; auto. tauto. Qed.

Lemma sized_upd n (g : graph (sw_container T)) i c : sw_sized n g -> sc_fine n i c -> sw_sized n (with_vertices g (upd (vertices g) i c)).
Proof. intros. apply held_upd; auto. Qed.

Lemma safe_reset p n i j (c0 c1 : sw_container T) : apart n (i, j) -> sc_fine n i c0 -> sc_fine n j c1 ->
  safe (fun r => match r with
                 | Ok (v, c0', c1') => apart n (i, v) /\ sc_fine n i c0' /\ sc_fine n j c1'
                 | Err s => sw_names s = []
                 end) (sc_reset p c0 c1).
Proof.
  intros K K0 K1. unfold sc_reset. destruct (sc_adj_position c0 (sc_id c1)) as [k0|]; [|apply safe_done; auto].
  eapply safe_bind; [apply safe_expect|]. intros k1 _. eapply safe_bind; [apply safe_vget|]. intros e0 E0.
  eapply safe_bind; [apply safe_vget|]. intros e1 E1. cbv beta in E0, E1.
  eapply safe_bind with (P := fun _ => True).
  { unfold debug_assert. destruct p; [|apply safe_done; auto]. destruct (negb _); [apply safe_done; auto|apply safe_panic]. }
  intros u _. destruct (se_is_at_root e0); [apply safe_done; auto|].
  eapply safe_bind; [apply safe_expect|]. intros o Eo. destruct (sc_is_adjacent c0 o); [apply safe_done; auto|].
  unfold se_reset. cbv beta in Eo. rewrite Eo. cbn [expect bind].
  eapply safe_bind; [apply safe_swap_remove|]. intros l1 H1. cbv beta in H1. apply safe_done. cbn [se_to].
  pose proof (proj2 K0 _ (nth_error_In _ _ E0)) as (_ & _ & F). specialize (F _ Eo) as Fo.
  splits.
  - repeat split; cbn; try tauto; [apply K|]. intros X. apply Fo. auto.
  - apply fine_with; auto. intros x Hx. apply In_upd in Hx as [->|Hx]; [|apply K0; auto].
    apply fine_intro; cbn; try tauto. intros o' Eo'. injection Eo' as <-. tauto.
  - apply fine_with; auto. intros x Hx. apply K1. auto.
Qed.

Lemma safe_reset_edge p n (g : graph (sw_container T)) i j : sw_sized n g -> allowed p n (i, j) ->
  safe (fun r => sw_sized n (snd r) /\ Forall (apart n) (sw_names (fst r))) (sw_reset_edge p g i j).
Proof.
  intros H K. unfold sw_reset_edge. eapply safe_bind; [apply (safe_get2 H K)|]. intros [c0 c1] (P & K0 & K1).
  cbn [fst snd] in K0, K1. eapply safe_bind; [apply (safe_reset p P K0 K1)|].
  intros [[[v c0'] c1']|s] R; [|apply safe_done; cbn; split; auto; rewrite R; auto].
  destruct R as (Pv & K0' & K1').
  assert (H1 : sw_sized n (with_vertices g (put_2 (vertices g) i j c0' c1'))) by (apply held_put; auto).
  eapply safe_bind; [apply safe_vget|]. intros c2 E2. cbv beta in E2. apply (he_ok H1) in E2.
  eapply safe_bind with (P := sc_fine n v).
  - unfold sc_push_single. eapply safe_bind with (P := fun _ => True).
    { unfold debug_assert. destruct p; [|apply safe_done; auto]. destruct (negb _); [apply safe_done; auto|apply safe_panic]. }
    intros u _. apply safe_done. apply fine_with; auto. apply (fine_app E2).
    destruct Pv as (A1 & A2 & A3). cbn in *. apply fine_intro; cbn; auto; discriminate.
  - intros c2' K2. apply safe_done. cbn [fst snd sw_names]. split; [apply sized_upd; auto|].
    destruct (j =? v); auto.
Qed.

Lemma safe_get3 p n (g : graph (sw_container T)) i j k : sw_sized n g ->
  (p = Release -> apart n (i, j) /\ apart n (i, k) /\ j <> k) ->
  safe (fun r => (apart n (i, j) /\ apart n (i, k) /\ j <> k) /\
    sc_fine n i (fst (fst r)) /\ sc_fine n j (snd (fst r)) /\ sc_fine n k (snd r)) (get_3_mut p g i j k).
Proof.
  intros H K. unfold get_3_mut.
  assert (D : apart n (i, j) /\ apart n (i, k) /\ j <> k ->
    safe (fun r => (apart n (i, j) /\ apart n (i, k) /\ j <> k) /\
      sc_fine n i (fst (fst r)) /\ sc_fine n j (snd (fst r)) /\ sc_fine n k (snd r))
      match nth_error (vertices g) i, nth_error (vertices g) j, nth_error (vertices g) k with
      | Some a, Some b, Some c => if negb (i =? j) && negb (j =? k) && negb (k =? i) then Done (a, b, c) else UB
      | _, _, _ => UB
      end).
  { intros P. assert (P' := P). destruct P' as ((Hi & Hj & N) & (_ & Hk & N') & N''). cbn [fst snd] in *.
    destruct (held_get H Hi) as (a & Ea). destruct (held_get H Hj) as (b & Eb). destruct (held_get H Hk) as (c & Ec).
    rewrite Ea, Eb, Ec. destruct (Nat.eqb_spec i j), (Nat.eqb_spec j k), (Nat.eqb_spec k i); try congruence. cbn [negb andb].
    apply safe_done. cbn. split; [exact P|]. splits; eapply (he_ok H); eauto. }
  cbv zeta.
  destruct ((i <? next_id g) && (j <? next_id g) && (k <? next_id g) &&
    (negb (i =? j) && negb (j =? k) && negb (k =? i))) eqn:B.
  - assert (P : apart n (i, j) /\ apart n (i, k) /\ j <> k).
    { rewrite (he_next H) in B. apply andb_true_iff in B as [B1 B2]. apply andb_true_iff in B1 as [B1 B3].
      apply andb_true_iff in B1 as [B0 B1]. apply Nat.ltb_lt in B0, B1, B3.
      destruct (Nat.eqb_spec i j), (Nat.eqb_spec j k), (Nat.eqb_spec k i); try discriminate. repeat split; cbn; auto. }
    destruct p; auto.
  - destruct p; [apply safe_panic|]. apply D. apply K. auto.
Qed.

Lemma safe_rewire p n i j k (c0 c1 c2 : sw_container T) : apart n (i, j) -> apart n (i, k) -> j <> k ->
  sc_fine n i c0 -> sc_fine n j c1 -> sc_fine n k c2 ->
  safe (fun r => Forall (apart n) (sw_names (fst r)) /\
    sc_fine n i (fst (fst (snd r))) /\ sc_fine n j (snd (fst (snd r))) /\ sc_fine n k (snd (snd r)))
    (sc_rewire p c0 c1 c2).
Proof.
  intros Pj Pk N K0 K1 K2. unfold sc_rewire. assert (I0 := proj1 K0). assert (I1 := proj1 K1). assert (I2 := proj1 K2).
  destruct (sc_adj_position c0 (sc_id c1)) as [k0|]; [|apply safe_done; cbn; auto].
  destruct (sc_is_adjacent c0 (sc_id c2)); [apply safe_done; cbn; auto|].
  eapply safe_bind; [apply safe_vget|]. intros e Ee. cbv beta in Ee. apply nth_error_In in Ee. apply K0 in Ee.
  eapply safe_bind with (P := fun _ => True).
  { unfold debug_assert. destruct p; [|apply safe_done; auto]. destruct (se_is_root e); [apply safe_done; auto|apply safe_panic]. }
  intros u _. eapply safe_bind; [apply safe_expect|]. intros k1 _. eapply safe_bind; [apply safe_swap_remove|]. intros l1 H1.
  cbv beta in H1. apply safe_done. rewrite I0, I1, I2. cbn [fst snd sw_names]. splits.
  - destruct (j =? k); auto.
  - apply fine_with; auto. intros x Hx. apply In_upd in Hx as [->|Hx]; [|apply K0; auto].
    destruct Pk as (A1 & A2 & A3). cbn in *. apply fine_intro; cbn; auto; apply Ee.
  - apply fine_with; auto. intros x Hx. apply K1. auto.
  - apply fine_with; auto. apply (fine_app K2). destruct Pk as (A1 & A2 & A3). cbn in *.
    apply fine_intro; cbn; auto; discriminate.
Qed.

Lemma safe_rewire_edge p n (g : graph (sw_container T)) i j k : sw_sized n g ->
  (p = Release -> j = k \/ apart n (i, j) /\ apart n (i, k)) ->
  safe (fun r => sw_sized n (snd r) /\ Forall (apart n) (sw_names (fst r))) (sw_rewire_edge p g i j k).
Proof.
  intros H K. unfold sw_rewire_edge. destruct (Nat.eqb_spec j k) as [|N]; [apply safe_done; cbn; auto|].
  eapply safe_bind; [apply (@safe_get3 p n); auto; intros E; destruct (K E); [congruence|tauto]|].
  intros [[c0 c1] c2] ((Pj & Pk & _) & K0 & K1 & K2). cbn [fst snd] in *.
  eapply safe_bind; [apply (@safe_rewire p n i j k); auto|]. intros [s [[c0' c1'] c2']] (Ps & K0' & K1' & K2').
  cbn [fst snd] in *. apply safe_done. cbn [fst snd]. split; auto.
  apply (@sized_upd n (with_vertices g (upd (upd (vertices g) i c0') j c1')) k c2'); auto.
  apply (@sized_upd n (with_vertices g (upd (vertices g) i c0')) j c1'); auto. apply sized_upd; auto.
Qed.

Definition sw_tame n (e : sw_ensemble T) : Prop := sw_sized n (sw_graph e).

Lemma safe_sw_edge p n (e : sw_ensemble T) i j rs : sw_tame n e -> apart n (i, j) ->
  safe (fun r => sw_tame n (snd (fst r)) /\ Forall (apart n) (sw_names (fst (fst r)))) (sw_randomize_edge p e i j rs).
Proof.
  intros H K. unfold sw_randomize_edge. eapply safe_bind; [apply safe_gen_f64|]. intros [x rs1] _.
  destruct (Qle_bool x (sw_r_prob e)).
  - unfold vertex_count. rewrite (he_next H). eapply safe_bind; [apply safe_usub|]. intros h Eh. cbv beta in Eh.
    assert (Kn := K). destruct Kn as (Hi & Hj & N). cbn [fst snd] in *. rewrite Eh by lia.
    eapply safe_bind with (P := fun r => apart n (i, fst r)).
    + unfold draw_remaining. eapply safe_bind; [apply safe_gen_range|]. intros [m rs2] Hm. cbn [fst] in Hm.
      apply safe_done. cbn [fst]. destruct (Nat.ltb_spec m i); repeat split; cbn; lia.
    + intros [k rs2] Pk. cbn [fst] in Pk.
      eapply safe_bind; [apply (@safe_rewire_edge p n); auto|]. intros [s g] [Hg Hs]. apply safe_done. auto.
  - eapply safe_bind; [apply (@safe_reset_edge p n); auto; apply apart_allowed; auto|]. intros [s g] [Hg Hs]. apply safe_done. auto.
Qed.

Lemma tame_apart n (e : sw_ensemble T) i c x : sw_tame n e -> nth_error (vertices (sw_graph e)) i = Some c -> In x (sc_adj c) ->
  apart n (i, se_to x).
Proof.
  intros H E I. pose proof (proj2 (he_ok H E) x I) as (A & B & _). repeat split; cbn; auto. eapply held_lt; eauto.
Qed.

Lemma safe_sw_vertex p n (s : sw_ensemble T * rng) i : sw_tame n (fst s) ->
  safe (fun r => sw_tame n (fst r)) (sw_randomize_vertex p s i).
Proof.
  destruct s as [e rs]. cbn [fst]. intros H. unfold sw_randomize_vertex.
  eapply safe_bind; [apply safe_vget|]. intros c E. cbv beta in E.
  assert (R : forall k v, nth_error (map se_to (filter se_is_root (sc_adj c))) k = Some v -> apart n (i, v)).
  { intros k v Ev. apply nth_error_In, in_map_iff in Ev as (x & <- & Hx). apply filter_In in Hx as [Hx _].
    eapply tame_apart; eauto. }
  eapply safe_bind; [apply safe_expect|]. intros v1 E1. eapply safe_bind; [apply safe_expect|]. intros v2 E2.
  cbv beta in E1, E2. apply R in E1, E2. eapply safe_bind with (P := fun _ => True).
  { unfold debug_assert. destruct p; [|apply safe_done; auto]. destruct (_ <=? 2); [apply safe_done; auto|apply safe_panic]. }
  intros u _. assert (Chk : forall s, safe (fun _ => True) (debug_error_check p s)).
  { intros s. unfold debug_error_check. destruct p, s; sret. }
  eapply safe_bind; [apply (@safe_sw_edge p n); auto|]. intros [[s1 e1] rs1] [H1 _]. cbn [fst snd] in H1.
  eapply safe_bind; [apply Chk|]. intros u1 _.
  eapply safe_bind; [apply (@safe_sw_edge p n); auto|]. intros [[s2 e2] rs2] [H2 _]. cbn [fst snd] in H2.
  eapply safe_bind; [apply Chk|]. intros u2 _. apply safe_done. exact H2.
Qed.

Lemma safe_sw_randomize p n (e : sw_ensemble T) rs : sw_tame n e -> safe (fun r => sw_tame n (fst r)) (sw_randomize p e rs).
Proof.
  intros H. unfold sw_randomize. apply (@safe_foldM _ _ (fun s => sw_tame n (fst s))); auto. intros; apply safe_sw_vertex; auto.
Qed.

Lemma safe_sw_step p n (e : sw_ensemble T) rs : sw_tame n e ->
  safe (fun r => sw_tame n (snd (fst r)) /\ Forall (apart n) (sw_names (fst (fst r)))) (sw_m_step p e rs).
Proof.
  intros H. unfold sw_m_step. eapply safe_bind with (P := fun r => apart n (fst r)).
  - unfold sw_draw_edge. eapply safe_bind; [apply safe_gen_range|]. intros [r rs1] _.
    unfold container. eapply safe_bind; [apply safe_vget|]. intros c E. cbv beta in E.
    eapply safe_bind; [apply safe_expect|]. intros x Ex. cbv beta in Ex. apply nth_error_In, filter_In in Ex as [Ex _].
    apply safe_done. cbn [fst]. eapply tame_apart; eauto.
  - intros [[i j] rs1] K. apply safe_sw_edge; auto.
Qed.

Lemma safe_sw_undo p n (e : sw_ensemble T) s : sw_tame n e -> (forall ij, In ij (sw_names s) -> allowed p n ij) ->
  safe (fun r => sw_tame n (snd r)) (sw_undo_step p e s) /\ safe (sw_tame n) (sw_undo_step_quiet p e s).
Proof.
  intros H K.
  assert (R : forall root old_to new_to, sw_names s = (if old_to =? new_to then [] else [(root, old_to); (root, new_to)]) ->
    safe (fun r => sw_sized n (snd r) /\ Forall (apart n) (sw_names (fst r))) (sw_rewire_edge p (sw_graph e) root new_to old_to)).
  { intros root o m E. apply safe_rewire_edge; auto. intros Ep. rewrite E in K.
    destruct (Nat.eqb_spec o m) as [->|N]; auto. right. split; apply K; cbn; auto. }
  destruct s as [| | |root o m|root o m|er]; cbn [sw_undo_step sw_undo_step_quiet]; split; try sret;
    (eapply safe_bind; [apply (R root o m eq_refl)|]); intros [s' g] [Hg _]; cbn [snd] in Hg;
    try (apply safe_done; exact Hg); (destruct (sw_is_valid s'); [apply safe_done; exact Hg|apply safe_panic]).
Qed.

Lemma safe_connect_vertex p n m ids s i : sw_sized n (fst s) ->
  safe (fun r => sw_sized n (fst r)) (@sw_connect_vertex T p m ids s i).
Proof.
  destruct s as [g nc]. cbn [fst]. intros H. unfold sw_connect_vertex.
  eapply safe_bind; [apply safe_vget|]. intros a _. eapply safe_bind; [apply safe_vget|]. intros b _.
  eapply safe_bind; [apply safe_expect|]. intros k _. eapply safe_bind; [apply safe_vget|]. intros d _.
  destruct (_ && _); [|apply safe_done; auto]. eapply safe_bind; [apply safe_vset|]. intros nc' _.
  eapply safe_bind; [apply safe_vget|]. intros c Ec. eapply safe_bind; [apply safe_expect|]. intros x Ex.
  cbv beta in Ec, Ex. apply find_some in Ex as [Ex _].
  eapply safe_bind; [apply (@safe_reset_edge p n); auto|].
  - apply apart_allowed. apply (@tame_apart n (mk_swe g 0%Q) i c x); auto.
  - intros [s g'] [Hg _]. apply safe_done. exact Hg.
Qed.

Lemma safe_connect p n : forall fuel g, sw_sized n g -> safe (sw_sized n) (@sw_connect T p fuel g).
Proof.
  induction fuel as [|f IH]; intros g H; cbn [sw_connect]; [apply safe_nofuel|].
  eapply safe_bind; [apply safe_is_connected|]. intros [[|]|] _; try (apply safe_done; auto).
  eapply safe_bind; [apply safe_ids|]. intros [num ids] _.
  eapply safe_bind with (P := fun s => sw_sized n (fst s)).
  - apply (@safe_foldM _ _ (fun s => sw_sized n (fst s))); auto. intros; apply safe_connect_vertex; auto.
  - intros [g' nc] H'. apply IH; auto.
Qed.

Lemma safe_sw_do p n (e : sw_ensemble T) c rs : sw_tame n e ->
  (forall ij, In ij (sw_arguments c) -> allowed p n ij) ->
  safe (fun r => sw_tame n (fst r)) (sw_do p e c rs).
Proof.
  intros H K. destruct c as [| |s|s|fuel|q| |i t]; cbn [sw_do sw_arguments] in *.
  - apply safe_sw_randomize; auto.
  - eapply safe_bind; [apply (@safe_sw_step p n); auto|]. intros [[s e'] rs'] [K' _]. apply safe_done; auto.
  - eapply safe_bind; [apply (safe_sw_undo H K)|]. intros [s' e'] K'. apply safe_done; auto.
  - eapply safe_bind; [apply (safe_sw_undo H K)|]. intros e' K'. apply safe_done; auto.
  - unfold sw_make_connected. eapply safe_bind with (P := sw_tame n).
    + eapply safe_bind; [apply (@safe_connect p n); exact H|]. intros g Hg. apply safe_done. exact Hg.
    + intros e' K'. apply safe_done; auto.
  - apply safe_done. exact H.
  - eapply safe_bind; [apply (@held_sort _ _ _ (sc_fine n) n); auto|].
    + intros i c [I F]. cbn. apply safe_done. split; cbn; auto. intros x Hx. apply F.
      eapply Permutation_in; [|exact Hx]. apply sort_by_perm.
    + intros g Hg. apply safe_done. exact Hg.
  - eapply safe_bind; [apply (@held_write _ _ _ (sc_fine n) n); [intros j c [I F]; split; auto|exact H]|].
    intros g Hg. apply safe_done. exact Hg.
Qed.

Lemma safe_sw_new p (mk : nat -> T) n q rs : (p = Release -> n <> 1 /\ n <> 2) ->
  safe (fun r => sw_tame n (fst r)) (sw_new p mk n q rs).
Proof.
  intros Hn. unfold sw_new. eapply safe_bind with (P := sw_sized n).
  - unfold sw_init_ring_2. eapply safe_bind.
    + apply (@safe_init_ring _ _ _ (sc_fine n) p n).
      * intros; apply sw_push_safe; auto.
      * apply fine_clear.
      * intros E. specialize (Hn E). lia.
      * apply sw_sized_new.
    + intros [r g] H. eapply safe_bind; [apply safe_unwrap|]. intros u _. apply safe_done. exact H.
  - intros g H. apply safe_sw_randomize. exact H.
Qed.

Lemma safe_sw_new_with p (mk : nat -> T) n d q rs : (p = Release -> n = 0 \/ d < n) ->
  safe (fun r => match r with Ok s => sw_tame n (fst s) | Err _ => True end) (sw_new_with_distance p mk n d q rs).
Proof.
  intros Hn. unfold sw_new_with_distance. eapply safe_bind.
  - apply (@safe_init_ring _ _ _ (sc_fine n) p n); auto.
    + intros; apply sw_push_safe; auto.
    + apply fine_clear.
    + apply sw_sized_new.
  - intros [[u|er] g] H; [|apply safe_done; auto]. eapply safe_bind; [apply (@safe_sw_randomize p n); exact H|].
    intros x Hx. apply safe_done. exact Hx.
Qed.

Lemma safe_sw_program p n s l : careful sw_arguments p n l -> sw_tame n (fst s) ->
  safe (fun r => sw_tame n (fst r)) (program (@sw_do T p) s l).
Proof.
  intros H K. apply safe_program with (P := fun e => sw_tame n e); auto.
  intros e c1 rs1 Hc Ke. apply safe_sw_do; auto. intros ij Hij. eapply careful_In; eauto.
Qed.

(** Undoing a step that names an unknown vertex, or the vertex itself. *)
Lemma sw_rewire_ub n (g : graph (sw_container T)) i j k : next_id g = n -> length (vertices g) = n -> j <> k ->
  ~ (apart n (i, j) /\ apart n (i, k)) -> sw_rewire_edge Release g i j k = UB.
Proof.
  intros V L N H. unfold sw_rewire_edge. destruct (Nat.eqb_spec j k); [congruence|]. unfold get_3_mut.
  destruct (nth_error (vertices g) i) eqn:Ei; auto. destruct (nth_error (vertices g) j) eqn:Ej; auto.
  destruct (nth_error (vertices g) k) eqn:Ek; auto.
  assert (i < n) by (rewrite <- L; apply nth_error_Some; congruence).
  assert (j < n) by (rewrite <- L; apply nth_error_Some; congruence).
  assert (k < n) by (rewrite <- L; apply nth_error_Some; congruence).
  destruct (Nat.eqb_spec i j), (Nat.eqb_spec j k), (Nat.eqb_spec k i); auto; try congruence.
  destruct H. repeat split; cbn; auto.
Qed.

Lemma sw_undo_ub n (e : sw_ensemble T) s : sw_tame n e ->
  (sw_undo_step Release e s = UB <-> ~ Forall (apart n) (sw_names s)) /\
  (sw_undo_step_quiet Release e s = UB <-> ~ Forall (apart n) (sw_names s)).
Proof.
  intros H.
  assert (D : Forall (apart n) (sw_names s) \/ ~ Forall (apart n) (sw_names s)).
  { destruct s as [| | |root o m|root o m|]; cbn; auto; destruct (Nat.eqb_spec o m); auto;
      destruct (@apart_dec n root o) as [A|A], (@apart_dec n root m) as [B|B]; auto;
      right; intros F; inversion F as [|? ? F1 F2]; inversion F2; auto. }
  destruct D as [D|D].
  - destruct (@safe_sw_undo Release n e s H) as [[S1 _] [S2 _]].
    { intros ij Hij. apply apart_allowed. rewrite Forall_forall in D. auto. }
    split; split; intros; tauto.
  - assert (R : forall root o m, sw_names s = (if o =? m then [] else [(root, o); (root, m)]) ->
      sw_rewire_edge Release (sw_graph e) root m o = UB).
    { intros root o m E. rewrite E in D. destruct (Nat.eqb_spec o m) as [->|N]; [destruct D; auto|].
      apply (@sw_rewire_ub n); auto; try apply H. intros [A B]. apply D; auto. }
    split; split; auto; intros _; destruct s as [| | |root o m|root o m|]; cbn [sw_names] in D;
      try (solve [destruct D; apply Forall_nil]); cbn [sw_undo_step sw_undo_step_quiet];
      rewrite (R root o m eq_refl); auto.
Qed.

End Sw.
