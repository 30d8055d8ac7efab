(** The calls of the ring and of the spacial ensembles do not look at the data of the vertices. *)
From Verif Require Import Base BaseFacts Containers Graph GraphFacts Traversal Components Rng ErC ErM Sw Ws Config Ba Spacial Dog SafeSpec PayloadSpec PayloadFacts PayloadRuns.
From Coq Require Import QArith.
Set Implicit Arguments.
Unset Strict Implicit.
Local Open Scope nat_scope.

Section Sw.
Context {T T' : Type} {R : nat -> T -> T' -> Prop} {N : nat}.

Notation SL := (fun i => sc_like (R i)).
Notation GL := (graph_like N SL).

(** ** SwEnsemble *)

Lemma both_push_single p i c c' o : SL i c c' -> both (SL i) (sc_push_single p c o) (sc_push_single p c' o).
Proof.
  intros H. unfold sc_push_single, sc_with, sc_is_adjacent, sc_neighbors. open_like. alike. fin.
Qed.

Lemma both_rewire p i j k c0 c0' c1 c1' c2 c2' : SL i c0 c0' -> SL j c1 c1' -> SL k c2 c2' ->
  both (told (fun x y => (SL i (fst (fst x)) (fst (fst y)) /\ SL j (snd (fst x)) (snd (fst y))) /\ SL k (snd x) (snd y)))
    (sc_rewire p c0 c1 c2) (sc_rewire p c0' c1' c2').
Proof.
  intros H0 H1 H2. unfold sc_rewire, sc_with, sc_is_adjacent, sc_adj_position, sc_neighbors. open_like.
  alike; fin.
Qed.

Lemma both_sc_reset p i j c0 c0' c1 c1' : SL i c0 c0' -> SL j c1 c1' ->
  both (res_like (fun x y => (fst (fst x) = fst (fst y) /\ SL i (snd (fst x)) (snd (fst y))) /\ SL j (snd x) (snd y)))
    (sc_reset p c0 c1) (sc_reset p c0' c1').
Proof.
  intros H0 H1. unfold sc_reset, sc_with, sc_is_adjacent, sc_adj_position, sc_neighbors. open_like.
  alike; fin.
Qed.

Lemma like_with g g' vs vs' : GL g g' -> aligned N SL vs vs' -> GL (with_vertices g vs) (with_vertices g' vs').
Proof. intros (E1 & E2 & _) F. unfold with_vertices. rewrite <- E1, <- E2. apply like_intro; auto. Qed.

Lemma both_get_3 p g g' i j k : GL g g' ->
  both (fun x y => (SL i (fst (fst x)) (fst (fst y)) /\ SL j (snd (fst x)) (snd (fst y))) /\ SL k (snd x) (snd y))
    (get_3_mut p g i j k) (get_3_mut p g' i j k).
Proof.
  intros (E1 & E2 & F). unfold get_3_mut. cbv zeta. rewrite <- E1.
  pose proof (aligned_nth i F) as H1. pose proof (aligned_nth j F) as H2. pose proof (aligned_nth k F) as H3.
  set (b := negb (i =? j) && negb (j =? k) && negb (k =? i)). clearbody b.
  assert (B : both (fun x y => (SL i (fst (fst x)) (fst (fst y)) /\ SL j (snd (fst x)) (snd (fst y))) /\ SL k (snd x) (snd y))
    (match nth_error (vertices g) i, nth_error (vertices g) j, nth_error (vertices g) k with
     | Some a, Some b0, Some c => if b then Done (a, b0, c) else UB | _, _, _ => UB end)
    (match nth_error (vertices g') i, nth_error (vertices g') j, nth_error (vertices g') k with
     | Some a, Some b0, Some c => if b then Done (a, b0, c) else UB | _, _, _ => UB end)).
  { destruct (nth_error (vertices g) i), (nth_error (vertices g') i); try contradiction; simpl; auto.
    destruct (nth_error (vertices g) j), (nth_error (vertices g') j); try contradiction; simpl; auto.
    destruct (nth_error (vertices g) k), (nth_error (vertices g') k); try contradiction; simpl; auto.
    destruct b; simpl; auto. }
  destruct p; auto. destruct (_ && b); simpl; auto.
Qed.

Lemma both_reset_edge p g g' i j : GL g g' -> both (told GL) (sw_reset_edge p g i j) (sw_reset_edge p g' i j).
Proof.
  intros G. unfold sw_reset_edge. eapply both_bind; [apply (both_get_2 (L := SL) (N := N)); exact G|].
  intros [c0 c1] [c0' c1'] [H0 H1]; simpl in H0, H1.
  eapply both_bind; [eapply both_sc_reset; [exact H0|exact H1]|].
  intros [[[v d0] d1]|s] [[[v' d0'] d1']|s']; simpl; try contradiction.
  - intros [[<- K0] K1].
    assert (G1 : GL (with_vertices g (put_2 (vertices g) i j d0 d1)) (with_vertices g' (put_2 (vertices g') i j d0' d1'))).
    { apply like_with; auto. apply aligned_upd; auto. apply aligned_upd; auto. apply G. }
    eapply both_bind; [apply (aligned_both (n := N) (L := SL)); apply G1|]. intros c2 c2' K2.
    eapply both_bind; [eapply both_push_single; exact K2|]. intros c3 c3' K3. simpl. split; [reflexivity|].
    apply (like_with (g := g) (g' := g')); auto. apply aligned_upd; auto. apply G1.
  - intros <-. split; auto.
Qed.

Lemma both_rewire_edge p g g' i j k : GL g g' -> both (told GL) (sw_rewire_edge p g i j k) (sw_rewire_edge p g' i j k).
Proof.
  intros G. unfold sw_rewire_edge. destruct (j =? k); [split; auto|].
  eapply both_bind; [apply both_get_3; exact G|].
  intros [[c0 c1] c2] [[c0' c1'] c2'] [[H0 H1] H2]; simpl in H0, H1, H2.
  eapply both_bind; [eapply both_rewire; [exact H0|exact H1|exact H2]|].
  intros [s [[d0 d1] d2]] [s' [[d0' d1'] d2']] [E [[K0 K1] K2]]; simpl in *. subst s'. split; [reflexivity|].
  apply (like_with (g := g) (g' := g')); auto. apply aligned_upd; auto. apply aligned_upd; auto. apply aligned_upd; auto. apply G.
Qed.

Lemma both_randomize_edge p e e' i j rs : sw_like N R e e' ->
  both (told_drawn (sw_like N R)) (sw_randomize_edge p e i j rs) (sw_randomize_edge p e' i j rs).
Proof.
  intros (G & E). unfold sw_randomize_edge, sw_set. rewrite <- (like_count G), <- E. alike.
  - edge_step both_rewire_edge G. fin.
  - edge_step both_reset_edge G. fin.
Qed.

Lemma both_sw_vertex p s s' i : drawn (sw_like N R) s s' ->
  both (drawn (sw_like N R)) (sw_randomize_vertex p s i) (sw_randomize_vertex p s' i).
Proof.
  destruct s as [e rs], s' as [e' rs']. intros [H E]; simpl in H, E; subst rs'.
  pose proof H as (G & _). unfold sw_randomize_vertex.
  eapply both_bind; [apply (aligned_both (n := N) (L := SL)); apply G|]. intros c c' (_ & A & _). cbv zeta. rewrite <- A. alike.
  eapply both_bind; [apply both_randomize_edge; exact H|].
  intros [[s1 e1] r1] [[s1' e1'] r1'] (E1 & H1 & E2); simpl in *; subst. alike.
  eapply both_bind; [apply both_randomize_edge; exact H1|].
  intros [[s2 e2] r2] [[s2' e2'] r2'] (E1 & H2 & E2); simpl in *; subst. alike. fin.
Qed.

Lemma both_sw_randomize p e e' rs : sw_like N R e e' ->
  both (drawn (sw_like N R)) (sw_randomize p e rs) (sw_randomize p e' rs).
Proof.
  intros H. unfold sw_randomize. rewrite <- (like_count (proj1 H)). apply both_foldM_same.
  - intros; apply both_sw_vertex; auto.
  - split; auto.
Qed.

Lemma both_sw_step p e e' rs : sw_like N R e e' ->
  both (told_drawn (sw_like N R)) (sw_m_step p e rs) (sw_m_step p e' rs).
Proof.
  intros H. pose proof H as ((E1 & E2 & F) & _). unfold sw_m_step.
  assert (B : both eq (sw_draw_edge e rs) (sw_draw_edge e' rs)).
  { unfold sw_draw_edge. rewrite <- E2. alike.
    eapply both_bind; [apply (both_container (L := SL) (N := N)); apply H|]. intros c c' (_ & A & _). rewrite <- A.
    apply both_eq. }
  eapply both_bind; [exact B|]. intros [[i0 i1] r] _ <-. apply both_randomize_edge; auto.
Qed.

Lemma both_sw_undo p e e' s : sw_like N R e e' ->
  both (told (sw_like N R)) (sw_undo_step p e s) (sw_undo_step p e' s).
Proof.
  intros H. pose proof H as (G & E). unfold sw_undo_step, sw_set. rewrite <- E. destruct s; try solve [split; auto];
    edge_step both_rewire_edge G; fin.
Qed.

Lemma both_sw_undo_quiet p e e' s : sw_like N R e e' ->
  both (sw_like N R) (sw_undo_step_quiet p e s) (sw_undo_step_quiet p e' s).
Proof.
  intros H. pose proof H as (G & E). unfold sw_undo_step_quiet, sw_set. rewrite <- E. destruct s; simpl; auto;
    edge_step both_rewire_edge G; alike; fin.
Qed.

Lemma both_connect_vertex p n ids s s' i : GL (fst s) (fst s') /\ snd s = snd s' ->
  both (fun x y => GL (fst x) (fst y) /\ snd x = snd y) (sw_connect_vertex p n ids s i) (sw_connect_vertex p n ids s' i).
Proof.
  destruct s as [g b], s' as [g' b']. intros [G E]; simpl in G, E; subst b'. unfold sw_connect_vertex. alike; [|fin].
  eapply both_bind; [apply (aligned_both (n := N) (L := SL)); apply G|]. intros c c' (_ & A & _). rewrite <- A. alike.
  edge_step both_reset_edge G. fin.
Qed.

Lemma both_connect p fuel g g' : GL g g' -> both GL (sw_connect p fuel g) (sw_connect p fuel g').
Proof.
  revert g g'. induction fuel as [|f IH]; intros g g' G; simpl; auto.
  eapply both_bind; [apply (both_is_connected (K := sc_alike R) (N := N)); exact G|]. intros c _ <-. alike; auto.
  eapply both_bind; [apply (both_ids (K := sc_alike R) (N := N)); exact G|]. intros [num ids] _ <-.
  rewrite <- (like_count G).
  eapply both_bind with (P := fun x y => GL (fst x) (fst y) /\ snd x = snd y).
  - apply both_foldM_same; [intros; apply both_connect_vertex; auto|fin].
  - intros [g1 b1] [g1' b1'] [H _]. auto.
Qed.

Lemma both_sw_do p e e' c c' rs : sw_like N R e e' -> sw_call_like R c c' ->
  both (drawn (sw_like N R)) (sw_do p e c rs) (sw_do p e' c' rs).
Proof.
  intros H Q. pose proof H as (G & E).
  destruct c, c'; simpl in Q; try contradiction; try subst; simpl.
  - apply both_sw_randomize; auto.
  - eapply both_bind; [apply both_sw_step; exact H|]. intros [[? ?] ?] [[? ?] ?] (? & ? & ?); split; auto.
  - eapply both_bind; [apply both_sw_undo; exact H|]. intros [? ?] [? ?] (? & ?); split; auto.
  - eapply both_bind; [apply both_sw_undo_quiet; exact H|]. intros; split; auto.
  - unfold sw_make_connected, sw_set. apply both_assoc. eapply both_bind; [apply both_connect; exact G|]. intros; fin.
  - fin.
  - unfold sw_set. eapply both_bind; [apply (both_sort (K := sc_alike R) (N := N)); exact G|]. intros; fin.
  - destruct Q as [<- r]. unfold sw_set.
    eapply both_bind; [apply (both_write (K := sc_alike R) (N := N)); [exact G|exact r]|]. intros; fin.
Qed.

Lemma both_sw_new p mk mk' q rs : (forall i, R i (mk i) (mk' i)) ->
  both (drawn (sw_like N R)) (sw_new p mk N q rs) (sw_new p mk' N q rs).
Proof.
  intros H. unfold sw_new, sw_init_ring_2. apply both_assoc.
  eapply both_bind; [apply (both_init_ring (K := sc_alike R) (N := N)), (like_graph_new (K := sc_alike R)); exact H|].
  intros [r g] [r' g'] [E G]; simpl in E, G; subst r'. apply both_assoc. alike. apply both_sw_randomize. fin.
Qed.

End Sw.

Section Ws.
Context {T T' : Type} {R : nat -> T -> T' -> Prop} {N : nat}.

Notation WL := (fun i => wc_like (R i)).
Notation GL := (graph_like N WL).

(** ** WattsStrogatzEnsemble *)

Lemma both_find_pair fuel g g' o rs : GL g g' -> both eq (ws_find_pair fuel g o rs) (ws_find_pair fuel g' o rs).
Proof.
  intros G. revert rs. induction fuel as [|f IH]; intros rs; simpl; auto. rewrite <- (like_count G). alike; auto.
  eapply both_bind; [apply (aligned_both (n := N) (L := WL)); apply G|]. intros c c' (_ & A & _). rewrite <- A. alike; auto. fin.
Qed.

Lemma like_ws_with g g' vs vs' : GL g g' -> aligned N WL vs vs' -> GL (ws_with g vs) (ws_with g' vs').
Proof. intros (E1 & E2 & _) F. unfold ws_with. rewrite <- E1, <- E2. apply like_intro; auto. Qed.

Lemma both_create p g g' i j o : GL g g' -> both GL (ws_create_edge p g i j o) (ws_create_edge p g' i j o).
Proof.
  intros G. unfold ws_create_edge. cbv zeta. eapply both_bind; [apply (both_get_2 (L := WL) (N := N)); exact G|].
  intros [a b] [a' b'] [H0 H1]; simpl in H0, H1. simpl. apply like_ws_with; auto.
  apply aligned_upd; [apply aligned_upd; [apply G|]|]; unfold wc_append; open_like; fin.
Qed.

Lemma both_add_random p s s' o : drawn GL s s' ->
  both (drawn GL) (ws_add_random_edge p s o) (ws_add_random_edge p s' o).
Proof.
  destruct s as [g rs], s' as [g' rs']. intros [G E]; simpl in G, E; subst rs'. unfold ws_add_random_edge.
  eapply both_bind; [apply both_find_pair; exact G|]. intros [[a b] r] _ <-.
  eapply both_bind with (P := GL); [destruct (_ || _); apply both_create; auto|]. intros; fin.
Qed.

Lemma both_remove_other g g' o : GL g g' -> both GL (ws_remove_other g o) (ws_remove_other g' o).
Proof.
  intros G. unfold ws_remove_other. eapply both_bind; [apply (aligned_both (n := N) (L := WL)); apply G|]. intros c c' H.
  eapply both_bind with (P := WL (oe_to o)).
  - unfold wc_swap_remove_elem. open_like. alike. fin.
  - intros. apply like_ws_with; auto. apply aligned_upd; auto. apply G.
Qed.

Lemma both_ws_vertex p q s s' i : drawn GL s s' ->
  both (drawn GL) (ws_randomize_vertex p q s i) (ws_randomize_vertex p q s' i).
Proof.
  destruct s as [g rs], s' as [g' rs']. intros [G E]; simpl in G, E; subst rs'. unfold ws_randomize_vertex.
  eapply both_bind; [apply (aligned_both (n := N) (L := WL)); apply G|]. intros c c' (A1 & A2 & A3 & A4). cbv zeta.
  rewrite <- A1, <- A2, <- A3. alike.
  eapply both_bind with (P := GL).
  - apply both_foldM_same; [intros; apply both_remove_other; auto|]. apply like_ws_with; auto.
    apply aligned_upd; [apply G|]. fin.
  - intros. apply both_foldM_same; [intros; apply both_add_random; auto|]. split; auto.
Qed.

Lemma both_ws_randomize p e e' rs : ws_like N R e e' ->
  both (drawn (ws_like N R)) (ws_randomize p e rs) (ws_randomize p e' rs).
Proof.
  intros (G & E1 & E2). unfold ws_randomize. rewrite <- E1, <- E2.
  eapply both_bind; [apply (both_init_ring (K := wc_alike R) (N := N)); exact G|].
  intros [r g] [r' g'] [E H]; simpl in E, H; subst r'. alike. rewrite <- (like_count H).
  eapply both_bind with (P := drawn GL).
  - apply both_foldM_same; [intros; apply both_ws_vertex; auto|split; auto].
  - intros [g1 r1] [g1' r1'] [H1 Er]; simpl in H1, Er; subst. fin.
Qed.

Lemma both_ws_do p e e' c c' rs : ws_like N R e e' -> plain_call_like R c c' ->
  both (drawn (ws_like N R)) (ws_do p e c rs) (ws_do p e' c' rs).
Proof.
  intros H Q. pose proof H as (G & E1 & E2).
  destruct c, c'; simpl in Q; try contradiction; try subst; simpl.
  - apply both_ws_randomize; auto.
  - eapply both_bind; [apply (both_sort (K := wc_alike R) (N := N)); exact G|]. intros; fin.
  - destruct Q as [<- r].
    eapply both_bind; [apply (both_write (K := wc_alike R) (N := N)); [exact G|exact r]|]. intros; fin.
Qed.

Lemma both_ws_new p mk mk' d q rs : (forall i, R i (mk i) (mk' i)) ->
  both (res_like (drawn (ws_like N R))) (ws_new p mk N d q rs) (ws_new p mk' N d q rs).
Proof.
  intros H. unfold ws_new. alike; [fin|].
  eapply both_bind; [apply (both_init_ring (K := wc_alike R) (N := N)), (like_graph_new (K := wc_alike R)); exact H|].
  intros [r g] [r' g'] [E G]; simpl in E, G; subst r'. alike; [|fin].
  eapply both_bind; [apply both_ws_randomize; fin|]. intros; simpl; auto.
Qed.

End Ws.

Section Spacial.
Context {T T' : Type} {R : nat -> T -> T' -> Prop} {N : nat}.

Notation PL := (fun i => spc_like (P := pos) (R i)).
Notation GL := (graph_like N PL).

(** ** SpacialEnsemble *)

Lemma both_unchecked (g : sgraph T) g' i : GL g g' -> both (PL i) (get_unchecked g i) (get_unchecked g' i).
Proof.
  intros (_ & _ & F). unfold get_unchecked. pose proof (aligned_nth i F) as H.
  destruct (nth_error (vertices g) i), (nth_error (vertices g') i); simpl in *; auto.
Qed.

Lemma both_sp_test (e : spacial T) (e' : spacial T') g g' i j rs : GL g g' -> sp_accept e = sp_accept e' ->
  both eq (sp_test e g i j rs) (sp_test e' g' i j rs).
Proof.
  intros G E. unfold sp_test. rewrite <- E.
  eapply both_bind; [apply both_unchecked; exact G|]. intros a a' (_ & _ & A & _).
  eapply both_bind; [apply both_unchecked; exact G|]. intros b b' (_ & _ & B & _).
  rewrite <- A, <- B. apply both_eq.
Qed.

Lemma both_sp_push (g : sgraph T) g' i j : GL g g' -> both GL (sp_adj_push g i j) (sp_adj_push g' i j).
Proof.
  intros G. unfold sp_adj_push. eapply both_bind; [apply both_unchecked; exact G|]. intros c c' H.
  destruct G as (E1 & E2 & F). rewrite <- E1, <- E2. apply like_intro. apply aligned_upd; auto. open_like. fin.
Qed.

Lemma both_sp_push_both (g : sgraph T) g' i j : GL g g' -> both GL (sp_push_both g i j) (sp_push_both g' i j).
Proof.
  intros G. unfold sp_push_both. eapply both_bind; [apply both_sp_push; exact G|]. intros g1 g1' G1.
  eapply both_bind; [apply both_sp_push; exact G1|]. intros g2 g2' (E1 & E2 & F); simpl.
  rewrite <- E1, <- E2. apply like_intro; auto.
Qed.

Lemma both_sp_randomize e e' rs : sp_like N R e e' ->
  both (drawn (sp_like N R)) (sp_randomize e rs) (sp_randomize e' rs).
Proof.
  intros (G & E). unfold sp_randomize. cbv zeta. pose proof (like_clear G) as G0. rewrite <- (like_count G0).
  eapply both_bind with (P := drawn GL).
  - apply both_foldM_same; [|split; auto].
    intros [g r] [g' r'] ij [H Er]; simpl in H, Er; subst r'.
    eapply both_bind; [apply both_sp_test; [exact H|exact E]|]. intros [ok rs1] _ <-. destruct ok; [|fin].
    eapply both_bind; [apply both_sp_push_both; exact H|]. intros; fin.
  - intros [g r] [g' r'] [H Er]; simpl in *; subst r'. fin.
Qed.

Lemma both_sp_step p e e' rs : sp_like N R e e' ->
  both (told_drawn (sp_like N R)) (sp_m_step p e rs) (sp_m_step p e' rs).
Proof.
  intros (G & E). unfold sp_m_step. rewrite <- (like_count G). apply both_refl. intros [[a b] rs1].
  eapply both_bind; [apply both_sp_test; [exact G|exact E]|]. intros [ok rs2] _ <-. rewrite <- E.
  destruct ok; [edge_step (both_add_edge (K := spc_alike (P := pos) R) (N := N)) G | edge_step (both_remove_edge (K := spc_alike (P := pos) R) (N := N)) G];
    destruct r; fin.
Qed.

Lemma both_sp_steps p e e' k rs : sp_like N R e e' ->
  both (drawn (sp_like N R)) (sp_m_steps_quiet p e k rs) (sp_m_steps_quiet p e' k rs).
Proof.
  intros H. unfold sp_m_steps_quiet. apply both_foldM_same; [|split; auto].
  clear H e e' rs. intros [e rs] [e' rs'] x [[G E] Er]; simpl in G, E, Er; subst rs'.
  rewrite <- (like_count G). apply both_refl. intros [[a b] rs1].
  eapply both_bind; [apply both_sp_test; [exact G|exact E]|]. intros [ok rs2] _ <-. rewrite <- E.
  destruct ok; [edge_step (both_add_edge (K := spc_alike (P := pos) R) (N := N)) G | edge_step (both_remove_edge (K := spc_alike (P := pos) R) (N := N)) G];
    fin.
Qed.

Lemma both_sp_undo p e e' s : sp_like N R e e' ->
  both (told (sp_like N R)) (sp_undo_step p e s) (sp_undo_step p e' s).
Proof.
  intros H. pose proof H as (G & E). unfold sp_undo_step. rewrite <- E.
  destruct s as [|[a b]|[a b]|]; try solve [split; auto];
  [edge_step (both_remove_edge (K := spc_alike (P := pos) R) (N := N)) G | edge_step (both_add_edge (K := spc_alike (P := pos) R) (N := N)) G];
    destruct r; fin.
Qed.

Lemma both_sp_undo_quiet p e e' s : sp_like N R e e' ->
  both (sp_like N R) (sp_undo_step_quiet p e s) (sp_undo_step_quiet p e' s).
Proof.
  intros H. pose proof H as (G & E). unfold sp_undo_step_quiet. rewrite <- E.
  destruct s as [|[a b]|[a b]|]; simpl; auto;
  [edge_step (both_remove_edge (K := spc_alike (P := pos) R) (N := N)) G | edge_step (both_add_edge (K := spc_alike (P := pos) R) (N := N)) G];
    destruct r; fin.
Qed.

Lemma both_sp_do p e e' c c' rs : sp_like N R e e' -> sp_call_like R c c' ->
  both (drawn (sp_like N R)) (sp_do p e c rs) (sp_do p e' c' rs).
Proof.
  intros H Q. pose proof H as (G & E).
  destruct c, c'; simpl in Q; try contradiction; try subst; simpl.
  - apply both_sp_randomize; auto.
  - eapply both_bind; [apply both_sp_step; exact H|]. intros [[? ?] ?] [[? ?] ?] (? & ? & ?); split; auto.
  - apply both_sp_steps; auto.
  - eapply both_bind; [apply both_sp_undo; exact H|]. intros [? ?] [? ?] (? & ?); split; auto.
  - eapply both_bind; [apply both_sp_undo_quiet; exact H|]. intros; split; auto.
  - eapply both_bind; [apply (both_sort (K := spc_alike (P := pos) R) (N := N)); exact G|]. intros; fin.
  - destruct Q as [<- r].
    eapply both_bind; [apply (both_write (K := spc_alike (P := pos) R) (N := N)); [exact G|exact r]|]. intros; fin.
Qed.

(** Vertices that are built one after the other. *)
Lemma both_build {X X'} (P : nat -> X -> X' -> Prop) f f' (vs : list (spacial_container pos T)) vs' s s' :
  (forall k s s' c c', P k s s' -> PL k c c' -> both (P (S k)) (f s c) (f' s' c')) ->
  aligned N PL vs vs' -> P 0 s s' -> both (P N) (foldM f s vs) (foldM f' s' vs').
Proof.
  intros H F.
  assert (G : forall vs vs' s s' k, P k s s' -> length vs = length vs' ->
    (forall i c c', nth_error vs i = Some c -> nth_error vs' i = Some c' -> PL (k + i) c c') ->
    both (P (k + length vs)) (foldM f s vs) (foldM f' s' vs')).
  { clear vs vs' F s s'. induction vs as [|c vs IH]; intros [|c' vs'] s s' k D E K; simpl in E; try discriminate; simpl.
    - rewrite Nat.add_0_r. auto.
    - eapply both_bind; [apply (H k s s' c c' D); rewrite <- (Nat.add_0_r k); apply K; auto|].
      intros t t' D1. rewrite <- Nat.add_succ_comm. apply IH; auto.
      intros i a a' E1 E2. rewrite Nat.add_succ_comm. apply K; auto. }
  destruct F as (L1 & L2 & F). intros D. rewrite <- L1 at 1. apply (G vs vs' s s' 0); auto. congruence.
Qed.

Lemma aligned_snoc k vs vs' c c' : aligned k PL vs vs' -> PL k c c' -> aligned (S k) PL (vs ++ [c]) (vs' ++ [c']).
Proof.
  intros (L1 & L2 & F) H. unfold aligned. rewrite !app_length; simpl. splits; try lia.
  intros i a a' E E'. destruct (Nat.lt_ge_cases i k) as [Hi|Hi].
  - rewrite nth_error_app1 in E, E' by lia. eauto.
  - rewrite nth_error_app2 in E, E' by lia. rewrite L1 in E. rewrite L2 in E'.
    assert (i - k = 0). { destruct (i - k) as [|z]; auto. destruct z; discriminate. }
    rewrite H0 in E, E'. simpl in E, E'. injection E as <-. injection E' as <-.
    replace i with k by lia. auto.
Qed.

Lemma both_place g g' rs : GL g g' -> both (drawn GL) (sp_place g rs) (sp_place g' rs).
Proof.
  intros (E1 & E2 & F). unfold sp_place. rewrite <- E1, <- E2.
  eapply both_bind; [apply (both_build (P := fun k => drawn (aligned k PL))); [|exact F|split; [apply aligned_nil|reflexivity]]|].
  - intros k [vs r] [vs' r'] c c' [D E] H; simpl in D, E; subst r'. alike. simpl. split; auto. apply aligned_snoc; auto. open_like. fin.
  - intros [vs r] [vs' r'] [H E]; simpl in H, E; subst. simpl. split; auto. apply like_intro; auto.
Qed.

Lemma both_sp_new mk mk' accept rs : (forall i, R i (mk i) (mk' i)) ->
  both (drawn (sp_like N R)) (sp_new mk N accept rs) (sp_new mk' N accept rs).
Proof.
  intros H. unfold sp_new. eapply both_bind; [apply both_place, (like_graph_new (K := spc_alike (P := pos) R)); exact H|].
  intros [g r] [g' r'] [G E]; simpl in G, E; subst. apply both_sp_randomize. fin.
Qed.

(** ** DogEnsemble *)

Lemma both_dog_pair p acc s s' ij : drawn GL s s' ->
  both (drawn GL) (dog_pair p acc s ij) (dog_pair p acc s' ij).
Proof.
  destruct s as [g rs], s' as [g' rs'], ij as [i j]. intros [G E]; simpl in G, E; subst rs'. unfold dog_pair.
  eapply both_bind; [apply (both_get_2 (L := PL) (N := N)); exact G|].
  intros [a b] [a' b'] [H0 H1]; simpl in H0, H1. pose proof H0 as (_ & _ & A & _). pose proof H1 as (_ & _ & B & _).
  rewrite <- A, <- B. alike; [|fin].
  eapply both_bind; [eapply (al_push (AdjLike := spc_alike (P := pos) R)); [exact H0|exact H1]|].
  pose proof G as (E1 & E2 & F). rewrite <- E1, <- E2.
  intros [[x y]|er] [[x' y']|er']; simpl; try contradiction.
  - intros [K1 K2]. split; auto. simpl. apply (like_put (g := g) (g' := g')); auto.
  - intros <-. split; auto. simpl. apply like_intro; auto.
Qed.

Lemma both_dog_try p node sum g g' rs : GL g g' ->
  both (drawn (fun a b => match a, b with inl x, inl y => GL x y | inr x, inr y => GL x y | _, _ => False end))
    (dog_try p node sum g rs) (dog_try p node sum g' rs).
Proof.
  intros G. unfold dog_try. rewrite <- (like_count G). apply both_refl. intros [i rs1].
  rewrite <- (like_degree (K := spc_alike (P := pos) R) i G). alike; try (split; auto; fail).
  edge_step (both_add_edge (K := spc_alike (P := pos) R) (N := N)) G. destruct r; fin.
Qed.

Lemma both_dog_node p s s' node : drawn (fun x y => GL (fst x) (fst y) /\ snd x = snd y) s s' ->
  both (drawn (fun x y => GL (fst x) (fst y) /\ snd x = snd y)) (dog_node p s node) (dog_node p s' node).
Proof.
  destruct s as [[g sum] rs], s' as [[g' sum'] rs']. intros [[G E] Er]; simpl in *; subst. unfold dog_node. alike.
  apply both_foldM_same; [|fin].
  intros [[h sm] r] [[h' sm'] r'] x [[H E] Er]; simpl in *; subst. unfold dog_edge.
  pose proof (both_loop (P := GL) (Q := GL) (S (length r')) r'
    (fun g g' rs => @both_dog_try p node sm' g g' rs) H) as B.
  eapply both_bind; [exact B|]. intros [h1 r1] [h1' r1'] [H1 E]; simpl in *; subst. fin.
Qed.

Lemma both_dog_randomize p e e' rs : dog_like N R e e' ->
  both (drawn (dog_like N R)) (dog_randomize p e rs) (dog_randomize p e' rs).
Proof.
  intros (G & E1 & E2 & E3). unfold dog_randomize. cbv zeta. rewrite <- E1, <- E2, <- E3.
  pose proof (like_clear G) as G0. rewrite <- (like_count G0).
  eapply both_bind with (P := drawn GL).
  - apply both_foldM_same; [intros; apply both_dog_pair; auto|split; auto].
  - intros [g r] [g' r'] [H Er]; simpl in H, Er; subst r'. alike.
    rewrite <- (like_degrees (K := spc_alike (P := pos) R) H).
    eapply both_bind with (P := drawn (fun x y => GL (fst x) (fst y) /\ snd x = snd y)).
    + apply both_foldM_same; [intros; apply both_dog_node; auto|fin].
    + intros [[g2 sm] r2] [[g2' sm'] r2'] [[H2 Es] Er]; simpl in *; subst. fin.
Qed.

Lemma both_dog_new p mk mk' accept tau lambda rs : (forall i, R i (mk i) (mk' i)) ->
  both (drawn (dog_like N R)) (dog_new p mk N accept tau lambda rs) (dog_new p mk' N accept tau lambda rs).
Proof.
  intros H. unfold dog_new. alike.
  eapply both_bind with (P := drawn GL).
  - pose proof (like_graph_new (K := spc_alike (P := pos) R) (N := N) H) as (E1 & E2 & F). unfold dog_place. rewrite <- E1, <- E2.
    eapply both_bind; [apply (both_build (P := fun k => drawn (fun a b => aligned k PL (fst a) (fst b) /\ snd a = snd b)));
      [|exact F|split; [split; [apply aligned_nil|reflexivity]|reflexivity]]|].
    + intros k [[vs l] r] [[vs' l'] r'] c c' [[D El] E] K; simpl in D, El, E; subst l' r'. alike; simpl; split; auto; split; auto.
      * apply aligned_snoc; auto. open_like. fin.
      * apply aligned_snoc; auto.
    + intros [[vs l] r] [[vs' l'] r'] [[K _] E]; simpl in K, E; subst. simpl. split; auto. apply like_intro; auto.
  - intros [g r] [g' r'] [G E]; simpl in G, E; subst. eapply both_bind with (P := drawn GL).
    + unfold dog_jitter. pose proof G as (E1 & E2 & F). rewrite <- E1, <- E2.
      eapply both_bind; [apply (both_build (P := fun k => drawn (aligned k PL))); [|exact F|split; [apply aligned_nil|reflexivity]]|].
      * intros k [vs r1] [vs' r1'] c c' [D Er] K; simpl in D, Er; subst r1'. alike. simpl. split; auto. apply aligned_snoc; auto. open_like. fin.
      * intros [vs r] [vs' r''] [K E]; simpl in K, E; subst. simpl. split; auto. apply like_intro; auto.
    + intros [g1 r1] [g1' r1'] [G1 E]; simpl in G1, E; subst. apply both_dog_randomize. fin.
Qed.

End Spacial.
