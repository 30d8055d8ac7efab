(** The calls of the ensembles do not look at the data of the vertices. *)
From Verif Require Import Base BaseFacts Containers Graph GraphFacts Traversal Components Rng ErC ErM Sw Ws Config Ba Spacial Dog SafeSpec PayloadSpec PayloadFacts.
From Coq Require Import QArith.
Set Implicit Arguments.
Unset Strict Implicit.
Local Open Scope nat_scope.

(** A program of calls that go alike. *)
Lemma both_program {E E' Call Call'} (P : E -> E' -> Prop) (Q : Call -> Call' -> Prop) call call' :
  (forall e e' c c' rs, P e e' -> Q c c' -> both (drawn P) (call e c rs) (call' e' c' rs)) ->
  forall l l' e e' rs, P e e' -> Forall2 Q l l' ->
  both (drawn P) (program call (e, rs) l) (program call' (e', rs) l').
Proof.
  intros H l l' e e' rs p F. unfold program. apply both_foldM with (Q := Q); [|exact F|split; auto].
  intros [x r] [x' r'] c c' [K Er]; simpl in *. subst r'. auto.
Qed.

Lemma nc_degree_like {T T'} (R : nat -> T -> T' -> Prop) i (c : node_container T) (c' : node_container T') :
  nc_like (R i) c c' -> ac_degree c = ac_degree c'.
Proof. intros (_ & E & _). simpl. rewrite E; auto. Qed.
Lemma nc_neighbors_like {T T'} (R : nat -> T -> T' -> Prop) i (c : node_container T) (c' : node_container T') :
  nc_like (R i) c c' -> ac_neighbors c = ac_neighbors c'.
Proof. intros (_ & E & _). exact E. Qed.

Ltac fin := simpl; repeat first [assumption | reflexivity | exact I | apply like_clear; assumption | split; simpl].

(** Step, new graph and the rest. *)
Ltac edge_step L G :=
  eapply both_bind; [apply L; exact G|];
  let r := fresh "r" in let g := fresh "g" in let r' := fresh "r" in let g' := fresh "g" in
  let E := fresh "E" in let H := fresh "G" in
  intros [r g] [r' g'] [E H]; simpl in E, H; subst r'.

Section Runs.
Context {T T' : Type} {R R2 : nat -> T -> T' -> Prop} {N M : nat}.

Notation NL := (graph_like N (fun i => nc_like (R i))).

(** ** ErEnsembleC *)

Lemma both_adj_push g g' i j : NL g g' -> both NL (adj_push g i j) (adj_push g' i j).
Proof.
  intros (E1 & E2 & F). unfold adj_push. eapply both_bind; [eapply aligned_both; exact F|].
  intros c c' (H1 & H2 & H3); simpl. rewrite <- E1, <- E2. apply like_intro.
  apply aligned_upd; auto. unfold nc_like; simpl. rewrite H1, H2. auto.
Qed.

Lemma both_push_both g g' i j : NL g g' -> both NL (push_both g i j) (push_both g' i j).
Proof.
  intros G. unfold push_both. eapply both_bind; [apply both_adj_push; exact G|]. intros g1 g1' G1.
  eapply both_bind; [apply both_adj_push; exact G1|]. intros g2 g2' (E1 & E2 & F); simpl.
  rewrite <- E1, <- E2. apply like_intro; auto.
Qed.

Lemma both_erc_randomize e e' rs : erc_like N R e e' ->
  both (drawn (erc_like N R)) (erc_randomize e rs) (erc_randomize e' rs).
Proof.
  intros (G & E1 & E2). unfold erc_randomize. cbv zeta.
  rewrite <- (like_count (like_clear G)), <- E1, <- E2.
  eapply both_bind with (P := drawn NL).
  - apply both_foldM_same; [|split; auto; apply like_clear; auto].
    intros [g r] [g' r'] ij [H E]; simpl in H, E; subst r'. alike; simpl; try (split; auto).
    eapply both_bind; [apply both_push_both; exact H|]. intros; simpl; split; auto.
  - intros [g r] [g' r'] [H E]; simpl in *; subst r'. fin.
Qed.

Lemma both_erc_step p e e' rs : erc_like N R e e' ->
  both (told_drawn (erc_like N R)) (erc_m_step p e rs) (erc_m_step p e' rs).
Proof.
  intros (G & E1 & E2). unfold erc_m_step. cbv zeta. rewrite <- (like_count G), <- E1, <- E2.
  alike; [edge_step (both_add_edge (K := nc_alike R) (N := N)) G | edge_step (both_remove_edge (K := nc_alike R) (N := N)) G];
    destruct r; fin.
Qed.

Lemma both_erc_undo p e e' s : erc_like N R e e' ->
  both (told (erc_like N R)) (erc_undo_step p e s) (erc_undo_step p e' s).
Proof.
  intros H. pose proof H as (G & E1 & E2). unfold erc_undo_step. cbv zeta. rewrite <- E1, <- E2.
  destruct s as [|[a b]|[a b]|]; simpl; try (split; auto; fail);
  [edge_step (both_remove_edge (K := nc_alike R) (N := N)) G | edge_step (both_add_edge (K := nc_alike R) (N := N)) G];
    destruct r; fin.
Qed.

Lemma both_erc_undo_quiet p e e' s : erc_like N R e e' ->
  both (erc_like N R) (erc_undo_step_quiet p e s) (erc_undo_step_quiet p e' s).
Proof.
  intros H. pose proof H as (G & E1 & E2). unfold erc_undo_step_quiet. cbv zeta. rewrite <- E1, <- E2.
  destruct s as [|[a b]|[a b]|]; simpl; auto;
  [edge_step (both_remove_edge (K := nc_alike R) (N := N)) G | edge_step (both_add_edge (K := nc_alike R) (N := N)) G];
    destruct r; fin.
Qed.

Lemma both_connect_loop p l g g' last : NL g g' -> both NL (connect_loop p g last l) (connect_loop p g' last l).
Proof.
  revert g g' last. induction l as [|s l IH]; intros g g' last G; simpl; auto.
  edge_step (both_add_edge (K := nc_alike R) (N := N)) G. destruct r; simpl; auto.
Qed.

Lemma both_erc_connect p e e' : erc_like N R e e' ->
  both (erc_like N R) (erc_make_connected p e) (erc_make_connected p e').
Proof.
  intros (G & E1 & E2). unfold erc_make_connected.
  eapply both_bind; [apply (both_suggest (K := nc_alike R) (N := N)); exact G|]. intros l l' <-.
  rewrite <- E1, <- E2. alike. eapply both_bind; [apply both_connect_loop; exact G|].
  intros; simpl. split; auto.
Qed.

Lemma both_erc_target p e e' c : erc_like N R e e' ->
  both (erc_like N R) (erc_set_target_connectivity p e c) (erc_set_target_connectivity p e' c).
Proof.
  intros (G & E1 & E2). unfold erc_set_target_connectivity. rewrite <- (like_count G). alike.
  simpl. split; auto.
Qed.

Lemma both_erc_do p e e' c c' rs : erc_like N R e e' -> erc_call_like R c c' ->
  both (drawn (erc_like N R)) (erc_do p e c rs) (erc_do p e' c' rs).
Proof.
  intros H Q. pose proof H as (G & E1 & E2).
  destruct c, c'; simpl in Q; try contradiction; try subst; simpl.
  - apply both_erc_randomize; auto.
  - eapply both_bind; [apply both_erc_step; exact H|]. intros [[? ?] ?] [[? ?] ?] (? & ? & ?); split; auto.
  - eapply both_bind; [apply both_erc_undo; exact H|]. intros [? ?] [? ?] (? & ?); split; auto.
  - eapply both_bind; [apply both_erc_undo_quiet; exact H|]. intros; split; auto.
  - eapply both_bind; [apply both_erc_connect; exact H|]. intros; split; auto.
  - eapply both_bind; [apply both_erc_target; exact H|]. intros; split; auto.
  - eapply both_bind; [apply (both_sort (K := nc_alike R) (N := N)); exact G|]. intros; fin.
  - destruct Q as [<- r].
    eapply both_bind; [apply (both_write (K := nc_alike R) (N := N)); [exact G|exact r]|]. intros; fin.
Qed.

Lemma both_erc_new p mk mk' c rs : (forall i, R i (mk i) (mk' i)) ->
  both (drawn (erc_like N R)) (erc_new p mk N c rs) (erc_new p mk' N c rs).
Proof.
  intros H. unfold erc_new. alike. apply both_erc_randomize. split; [apply (like_graph_new (K := nc_alike R) (N := N)); exact H|fin].
Qed.

(** ** ErEnsembleM *)

Lemma both_add_unwrap p g g' ab : NL g g' -> both NL (add_edge_unwrap p g ab) (add_edge_unwrap p g' ab).
Proof. intros G. unfold add_edge_unwrap. edge_step (both_add_edge (K := nc_alike R) (N := N)) G. alike. auto. Qed.

Lemma both_remove_unwrap p g g' ab : NL g g' -> both NL (remove_edge_unwrap p g ab) (remove_edge_unwrap p g' ab).
Proof. intros G. unfold remove_edge_unwrap. edge_step (both_remove_edge (K := nc_alike R) (N := N)) G. alike. auto. Qed.

Lemma both_erm_randomize p e e' rs : erm_like N R e e' ->
  both (drawn (erm_like N R)) (erm_randomize p e rs) (erm_randomize p e' rs).
Proof.
  intros (G & E1 & E2 & E3 & E4). unfold erm_randomize. cbv zeta. rewrite <- E1, <- E2, <- E3, <- E4.
  alike. eapply both_bind with (P := NL).
  - apply both_foldM_same; [intros; apply both_add_unwrap; auto|apply like_clear; auto].
  - intros g g' H. alike. simpl. fin.
Qed.

Lemma both_erm_step p e e' s : erm_like N R e e' -> both (erm_like N R) (erm_step p e s) (erm_step p e' s).
Proof.
  intros (G & E1 & E2 & E3 & E4). unfold erm_step.
  eapply both_bind; [apply both_remove_unwrap; exact G|]. intros g1 g1' G1.
  eapply both_bind; [apply both_add_unwrap; exact G1|]. intros g2 g2' G2.
  rewrite <- E1, <- E2, <- E3, <- E4. alike. fin.
Qed.

Lemma both_erm_m_step p e e' rs : erm_like N R e e' ->
  both (told_drawn (erm_like N R)) (erm_m_step p e rs) (erm_m_step p e' rs).
Proof.
  intros H. pose proof H as (G & E1 & E2 & E3 & E4). unfold erm_m_step. rewrite <- E3, <- E4. alike.
  eapply both_bind; [apply both_erm_step; exact H|]. intros; fin.
Qed.

Lemma both_erm_do p e e' c c' rs : erm_like N R e e' -> erm_call_like R c c' ->
  both (drawn (erm_like N R)) (erm_do p e c rs) (erm_do p e' c' rs).
Proof.
  intros H Q. pose proof H as (G & E1 & E2 & E3 & E4).
  destruct c, c'; simpl in Q; try contradiction; try subst; simpl.
  - apply both_erm_randomize; auto.
  - eapply both_bind; [apply both_erm_m_step; exact H|]. intros [[? ?] ?] [[? ?] ?] (? & ? & ?); split; auto.
  - unfold erm_undo_step. apply both_assoc. eapply both_bind; [apply both_erm_step; exact H|]. intros; split; auto.
  - eapply both_bind; [apply both_erm_step; exact H|]. intros; split; auto.
  - eapply both_bind; [apply (both_sort (K := nc_alike R) (N := N)); exact G|]. intros; fin.
  - destruct Q as [<- r].
    eapply both_bind; [apply (both_write (K := nc_alike R) (N := N)); [exact G|exact r]|]. intros; fin.
Qed.

Lemma both_erm_new p mk mk' m rs : (forall i, R i (mk i) (mk' i)) ->
  both (drawn (erm_like N R)) (erm_new p mk N m rs) (erm_new p mk' N m rs).
Proof.
  intros H. unfold erm_new. alike. apply both_erm_randomize. split; [apply (like_graph_new (K := nc_alike R) (N := N)); exact H|fin].
Qed.

(** ** ConfigurationModel *)

Lemma both_cm_add p fuel g g' halfs : NL g g' ->
  both (fun x y => fst (fst x) = fst (fst y) /\ NL (snd (fst x)) (snd (fst y)) /\ snd x = snd y)
    (cm_add_multiple fuel p g halfs) (cm_add_multiple fuel p g' halfs).
Proof.
  revert g g' halfs. induction fuel as [|f IH]; intros g g' halfs G; simpl; auto.
  alike; simpl; auto. edge_step (both_add_edge (K := nc_alike R) (N := N)) G. alike; simpl; auto.
Qed.

Definition cm_state_like (x : graph (node_container T) * list nat * list nat)
  (y : graph (node_container T') * list nat * list nat) : Prop :=
  NL (fst (fst x)) (fst (fst y)) /\ snd (fst x) = snd (fst y) /\ snd x = snd y.

Lemma both_cm_round p s s' rs : cm_state_like s s' ->
  both (drawn (fun a b => match a, b with inl x, inl y => cm_state_like x y | inr x, inr y => cm_state_like x y | _, _ => False end))
    (cm_round p s rs) (cm_round p s' rs).
Proof.
  destruct s as [[g b] h], s' as [[g' b'] h']. intros (G & E1 & E2); simpl in G, E1, E2; subst b' h'.
  unfold cm_round. eapply both_bind; [apply both_cm_add; exact G|].
  intros [[ok g1] h1] [[ok' g1'] h1'] (E1 & G1 & E2); simpl in E1, G1, E2; subst ok' h1'.
  eapply both_bind with (P := drawn cm_state_like).
  - alike; fin.
  - intros [[[g2 b2] h2] r] [[[g2' b2'] h2'] r'] [(G2 & E1 & E2) E]; simpl in *; subst.
    destruct h2'; fin.
Qed.

Lemma both_cm_randomize p e e' rs : cm_like N R e e' ->
  both (drawn (cm_like N R)) (cm_randomize p e rs) (cm_randomize p e' rs).
Proof.
  intros (G & E1 & E2 & E3). unfold cm_randomize. rewrite <- E1, <- E3. alike.
  - fin.
  - eapply both_bind.
    + eapply both_loop with (P := cm_state_like) (Q := cm_state_like).
      * intros; apply both_cm_round; auto.
      * fin.
    + intros [[[g2 b2] h2] r] [[[g2' b2'] h2'] r'] [(G2 & H1 & H2) E]; simpl in *; subst.
      fin.
Qed.

Lemma both_cm_m_step p e e' rs : cm_like N R e e' ->
  both (told_drawn (cm_like N R)) (cm_m_step p e rs) (cm_m_step p e' rs).
Proof.
  intros H. pose proof H as (G & E1 & E2 & E3). unfold cm_m_step. cbv zeta. rewrite <- E1, <- E2, <- E3.
  apply both_refl. intros [[v0 v1] rs1].
  eapply both_bind; [eapply aligned_both; apply G|]. intros c0 c0' (_ & A0 & _). rewrite <- A0.
  apply both_refl. intros [j rs2].
  eapply both_bind; [eapply aligned_both; apply G|]. intros c1 c1' (_ & A1 & _). rewrite <- A1.
  apply both_refl. intros [l rs3]. destruct ((v1 =? v0) || (j =? l)); [fin|].
  edge_step (both_add_edge (K := nc_alike R) (N := N)) G. destruct r; [|fin].
  edge_step (both_add_edge (K := nc_alike R) (N := N)) G0. destruct r; unfold done_ok.
  - apply both_assoc. edge_step (both_remove_edge (K := nc_alike R) (N := N)) G1. apply both_assoc. alike. simpl bind.
    apply both_assoc. edge_step (both_remove_edge (K := nc_alike R) (N := N)) G2. apply both_assoc. alike. fin.
  - apply both_assoc. edge_step (both_remove_edge (K := nc_alike R) (N := N)) G1. apply both_assoc. alike. fin.
Qed.

Lemma both_done_ok (m : outcome (result unit graph_error * graph (node_container T))) m' :
  both (told NL) m m' -> both NL (done_ok m) (done_ok m').
Proof.
  intros H. unfold done_ok. eapply both_bind; [exact H|]. intros [r g] [r' g'] [E G]; simpl in *; subst.
  alike. auto.
Qed.

Lemma both_ok_add p g g' i j : NL g g' -> both NL (done_ok (add_edge p g i j)) (done_ok (add_edge p g' i j)).
Proof. intros; apply both_done_ok, (both_add_edge (K := nc_alike R) (N := N)); auto. Qed.
Lemma both_ok_remove p g g' i j : NL g g' -> both NL (done_ok (remove_edge p g i j)) (done_ok (remove_edge p g' i j)).
Proof. intros; apply both_done_ok, (both_remove_edge (K := nc_alike R) (N := N)); auto. Qed.

Ltac ok_add G := eapply both_bind; [apply both_ok_add; exact G|]; intros ? ? ?.
Ltac ok_remove G := eapply both_bind; [apply both_ok_remove; exact G|]; intros ? ? ?.

Lemma both_cm_undo p e e' s : cm_like N R e e' ->
  both (told (cm_like N R)) (cm_undo_step p e s) (cm_undo_step p e' s).
Proof.
  intros H. pose proof H as (G & E1 & E2 & E3). unfold cm_undo_step. cbv zeta. rewrite <- E1, <- E2, <- E3.
  destruct s as [|e1 e2]; [fin|].
  edge_step (both_add_edge (K := nc_alike R) (N := N)) G. destruct r; [|fin].
  edge_step (both_add_edge (K := nc_alike R) (N := N)) G0. destruct r.
  2:{ ok_remove G1. fin. }
  edge_step (both_remove_edge (K := nc_alike R) (N := N)) G1. destruct r.
  2:{ ok_remove G2. ok_remove H0. fin. }
  edge_step (both_remove_edge (K := nc_alike R) (N := N)) G2. destruct r; [fin|].
  ok_remove G3. ok_remove H0. ok_add H1. fin.
Qed.

Lemma both_cm_undo_quiet p e e' s : cm_like N R e e' ->
  both (cm_like N R) (cm_undo_step_quiet p e s) (cm_undo_step_quiet p e' s).
Proof.
  intros H. pose proof H as (G & E1 & E2 & E3). unfold cm_undo_step_quiet. rewrite <- E1, <- E2, <- E3.
  destruct s as [|e1 e2]; [simpl; auto|].
  ok_add G. ok_add H0. ok_remove H1. ok_remove H2. fin.
Qed.

Lemma both_cm_swap p e e' v rs : cm_like N R e e' ->
  both (told_drawn (cm_like N R)) (cm_swap_degree_vec_unchecked p e v rs) (cm_swap_degree_vec_unchecked p e' v rs).
Proof.
  intros H. pose proof H as (G & E1 & E2 & E3). unfold cm_swap_degree_vec_unchecked. rewrite <- E1, <- E2. alike.
  eapply both_bind; [apply both_cm_randomize; fin|].
  intros [? ?] [? ?] [? ?]; simpl in *; subst; fin.
Qed.

Lemma both_cm_do p e e' c c' rs : cm_like N R e e' -> cm_call_like R c c' ->
  both (drawn (cm_like N R)) (cm_do p e c rs) (cm_do p e' c' rs).
Proof.
  intros H Q. pose proof H as (G & E1 & E2 & E3).
  destruct c, c'; simpl in Q; try contradiction; try subst; simpl.
  - apply both_cm_randomize; auto.
  - eapply both_bind; [apply both_cm_m_step; exact H|]. intros [[? ?] ?] [[? ?] ?] (? & ? & ?); split; auto.
  - eapply both_bind; [apply both_cm_undo; exact H|]. intros [? ?] [? ?] (? & ?); split; auto.
  - eapply both_bind; [apply both_cm_undo_quiet; exact H|]. intros; split; auto.
  - unfold cm_swap_degree_vec. destruct (degree_vec_is_valid v0); [|exact I].
    eapply both_bind; [apply both_cm_swap; exact H|]. intros [[? ?] ?] [[? ?] ?] (? & ? & ?); split; auto.
  - eapply both_bind; [apply both_cm_swap; exact H|]. intros [[? ?] ?] [[? ?] ?] (? & ? & ?); split; auto.
  - eapply both_bind; [apply (both_sort (K := nc_alike R) (N := N)); exact G|]. intros; fin.
  - destruct Q as [<- r].
    eapply both_bind; [apply (both_write (K := nc_alike R) (N := N)); [exact G|exact r]|]. intros; fin.
Qed.

Lemma both_cm_new p mk mk' v rs : length v = N -> (forall i, R i (mk i) (mk' i)) ->
  both (drawn (cm_like N R)) (cm_from_vec_unchecked p mk v rs) (cm_from_vec_unchecked p mk' v rs).
Proof.
  intros E H. unfold cm_from_vec_unchecked. rewrite E. apply both_cm_randomize.
  split; [apply (like_graph_new (K := nc_alike R)); exact H|fin].
Qed.

(** ** BarabasiAlbert *)



Lemma both_ba_attach p m ws total i g g' rs : NL g g' ->
  both (drawn (fun a b => match a, b with inl x, inl y => NL x y | inr x, inr y => NL x y | _, _ => False end))
    (ba_attach p m ws total i g rs) (ba_attach p m ws total i g' rs).
Proof.
  intros G. unfold ba_attach. eapply both_bind; [apply (both_container (L := fun i => nc_like (R i)) (N := N)); exact G|].
  intros c c' l. rewrite <- (nc_degree_like l). alike; [|split; auto].
  edge_step (both_add_edge (K := nc_alike R) (N := N)) G. simpl; split; auto.
Qed.

Lemma both_ba_update g g' ws i : NL g g' -> both eq (ba_update g ws i) (ba_update g' ws i).
Proof.
  intros G. unfold ba_update. eapply both_bind; [apply (both_container (L := fun i => nc_like (R i)) (N := N)); exact G|].
  intros c c' l. rewrite <- (nc_degree_like l), <- (nc_neighbors_like l). apply both_eq.
Qed.

Lemma both_ba_insert p m s s' i :
  drawn (fun x y => NL (fst x) (fst y) /\ snd x = snd y) s s' ->
  both (drawn (fun x y => NL (fst x) (fst y) /\ snd x = snd y)) (ba_insert p m s i) (ba_insert p m s' i).
Proof.
  destruct s as [[g ws] r], s' as [[g' ws'] r']. intros [[G E] E']; simpl in *; subst.
  unfold ba_insert. apply both_refl. intros total.
  pose proof (both_loop (P := NL) (Q := NL) (S (length r')) r'
    (fun g g' rs => @both_ba_attach p m ws' total i g g' rs) G) as B.
  eapply both_bind; [exact B|].
  intros [g1 r1] [g1' r1'] [G1 E]; simpl in *; subst.
  eapply both_bind; [apply both_ba_update; exact G1|]. intros ? ? <-. simpl. split; auto.
Qed.

Lemma both_reset g g' o o' : NL g g' -> graph_like M (fun i => nc_like (R2 i)) o o' -> both NL (reset_from_graph g o) (reset_from_graph g' o').
Proof.
  intros G O. unfold reset_from_graph. cbv zeta. rewrite <- (like_count G), <- (like_count O). alike.
  pose proof (like_clear G) as (E1 & E2 & F). rewrite <- E1.
  pose proof O as (_ & E3 & F'). rewrite <- E3.
  eapply both_bind with (P := aligned N (fun i => nc_like (R i))).
  - apply both_foldM_same; auto. intros vs vs' i V.
    eapply both_bind; [eapply aligned_both; exact V|]. intros c c' (H1 & H2 & H3).
    eapply both_bind; [eapply aligned_both; exact F'|]. intros d d' (_ & K2 & _).
    simpl. apply aligned_upd; auto. unfold nc_like; simpl. rewrite H1, H2, K2; auto.
  - intros; simpl. apply like_intro; auto.
Qed.

Lemma both_ba_randomize p e e' rs : ba_like N R M R2 e e' ->
  both (drawn (ba_like N R M R2)) (ba_randomize p e rs) (ba_randomize p e' rs).
Proof.
  intros (S & G & E1 & E2). unfold ba_randomize.
  eapply both_bind; [apply both_reset; [exact G|exact S]|]. intros g g' G1. cbv zeta.
  rewrite <- (like_count S), <- (like_count G1), <- E1, <- E2. apply both_refl. intros [order rs1].
  eapply both_bind with (P := eq).
  - apply both_foldM_same; auto. intros ws ws' i <-.
    eapply both_bind; [eapply aligned_both; apply S|]. intros c c' l. rewrite <- (nc_degree_like l). apply both_eq.
  - intros ws ws' <-. apply both_refl. intros ws2.
    eapply both_bind with (P := drawn (fun x y => NL (fst x) (fst y) /\ snd x = snd y)).
    + apply both_foldM_same; [intros; apply both_ba_insert; auto|]. split; simpl; auto.
    + intros [[g2 w] r] [[g2' w'] r'] [[H K] E]; simpl in *; subst. fin.
Qed.

Lemma both_ba_do p e e' c c' rs : ba_like N R M R2 e e' -> plain_call_like R c c' ->
  both (drawn (ba_like N R M R2)) (ba_do p e c rs) (ba_do p e' c' rs).
Proof.
  intros H Q. pose proof H as (S & G & E1 & E2).
  destruct c, c'; simpl in Q; try contradiction; try subst; simpl.
  - apply both_ba_randomize; auto.
  - unfold ba_sort_adj. apply both_assoc.
    eapply both_bind; [apply (both_sort (K := nc_alike R) (N := N)); exact G|]. intros; fin.
  - destruct Q as [<- r].
    eapply both_bind; [apply (both_write (K := nc_alike R) (N := N)); [exact G|exact r]|]. intros; fin.
Qed.

End Runs.

Section Build.
Context {T T' : Type} {R : nat -> T -> T' -> Prop} {N M : nat}.

Notation NL := (graph_like N (fun i => nc_like (R i))).

Lemma both_complete p mk mk' : (forall i, R i (mk i) (mk' i)) ->
  both (graph_like M (fun i => nc_like (R i))) (complete_graph p mk M) (complete_graph p mk' M).
Proof.
  intros H. unfold complete_graph. cbv zeta.
  pose proof (@aligned_seq _ _ (fun i => nc_like (R i))
    (fun i => mk_nc i (seq 0 i ++ seq (i + 1) (M - (i + 1))) (mk i))
    (fun i => mk_nc i (seq 0 i ++ seq (i + 1) (M - (i + 1))) (mk' i)) M) as F.
  destruct M, p; try exact I; apply like_intro, F; unfold nc_like; simpl; auto.
Qed.

Lemma both_ba_new p mk mk' m rs : (forall i, R i (mk i) (mk' i)) ->
  both (drawn (ba_like N R M R)) (ba_new p mk N m M rs) (ba_new p mk' N m M rs).
Proof.
  intros H. unfold ba_new. alike. eapply both_bind; [apply both_complete; exact H|]. intros g g' G.
  apply (both_ba_randomize (R2 := R)). split; [exact G|split; [apply (like_graph_new (K := nc_alike R) (N := N)); exact H|fin]].
Qed.

Lemma both_ba_from p mk mk' m o o' rs : (forall i, R i (mk i) (mk' i)) ->
  graph_like M (fun i => nc_like (R i)) o o' ->
  both (drawn (ba_like N R M R)) (ba_new_from_graph p mk N m o rs) (ba_new_from_graph p mk' N m o' rs).
Proof.
  intros H O. unfold ba_new_from_graph.
  assert (E : forallb (fun c => 0 <? ac_degree c) (vertices o) = forallb (fun c => 0 <? ac_degree c) (vertices o')).
  { destruct O as (_ & _ & L1 & L2 & F). rewrite <- L1 in L2. clear L1. revert F L2. generalize (vertices o), (vertices o').
    intros l l'. revert l'. enough (X : forall l l' : list (node_container _), forall k,
      (forall i a a', nth_error l i = Some a -> nth_error l' i = Some a' -> nc_like (R (k + i)) a a') -> length l' = length l ->
      forallb (fun c => 0 <? ac_degree c) l = forallb (fun c => 0 <? ac_degree c) l') by (intros; eapply X with (k := 0); eauto).
    clear l. induction l as [|a l IH]; intros [|a' l'] k F E; try discriminate; simpl; auto.
    pose proof (F 0 a a' eq_refl eq_refl) as K. pose proof (nc_degree_like K) as D; simpl in D. rewrite D. f_equal.
    apply (IH l' (S k)); auto. intros i b b' E1 E2. simpl. rewrite plus_n_Sm. apply F; auto. }
  rewrite <- E, <- (like_count O). alike.
  eapply both_bind with (P := NL).
  - unfold ba_copy. rewrite <- (like_count O). apply both_foldM_same; [|apply (like_graph_new (K := nc_alike R) (N := N)); exact H].
    intros g g' i G. eapply both_bind with (P := R i).
    + unfold at_. eapply both_bind; [apply (both_container (L := fun i => nc_like (R i)) (N := M)); exact O|].
      intros a a' (_ & _ & K). exact K.
    + intros t t' K. apply (both_write (K := nc_alike R) (N := N)); auto.
  - intros g g' G. apply (both_ba_randomize (R2 := R)). split; [exact O|split; [exact G|fin]].
Qed.

End Build.
