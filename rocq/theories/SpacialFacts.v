(** Proofs about the spacial ensemble. *)
From Verif Require Import Base BaseFacts Sums Containers ContainerSpec ContainerFacts Graph GraphSpec GraphFacts GraphOps Rng RngFacts Markov EnsembleFacts ErC ErCFacts ConfigFacts Spacial SpacialSpec.
From Coq Require Import QArith Sorted.
Set Implicit Arguments.
Unset Strict Implicit.
Local Open Scope nat_scope.

(** ** Positions

    The same container seen as one whose data are the position and the node: what the
    generic lemmas say about the data then also holds for the positions. *)

Section Positions.
Context (P T : Type).

Definition PosContainer : AdjContainer (option P * T) (spacial_container P T) := {|
  ac_new := fun id t => mk_spc id [] (snd t) (fst t);
  ac_contained := fun c => (spc_pos c, spc_node c);
  ac_set_contained := fun c t => mk_spc (spc_id c) (spc_adj c) (snd t) (fst t);
  ac_neighbors := @spc_adj P T;
  ac_degree := @ac_degree T _ (SpacialContainer P T);
  ac_id := @spc_id P T;
  ac_get_adj_first := @ac_get_adj_first T _ (SpacialContainer P T);
  ac_is_adjacent := @ac_is_adjacent T _ (SpacialContainer P T);
  ac_sort_adj := @ac_sort_adj T _ (SpacialContainer P T);
  ac_shuffle_adj := @ac_shuffle_adj T _ (SpacialContainer P T);
  ac_clear_edges := @ac_clear_edges T _ (SpacialContainer P T);
  ac_push := @spc_push P T;
  ac_remove := @spc_remove P T
|}.

Definition PosContainer_laws : AdjLaws PosContainer.
Proof.
  refine {| ac_wf := fun _ => True |}; simpl; unfold same_vertex; simpl.
  - intros i [q t]; auto.
  - intros a [q t]; auto.
  - auto.
  - auto.
  - intros; apply contains_In.
  - intros a _. eexists; split; [reflexivity|]. simpl. repeat split; auto.
    + symmetry; apply sort_by_perm.
    + apply sort_by_sorted.
  - intros p a _ Q. destruct (permute_spec _ Q) as (l & E & Q').
    rewrite E; simpl. eexists; split; [reflexivity|]; simpl; auto.
  - auto.
  - intros a b H. unfold spc_push. apply contains_In in H. rewrite H; auto.
  - intros a b _ _ H. unfold spc_push. apply contains_not_In in H. rewrite H.
    do 2 eexists; split; [reflexivity|]; simpl; auto 10.
  - intros a b H. unfold spc_remove. apply contains_not_In in H. rewrite H; auto.
  - intros a b _ _ H1 H2. unfold spc_remove.
    rewrite (proj2 (contains_In _ _) H1); simpl.
    destruct (removed_first_exists _ _ H1) as (l1 & R1).
    destruct (removed_first_exists _ _ H2) as (l2 & R2).
    rewrite (spc_swap_remove_of _ R1); simpl. rewrite (spc_swap_remove_of _ R2); simpl.
    do 2 eexists; split; [reflexivity|]; simpl; auto 10.
  - intros a b a' b' W1 W2 H E. exact (@law_push_remove _ _ _ (SpacialContainer_laws P T) a b a' b' I I H E).
Defined.

Lemma to_pos (g : graph (spacial_container P T)) :
  @simple_graph T _ (SpacialContainer P T) _ g -> @simple_graph _ _ PosContainer PosContainer_laws g.
Proof.
  intros W. constructor.
  - exact (sg_len W).
  - exact (sg_cont W).
  - exact (sg_range W).
  - exact (sg_irrefl W).
  - exact (sg_nodup W).
  - exact (sg_sym W).
  - exact (sg_count W).
Qed.

Lemma pos_payloads (g g' : graph (spacial_container P T)) :
  @payloads _ _ PosContainer g' = @payloads _ _ PosContainer g ->
  map (@spc_pos P T) (vertices g') = map (@spc_pos P T) (vertices g).
Proof.
  intros H. apply (f_equal (map fst)) in H. unfold payloads in H. rewrite !map_map in H. exact H.
Qed.

Lemma pos_add_edge p (g g' : graph (spacial_container P T)) i j :
  simple_graph g -> add_edge p g i j = Done (Ok tt, g') ->
  map (@spc_pos P T) (vertices g') = map (@spc_pos P T) (vertices g).
Proof.
  intros W E. apply pos_payloads.
  apply (@add_edge_ok _ _ PosContainer PosContainer_laws p g i j g' (to_pos W) E).
Qed.

Lemma pos_remove_edge p (g g' : graph (spacial_container P T)) i j :
  simple_graph g -> remove_edge p g i j = Done (Ok tt, g') ->
  map (@spc_pos P T) (vertices g') = map (@spc_pos P T) (vertices g).
Proof.
  intros W E. apply pos_payloads.
  apply (@remove_edge_ok _ _ PosContainer PosContainer_laws p g i j g' (to_pos W) E).
Qed.

Lemma pos_clear_edges (g : graph (spacial_container P T)) :
  simple_graph g -> map (@spc_pos P T) (vertices (clear_edges g)) = map (@spc_pos P T) (vertices g).
Proof.
  intros W. apply pos_payloads. apply (@clear_edges_spec _ _ PosContainer PosContainer_laws g (to_pos W)).
Qed.

End Positions.

Section Facts.
Context {T : Type}.
Implicit Types g : sgraph T.
Implicit Types e h : spacial T.

(** ** The unchecked insertion *)

Lemma sp_push_both_add p g i j :
  simple_graph g -> i < vertex_count g -> j < vertex_count g -> i <> j -> ~ adj g i j ->
  exists g', sp_push_both g i j = Done g' /\ add_edge p g i j = Done (Ok tt, g').
Proof.
  intros W Hi Hj N H.
  destruct (container_lt W Hi) as (ci & Ei & _ & Ii & Ni).
  destruct (container_lt W Hj) as (cj & Ej & _ & Ij & Nj).
  cbn [ac_id ac_neighbors SpacialContainer] in *.
  eexists. split.
  - unfold sp_push_both, sp_adj_push, get_unchecked. rewrite Ei. cbn [bind vertices next_id edge_count].
    rewrite nth_error_upd_other, Ej by auto. cbn [bind]. reflexivity.
  - unfold add_edge. rewrite (get_2_mut_ok p W Hi Hj N Ei Ej). cbn [bind].
    cbn [ac_push SpacialContainer]. unfold spc_push.
    assert (contains (spc_adj ci) (spc_id cj) = false) as ->.
    { apply not_true_iff_false. intros X. apply contains_In in X. apply H.
      unfold adj. rewrite <- Ni, <- Ij. auto. }
    cbn [bind]. unfold put_2. rewrite Ii, Ij. reflexivity.
Qed.

(** ** The test *)

Lemma positions_nth g i c : nth_error (vertices g) i = Some c -> nth i (positions g) None = spc_pos c.
Proof.
  intros E. rewrite <- (nth_default_eq i (positions g) None). unfold nth_default, positions.
  rewrite nth_error_map, E. reflexivity.
Qed.

Definition accepts (acc : option pos -> option pos -> Q -> bool) (ps : list (option pos)) (i j r : nat) : bool :=
  acc (nth i ps None) (nth j ps None) (unit_float r).

Lemma sp_test_cons e g i j r rs : simple_graph g -> i < vertex_count g -> j < vertex_count g ->
  sp_test e g i j (r :: rs) = Done (accepts (sp_accept e) (positions g) i j r, rs).
Proof.
  intros W Hi Hj. destruct (container_lt W Hi) as (ci & Ei & _). destruct (container_lt W Hj) as (cj & Ej & _).
  unfold sp_test, get_unchecked. rewrite Ei, Ej. cbn. unfold accepts.
  rewrite (positions_nth Ei), (positions_nth Ej). auto.
Qed.

Lemma sp_test_done e g i j rs ok rs' : simple_graph g -> i < vertex_count g -> j < vertex_count g ->
  sp_test e g i j rs = Done (ok, rs') ->
  exists r, rs = r :: rs' /\ ok = accepts (sp_accept e) (positions g) i j r.
Proof.
  intros W Hi Hj E. destruct rs as [|r rs].
  - exfalso. unfold sp_test, get_unchecked in E. destruct (nth_error _ i), (nth_error _ j); discriminate.
  - rewrite sp_test_cons in E by auto. injection E as <- <-. eauto.
Qed.

(** ** [randomize] *)

Definition sp_loop e := fun (s : sgraph T * rng) (ij : nat * nat) =>
      let '(g, rs) := s in
      do ' (ok, rs1) <- sp_test e g (fst ij) (snd ij) rs;
      if ok : bool
      then do g1 <- sp_push_both g (fst ij) (snd ij); Done (g1, rs1)
      else Done (g, rs1).

Lemma sp_loop_spec e l : forall g rs,
  simple_graph g -> (forall i j, In (i, j) l -> i < j /\ j < vertex_count g /\ ~ adj g i j) ->
  NoDup l -> length l <= length rs ->
  exists g', foldM (sp_loop e) (g, rs) l = Done (g', skipn (length l) rs) /\
    simple_graph g' /\ vertex_count g' = vertex_count g /\ payloads g' = payloads g /\
    positions g' = positions g /\
    (forall x y, adj g' x y <-> adj g x y \/
       exists k i j r, nth_error l k = Some (i, j) /\ nth_error rs k = Some r /\
         accepts (sp_accept e) (positions g) i j r = true /\ is_pair i j x y).
Proof.
  induction l as [|[i j] l IH]; intros g rs W R N Len.
  - exists g. split; [auto|]. split; [auto|]. split; [auto|]. split; [auto|]. split; [auto|].
    intros x y. split; auto. intros [H|(k & i & j & r & H & _)]; auto. destruct k; discriminate.
  - destruct rs as [|r rs]; [simpl in Len; lia|].
    apply NoDup_cons_iff in N as [Nij N].
    destruct (R i j (or_introl eq_refl)) as (Hij & Hj & Hnew).
    cbn [foldM]. unfold sp_loop at 1. cbn [fst snd]. rewrite sp_test_cons by (auto; lia).
    cbn [bind length firstn skipn].
    destruct (accepts (sp_accept e) (positions g) i j r) eqn:Acc.
    + destruct (@sp_push_both_add Debug g i j) as (g1 & -> & Ea); auto; try lia. cbn [bind].
      destruct (add_edge_ok W Ea) as (_ & W1 & V1 & C1 & P1 & A1).
      assert (Q1 : positions g1 = positions g) by apply (pos_add_edge W Ea).
      destruct (IH g1 rs) as (g' & E & W' & V' & P' & Q' & A'); auto; try (simpl in Len; lia).
      { intros a b Hab. destruct (R a b (or_intror Hab)) as (X1 & X2 & X3). splits; try lia.
        rewrite A1. intros [Y|[[-> ->]|[-> ->]]]; auto. lia. }
      rewrite Q1 in A'.
      exists g'. split; [auto|]. split; [auto|]. split; [congruence|]. split; [congruence|]. split; [congruence|].
      intros x y. rewrite A', A1. split.
      * intros [[H|H]|(k & a & b & q & H1 & H2 & H3 & H4)]; auto.
        ++ right. exists 0, i, j, r. auto.
        ++ right. exists (S k), a, b, q. auto.
      * intros [H|([|k] & a & b & q & H1 & H2 & H3 & H4)]; auto.
        ++ simpl in H1, H2. injection H1 as <- <-. auto.
        ++ right. exists k, a, b, q. auto.
    + destruct (IH g rs) as (g' & E & W' & V' & P' & Q' & A'); auto; try (simpl in Len; lia).
      { intros a b Hab. apply R. right; auto. }
      exists g'. split; [auto|]. split; [auto|]. split; [congruence|]. split; [congruence|]. split; [congruence|].
      intros x y. rewrite A'. split.
      * intros [H|(k & a & b & q & H1 & H2 & H3 & H4)]; auto.
        right. exists (S k), a, b, q. auto.
      * intros [H|([|k] & a & b & q & H1 & H2 & H3 & H4)]; auto.
        ++ simpl in H1, H2. congruence.
        ++ right. exists k, a, b, q. auto.
Qed.

Lemma sp_randomize_spec e rs :
  let n := vertex_count (sp_graph e) in
  simple_graph (sp_graph e) -> length (er_pairs n) <= length rs ->
  exists e', sp_randomize e rs = Done (e', skipn (length (er_pairs n)) rs) /\
    simple_graph (sp_graph e') /\ vertex_count (sp_graph e') = n /\
    payloads (sp_graph e') = payloads (sp_graph e) /\
    positions (sp_graph e') = positions (sp_graph e) /\ sp_accept e' = sp_accept e /\
    (forall k i j r, nth_error (er_pairs n) k = Some (i, j) -> nth_error rs k = Some r ->
       (adj (sp_graph e') i j <-> sp_accepts e i j r = true)).
Proof.
  intros n W Len. unfold sp_randomize.
  destruct (clear_edges_spec W) as (W0 & V0 & C0 & P0 & N0).
  pose proof (pos_clear_edges W) as Q0. change (positions (clear_edges (sp_graph e)) = positions (sp_graph e)) in Q0.
  cbv zeta. rewrite V0.
  destruct (@sp_loop_spec e (er_pairs n) (clear_edges (sp_graph e)) rs)
    as (g' & E & W' & V' & P' & Q' & A'); auto.
  { intros i j H. apply er_pairs_In in H. splits; try (rewrite V0; fold n); try tauto.
    unfold adj. rewrite N0. auto. }
  { apply er_pairs_NoDup. }
  unfold sp_loop in E. unfold n in E. rewrite E. cbn [bind].
  eexists. split; [reflexivity|]. cbn [sp_graph sp_accept].
  split; [auto|]. split; [rewrite V'; exact V0|]. split; [congruence|]. split; [congruence|]. split; [auto|].
  intros k i j r Hk Hr. rewrite A'. unfold adj at 1. rewrite N0, Q0.
  change (sp_accepts e i j r) with (accepts (sp_accept e) (positions (sp_graph e)) i j r). split.
  - intros [[]|(k' & a & b & q & H1 & H2 & H3 & H4)].
    pose proof (nth_error_In _ _ Hk) as I1. pose proof (nth_error_In _ _ H1) as I2.
    apply er_pairs_In in I1, I2.
    assert ((a, b) = (i, j)) as Eab by (destruct H4 as [[-> ->]|[-> ->]]; [auto|lia]).
    assert (k = k').
    { apply (proj1 (NoDup_nth_error (er_pairs n)) (er_pairs_NoDup n)).
      - apply nth_error_Some. congruence.
      - congruence. }
    subst k'. assert (q = r) by congruence. congruence.
  - intros Acc. right. exists k, i, j, r. splits; auto. left; auto.
Qed.

Lemma sp_randomize_short e rs :
  simple_graph (sp_graph e) -> length rs < length (er_pairs (vertex_count (sp_graph e))) ->
  sp_randomize e rs = NoFuel.
Proof.
  intros W Len. unfold sp_randomize.
  destruct (clear_edges_spec W) as (W0 & V0 & C0 & P0 & N0). cbv zeta. rewrite V0.
  set (l := er_pairs (vertex_count (sp_graph e))) in *.
  set (a := firstn (length rs) l). set (b := skipn (length rs) l).
  assert (El : l = a ++ b) by (symmetry; apply firstn_skipn).
  destruct (@sp_loop_spec e a (clear_edges (sp_graph e)) rs) as (g' & E & W' & V' & _); auto.
  { intros i j H. assert (In (i, j) l) as H2 by (rewrite El; apply in_app_iff; auto).
    apply er_pairs_In in H2. splits; try (rewrite V0); try tauto. unfold adj. rewrite N0. auto. }
  { pose proof (er_pairs_NoDup (vertex_count (sp_graph e))) as ND. fold l in ND. rewrite El in ND.
    apply NoDup_app_iff in ND. tauto. }
  { unfold a. rewrite firstn_length. lia. }
  fold (@sp_loop e). rewrite El, foldM_app, E. cbn [bind].
  assert (La : length a = length rs) by (unfold a; rewrite firstn_length; lia).
  rewrite La, skipn_all. destruct b as [|[i j] b'] eqn:Eb.
  - apply (f_equal (@length _)) in El. rewrite app_length in El. cbn in El. lia.
  - assert (In (i, j) l) as H2 by (rewrite El; apply in_app_iff; simpl; auto). apply er_pairs_In in H2.
    destruct (@container_lt _ _ _ _ g' i W') as (ci & Ei & _); [lia|].
    destruct (@container_lt _ _ _ _ g' j W') as (cj & Ej & _); [lia|].
    cbn [foldM]. unfold sp_loop at 1, sp_test, get_unchecked. cbn [fst snd]. rewrite Ei, Ej. reflexivity.
Qed.

(** ** Steps *)

Lemma sp_m_step_cases p e rs r e' rs' :
  simple_graph (sp_graph e) -> sp_m_step p e rs = Done (r, e', rs') ->
  sp_accept e' = sp_accept e /\ positions (sp_graph e') = positions (sp_graph e) /\
  match r with
  | Sp_Nothing => e' = e
  | Sp_AddedEdge (a, b) => add_edge p (sp_graph e) a b = Done (Ok tt, sp_graph e')
  | Sp_RemovedEdge (a, b) => remove_edge p (sp_graph e) a b = Done (Ok tt, sp_graph e')
  | Sp_Error => False
  end.
Proof.
  intros W E. unfold sp_m_step in E.
  apply bind_done in E as ([[a b] rs1] & E1 & E). apply bind_done in E as ([ok rs2] & E2 & E).
  apply draw_two_spec in E1 as (Ha & Hb & N). destruct e as [g acc]. cbn [sp_graph sp_accept] in *.
  destruct ok.
  - destruct (adj_dec g a b) as [H|H].
    + rewrite add_edge_present in E by auto. cbn [bind] in E. injection E as <- <- <-. auto.
    + destruct (@add_edge_absent _ _ _ _ p g a b) as (g' & Ea & _); auto.
      rewrite Ea in E. cbn [bind] in E. injection E as <- <- <-. cbn [sp_graph sp_accept]. splits; auto.
      apply (pos_add_edge W Ea).
  - destruct (adj_dec g a b) as [H|H].
    + destruct (@remove_edge_present _ _ _ _ p g a b W H) as (g' & Ea & _).
      rewrite Ea in E. cbn [bind] in E. injection E as <- <- <-. cbn [sp_graph sp_accept]. splits; auto.
      apply (pos_remove_edge W Ea).
    + rewrite remove_edge_absent in E by auto. cbn [bind] in E. injection E as <- <- <-. auto.
Qed.

Lemma sp_m_step_simple p e rs r e' rs' :
  simple_graph (sp_graph e) -> sp_m_step p e rs = Done (r, e', rs') -> simple_graph (sp_graph e').
Proof.
  intros W E. destruct (sp_m_step_cases W E) as (_ & _ & H). destruct r as [|[a b]|[a b]|]; subst; auto.
  - apply (add_edge_ok W H).
  - apply (remove_edge_ok W H).
  - tauto.
Qed.

(** What a step does with the pair and the number drawn. *)
Lemma sp_m_step_total p e x y z rs :
  simple_graph (sp_graph e) -> 2 <= vertex_count (sp_graph e) ->
  exists a b r e', draw_two_from_range p (vertex_count (sp_graph e)) (x :: y :: z :: rs) = Done (a, b, z :: rs) /\
    sp_m_step p e (x :: y :: z :: rs) = Done (r, e', rs) /\
    (forall i j, adj (sp_graph e') i j <->
       if sp_accepts e a b z then adj (sp_graph e) i j \/ is_pair a b i j
       else adj (sp_graph e) i j /\ ~ is_pair a b i j).
Proof.
  intros W Hn. unfold sp_m_step.
  assert (exists a b, draw_two_from_range p (vertex_count (sp_graph e)) (x :: y :: z :: rs) = Done (a, b, z :: rs))
    as (a & b & Ed).
  { unfold draw_two_from_range. rewrite gen_range_cons by lia. cbn [bind]. unfold usub.
    destruct (Nat.leb_spec 1 (vertex_count (sp_graph e))); [|lia]. cbn [bind].
    rewrite gen_range_cons by lia. cbn [bind]. destruct (_ <? _); eauto. }
  destruct (draw_two_spec Ed) as (Ha & Hb & N). rewrite Ed. cbn [bind].
  rewrite sp_test_cons by auto. cbn [bind].
  change (accepts (sp_accept e) (positions (sp_graph e)) a b z) with (sp_accepts e a b z).
  exists a, b. destruct (sp_accepts e a b z).
  - destruct (adj_dec (sp_graph e) a b) as [H'|H'].
    + rewrite add_edge_present by auto. cbn [bind]. do 2 eexists. split; [reflexivity|]. split; [reflexivity|].
      cbn. intros i j. split; auto. intros [K|[[-> ->]|[-> ->]]]; auto. apply (sg_sym W); auto.
    + destruct (@add_edge_absent _ _ _ _ p (sp_graph e) a b) as (g' & Ea & _); try tauto.
      rewrite Ea. cbn [bind]. do 2 eexists. split; [reflexivity|]. split; [reflexivity|].
      apply (add_edge_ok W Ea).
  - destruct (adj_dec (sp_graph e) a b) as [H'|H'].
    + destruct (@remove_edge_present _ _ _ _ p (sp_graph e) a b W H') as (g' & Ea & _).
      rewrite Ea. cbn [bind]. do 2 eexists. split; [reflexivity|]. split; [reflexivity|].
      apply (remove_edge_ok W Ea).
    + rewrite remove_edge_absent by tauto. cbn [bind]. do 2 eexists. split; [reflexivity|]. split; [reflexivity|].
      cbn. intros i j. split; [|tauto]. intros K. split; auto. intros [[-> ->]|[-> ->]]; auto.
      apply H'. apply (sg_sym W); auto.
Qed.

Lemma sp_step_undo p e rs r e' rs' :
  simple_graph (sp_graph e) -> sp_m_step p e rs = Done (r, e', rs') ->
  forall h, simple_graph (sp_graph h) -> sp_like e' h ->
  exists u h', sp_undo_step p h r = Done (u, h') /\ sp_inverse r u /\
    simple_graph (sp_graph h') /\ sp_like e h'.
Proof.
  intros W E h Wh (S & P & Ct). destruct (sp_m_step_cases W E) as (P1 & C1 & H).
  destruct r as [|[a b]|[a b]|]; simpl.
  - subst e'. exists Sp_Nothing, h. splits; auto. unfold sp_like; auto.
  - destruct (undo_add W H Wh S) as (g' & Eu & W' & S'). pose proof (pos_remove_edge Wh Eu) as Pu.
    rewrite Eu. cbn [bind]. do 2 eexists. split; [reflexivity|]. splits; auto.
    unfold sp_like; cbn [sp_graph sp_accept]. splits; auto; unfold positions in *; congruence.
  - destruct (undo_remove W H Wh S) as (g' & Eu & W' & S'). pose proof (pos_add_edge Wh Eu) as Pu.
    rewrite Eu. cbn [bind]. do 2 eexists. split; [reflexivity|]. splits; auto.
    unfold sp_like; cbn [sp_graph sp_accept]. splits; auto; unfold positions in *; congruence.
  - tauto.
Qed.

Lemma sp_step_undo_quiet p e rs r e' rs' :
  simple_graph (sp_graph e) -> sp_m_step p e rs = Done (r, e', rs') ->
  forall h, simple_graph (sp_graph h) -> sp_like e' h ->
  exists h', sp_undo_step_quiet p h r = Done h' /\
    simple_graph (sp_graph h') /\ sp_like e h'.
Proof.
  intros W E h Wh S. destruct (sp_step_undo W E Wh S) as (u & h' & Eu & I & W' & S').
  exists h'. splits; auto. destruct (sp_m_step_cases W E) as (_ & _ & H).
  destruct r as [|[a b]|[a b]|]; simpl in *; try tauto.
  - congruence.
  - apply bind_done in Eu as ([r g] & -> & Eu). cbn [bind]. destruct r; cbn [unwrap bind]; congruence.
  - apply bind_done in Eu as ([r g] & -> & Eu). cbn [bind]. destruct r; cbn [unwrap bind]; congruence.
Qed.

Lemma sp_undo_cases p e a b :
  simple_graph (sp_graph e) -> a < vertex_count (sp_graph e) -> b < vertex_count (sp_graph e) -> a <> b ->
  (if adjb (sp_graph e) a b
   then (exists e', sp_undo_step p e (Sp_AddedEdge (a, b)) = Done (Sp_RemovedEdge (a, b), e') /\
           sp_undo_step_quiet p e (Sp_AddedEdge (a, b)) = Done e') /\
        sp_undo_step p e (Sp_RemovedEdge (a, b)) = Done (Sp_Error, e) /\
        sp_undo_step_quiet p e (Sp_RemovedEdge (a, b)) = Panic
   else (exists e', sp_undo_step p e (Sp_RemovedEdge (a, b)) = Done (Sp_AddedEdge (a, b), e') /\
           sp_undo_step_quiet p e (Sp_RemovedEdge (a, b)) = Done e') /\
        sp_undo_step p e (Sp_AddedEdge (a, b)) = Done (Sp_Error, e) /\
        sp_undo_step_quiet p e (Sp_AddedEdge (a, b)) = Panic).
Proof.
  intros W Ha Hb N. destruct e as [g ac]. cbn [sp_graph] in *. unfold sp_undo_step, sp_undo_step_quiet.
  cbn [sp_graph sp_accept].
  destruct (adjb g a b) eqn:Eb; [apply adjb_adj in Eb|apply adjb_not_adj in Eb].
  - destruct (remove_edge_present p W Eb) as (g' & -> & _). rewrite add_edge_present by auto. cbn [bind unwrap]. eauto 10.
  - destruct (add_edge_absent p W Ha Hb N Eb) as (g' & -> & _). rewrite remove_edge_absent by auto. cbn [bind unwrap]. eauto 10.
Qed.

(** ** [m_steps_quiet] *)

Lemma sp_quiet_steps p k : forall e rs a,
  foldM (fun s (_ : nat) =>
      let '(e, rs) := s in
      do ' (i, j, rs1) <- draw_two_from_range p (vertex_count (sp_graph e)) rs;
      do ' (ok, rs2) <- sp_test e (sp_graph e) i j rs1;
      if ok : bool
      then do ' (_, g) <- add_edge p (sp_graph e) i j; Done (mk_sp g (sp_accept e), rs2)
      else do ' (_, g) <- remove_edge p (sp_graph e) i j; Done (mk_sp g (sp_accept e), rs2))
    (e, rs) (seq a k) =
  do ' (_, e', rs') <- m_steps (sp_m_step p) k e rs; Done (e', rs').
Proof.
  induction k as [|k IH]; intros e rs a; [reflexivity|].
  cbn [seq foldM m_steps]. unfold sp_m_step at 1.
  destruct (draw_two_from_range p (vertex_count (sp_graph e)) rs) as [[[i j] rs1]| | |]; cbn [bind]; auto.
  destruct (sp_test e (sp_graph e) i j rs1) as [[ok rs2]| | |]; cbn [bind]; auto.
  destruct ok.
  - destruct (add_edge p (sp_graph e) i j) as [[[u|u] g]| | |]; cbn [bind]; auto; rewrite IH;
      destruct (m_steps (sp_m_step p) k _ rs2) as [[[l e'] rs']| | |]; reflexivity.
  - destruct (remove_edge p (sp_graph e) i j) as [[[u|u] g]| | |]; cbn [bind]; auto; rewrite IH;
      destruct (m_steps (sp_m_step p) k _ rs2) as [[[l e'] rs']| | |]; reflexivity.
Qed.

(** ** [new] *)

Lemma skipn_plus {X} a : forall b (l : list X), skipn a (skipn b l) = skipn (a + b) l.
Proof.
  intros b. induction b as [|b IH]; intros l; [rewrite Nat.add_0_r; auto|].
  rewrite Nat.add_succ_r. destruct l as [|x l]; [rewrite !skipn_nil; auto|]. apply IH.
Qed.

Lemma place_vertices (l : list (spacial_container pos T)) : forall vs rs, 2 * length l <= length rs ->
  foldM (fun s c =>
      let '(vs, rs) := s in
      do ' (x, rs1) <- gen_f64 rs;
      do ' (y, rs2) <- gen_f64 rs1;
      Done (vs ++ [mk_spc (spc_id c) (spc_adj c) (spc_node c) (Some (x, y))], rs2)) (vs, rs) l =
  Done (vs ++ map (fun kc => mk_spc (spc_id (snd kc)) (spc_adj (snd kc)) (spc_node (snd kc))
                   (Some (unit_float (nth (2 * fst kc) rs 0), unit_float (nth (2 * fst kc + 1) rs 0))))
              (combine (seq 0 (length l)) l), skipn (2 * length l) rs).
Proof.
  induction l as [|c l IH]; intros vs rs H; cbn [foldM length].
  - cbn. rewrite app_nil_r. auto.
  - destruct rs as [|x [|y rs]]; cbn [length] in H; try lia. cbn [gen_f64 draw bind].
    unfold gen_f64, draw. cbn [bind]. rewrite IH by lia.
    replace (2 * S (length l)) with (S (S (2 * length l))) by lia. cbn [skipn seq combine map fst snd].
    rewrite <- app_assoc. cbn [app]. do 3 f_equal.
    rewrite <- seq_shift.
    assert (Cm : forall (a : list nat) (b : list (spacial_container pos T)),
      combine (map S a) b = map (fun kc => (S (fst kc), snd kc)) (combine a b)).
    { induction a as [|? ? IHa]; intros [|? ?]; cbn; auto. rewrite IHa. auto. }
    rewrite Cm, map_map. cbn [fst snd]. f_equal. apply map_ext. intros [k b]. cbn [fst snd].
    replace (2 * S k) with (S (S (2 * k))) by lia. reflexivity.
Qed.

Lemma sp_place_spec (mk : nat -> T) n rs : 2 * n <= length rs ->
  exists g, sp_place (graph_new mk n) rs = Done (g, skipn (2 * n) rs) /\ simple_graph g /\
    vertex_count g = n /\ payloads g = map mk (seq 0 n) /\
    positions g = map (fun k => Some (unit_float (nth (2 * k) rs 0), unit_float (nth (2 * k + 1) rs 0))) (seq 0 n).
Proof.
  intros H. pose proof (@graph_new_spec T (spacial_container pos T) _ _ mk n) as (W & V & Ec & P & Nb).
  cbv zeta in *. unfold sp_place.
  assert (Lv : length (vertices (graph_new (A := spacial_container pos T) mk n)) = n) by (rewrite (sg_len W); auto).
  rewrite place_vertices by (rewrite Lv; auto). cbn [bind app]. rewrite Lv.
  eexists. split; [reflexivity|].
  set (g0 := graph_new mk n) in *.
  set (f := fun kc => mk_spc _ _ _ _).
  set (g := mk_graph _ _ _).
  assert (Nth : forall i c, nth_error (vertices g0) i = Some c -> nth_error (vertices g) i = Some (f (i, c))).
  { intros i c Ei. unfold g. cbn [vertices]. rewrite nth_error_map.
    assert (Hi : i < n) by (rewrite <- Lv; apply nth_error_Some; congruence).
    assert (Cb : forall (l : list (spacial_container pos T)) a i c, nth_error l i = Some c ->
      nth_error (combine (seq a (length l)) l) i = Some (a + i, c)).
    { clear. induction l as [|b l IH]; intros a [|i] c E; cbn in *; try discriminate.
      - injection E as ->. f_equal. f_equal. lia.
      - rewrite (IH (S a) i c E). f_equal. f_equal. lia. }
    rewrite <- Lv at 1. rewrite (Cb _ 0 _ _ Ei). reflexivity. }
  assert (Lg : length (vertices g) = n).
  { unfold g. cbn [vertices]. rewrite map_length, combine_length, seq_length. lia. }
  assert (NbG : forall i, nbrs g i = []).
  { intros i. destruct (nth_error (vertices g0) i) as [c|] eqn:Ei.
    - rewrite (nbrs_nth (Nth _ _ Ei)). cbn. change (ac_neighbors c = []). rewrite <- (nbrs_nth Ei). apply Nb.
    - apply nbrs_out. rewrite Lg. apply nth_error_None in Ei. lia. }
  assert (VG : vertex_count g = n) by (rewrite <- V; reflexivity).
  assert (Gi : forall i c, nth_error (vertices g) i = Some c -> exists c0, nth_error (vertices g0) i = Some c0 /\ c = f (i, c0)).
  { intros i c Ei. destruct (nth_error (vertices g0) i) as [c0|] eqn:E0.
    - exists c0. rewrite (Nth _ _ E0) in Ei. injection Ei as <-. auto.
    - apply nth_error_None in E0. assert (i < length (vertices g)) by (apply nth_error_Some; congruence). lia. }
  split; [|split; [auto|split]].
  - constructor.
    + exact (eq_trans Lg (eq_sym VG)).
    + intros i c Ei. destruct (Gi i c Ei) as (c0 & E0 & ->). destruct (sg_cont W _ E0) as [_ I0].
      split; [exact I|]. exact I0.
    + intros i j. unfold adj. rewrite NbG. intros [].
    + intros i. unfold adj. rewrite NbG. auto.
    + intros i. rewrite NbG. constructor.
    + intros i j. unfold adj. rewrite !NbG. auto.
    + change (edge_count g) with (edge_count g0). rewrite Ec. unfold number_of_edges. symmetry.
      apply count_none. intros x _. unfold adjb. rewrite NbG. reflexivity.
  - rewrite <- P. unfold payloads. apply list_ext. intros i. rewrite !nth_error_map.
    destruct (nth_error (vertices g0) i) as [c|] eqn:Ei.
    + rewrite (Nth _ _ Ei). reflexivity.
    + apply nth_error_None in Ei. rewrite (proj2 (nth_error_None (vertices g) i)) by lia. reflexivity.
  - unfold positions. apply list_ext. intros i. rewrite !nth_error_map.
    destruct (nth_error (vertices g0) i) as [c|] eqn:Ei.
    + rewrite (Nth _ _ Ei). assert (Hi : i < n) by (rewrite <- Lv; apply nth_error_Some; congruence).
      rewrite (nth_error_nth' (seq 0 n) 0) by (rewrite seq_length; auto). rewrite seq_nth by auto. reflexivity.
    + apply nth_error_None in Ei. rewrite (proj2 (nth_error_None (vertices g) i)) by lia.
      rewrite (proj2 (nth_error_None (seq 0 n) i)) by (rewrite seq_length; lia). reflexivity.
Qed.

End Facts.
