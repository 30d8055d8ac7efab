(** Lemmas shared by the ensembles: comparing graphs by their edges, joining
    components, and undoing sequences of steps. *)
From Verif Require Import Base BaseFacts Sums Containers ContainerSpec ContainerFacts Graph GraphSpec GraphFacts GraphOps Search Rng Markov.
Set Implicit Arguments.
Unset Strict Implicit.

Section Topology.
Context {T A : Type} {C : AdjContainer T A} {L : AdjLaws C}.
Implicit Types g h : graph A.

Lemma same_topology_intro g h :
  simple_graph g -> simple_graph h -> vertex_count h = vertex_count g ->
  payloads h = payloads g -> (forall i j, adj g i j <-> adj h i j) -> same_topology g h.
Proof.
  intros W W' V P H. unfold same_topology. splits; auto.
  - rewrite (sg_count W), (sg_count W'). unfold number_of_edges. rewrite V. unfold count.
    f_equal. apply filter_ext. intros [i j]. cbn [fst snd].
    destruct (adjb g i j) eqn:E.
    + apply adjb_adj, H, adjb_adj; auto.
    + apply adjb_not_adj. rewrite <- H. apply adjb_not_adj; auto.
  - intros i. apply NoDup_Permutation; [apply W|apply W'|]. intros x. apply H.
Qed.

Lemma same_topology_adj g h i j : same_topology g h -> adj g i j <-> adj h i j.
Proof.
  intros (_ & _ & _ & P). unfold adj. split; intros H.
  - rewrite <- P; auto.
  - rewrite P; auto.
Qed.

Lemma same_topology_refl g : same_topology g g.
Proof. unfold same_topology; splits; auto. Qed.

Lemma same_topology_sym g h : same_topology g h -> same_topology h g.
Proof.
  intros (A1 & A2 & A3 & A4). unfold same_topology; splits; auto.
  intros i. symmetry; auto.
Qed.

Lemma same_topology_trans g h k : same_topology g h -> same_topology h k -> same_topology g k.
Proof.
  intros (A1 & A2 & A3 & A4) (B1 & B2 & B3 & B4). unfold same_topology; splits; try congruence.
  intros i. etransitivity; eauto.
Qed.

(** Removing an edge that was added, from a graph that is the same up to order. *)
Lemma undo_add p g i j g' h :
  simple_graph g -> add_edge p g i j = Done (Ok tt, g') ->
  simple_graph h -> same_topology g' h ->
  exists h', remove_edge p h i j = Done (Ok tt, h') /\ simple_graph h' /\ same_topology g h'.
Proof.
  intros W E Wh S. destruct (add_edge_range W E) as (Hi & Hj & N).
  destruct (add_edge_ok W E) as (H & W' & V' & C' & P' & A').
  assert (Ah : adj h i j).
  { apply (same_topology_adj i j S), A'. right. left; auto. }
  destruct (@remove_edge_present _ _ _ _ p h i j Wh Ah) as (h' & Eh & Wh' & _).
  exists h'. splits; auto.
  destruct (remove_edge_ok Wh Eh) as (_ & _ & Vh & _ & Ph & Adh).
  pose proof S as (S1 & S2 & S3 & S4).
  apply same_topology_intro; auto; try congruence.
  intros x y. rewrite Adh. rewrite <- (same_topology_adj x y S).
  rewrite A'. split.
  - intros X. split; auto. intros [[-> ->]|[-> ->]]; [auto|]. apply H. apply (sg_sym W); auto.
  - tauto.
Qed.

Lemma undo_remove p g i j g' h :
  simple_graph g -> remove_edge p g i j = Done (Ok tt, g') ->
  simple_graph h -> same_topology g' h ->
  exists h', add_edge p h i j = Done (Ok tt, h') /\ simple_graph h' /\ same_topology g h'.
Proof.
  intros W E Wh S. destruct (remove_edge_range W E) as (Hi & Hj & N).
  destruct (remove_edge_ok W E) as (H & W' & V' & C' & P' & A').
  assert (Vh : vertex_count h = vertex_count g') by apply S.
  assert (Ah : ~ adj h i j).
  { rewrite <- (same_topology_adj i j S), A'. unfold is_pair. tauto. }
  destruct (@add_edge_absent _ _ _ _ p h i j) as (h' & Eh & Wh' & _); auto; try lia.
  exists h'. splits; auto.
  destruct (add_edge_ok Wh Eh) as (_ & _ & Vh' & _ & Ph & Adh).
  pose proof S as (S1 & S2 & S3 & S4).
  apply same_topology_intro; auto; try congruence.
  intros x y. rewrite Adh. rewrite <- (same_topology_adj x y S).
  rewrite A'. split.
  - intros X. destruct (Nat.eq_dec x i), (Nat.eq_dec y j), (Nat.eq_dec x j), (Nat.eq_dec y i);
      unfold is_pair; tauto || (left; split; auto; unfold is_pair; intros [[? ?]|[? ?]]; congruence).
  - intros [[X _]|[[-> ->]|[-> ->]]]; auto. apply (sg_sym W); auto.
Qed.

(** What an additional edge joins. *)
Lemma joined_add (R R' : nat -> nat -> Prop) a b :
  (forall x y, R x y -> R y x) ->
  (forall x y, R' x y <-> R x y \/ is_pair a b x y) ->
  forall x y, joined R' x y ->
  joined R x y \/ (joined R x a /\ joined R b y) \/ (joined R x b /\ joined R a y).
Proof.
  intros SR H x y [k Wk]. induction Wk as [|u v k Wk IH E].
  - left. apply joined_refl.
  - apply H in E. destruct E as [E|[[-> ->]|[-> ->]]].
    + destruct IH as [J|[[J1 J2]|[J1 J2]]].
      * left. eapply joined_step; eauto.
      * right; left. split; auto. eapply joined_step; eauto.
      * right; right. split; auto. eapply joined_step; eauto.
    + destruct IH as [J|[[J1 J2]|[J1 J2]]].
      * right; left. split; auto. apply joined_refl.
      * right; left. split; auto. apply joined_refl.
      * left; auto.
    + destruct IH as [J|[[J1 J2]|[J1 J2]]].
      * right; right. split; auto. apply joined_refl.
      * left; auto.
      * right; right. split; auto. apply joined_refl.
Qed.

Lemma joined_mono (R R' : nat -> nat -> Prop) x y :
  (forall u v, R u v -> R' u v) -> joined R x y -> joined R' x y.
Proof. intros H [k Wk]. exists k. revert Wk. apply walk_impl; auto. Qed.

End Topology.

(** ** Sequences of steps *)

Section Chain.
Context {S R U : Type}.
Variable m_step : S -> rng -> outcome (R * S * rng).
Variable undo_step : S -> R -> outcome (U * S).
Variable undo_quiet : S -> R -> outcome S.
Variable inv : S -> Prop.
Variable eqv : S -> S -> Prop.
Variable good : R -> U -> Prop.
Hypothesis step_inv : forall s rs r s' rs', inv s -> m_step s rs = Done (r, s', rs') -> inv s'.

Lemma m_steps_inv k : forall s rs l s' rs',
  inv s -> m_steps m_step k s rs = Done (l, s', rs') -> inv s' /\ length l = k.
Proof using step_inv.
  induction k as [|k IH]; intros s rs l s' rs' I E; cbn [m_steps] in E.
  - injection E as <- <- <-; auto.
  - apply bind_done in E as ([[r s1] rs1] & E1 & E).
    apply bind_done in E as ([[l2 s2] rs2] & E2 & E). injection E as <- <- <-.
    destruct (IH _ _ _ _ _ (step_inv I E1) E2). simpl; auto.
Qed.

Lemma undo_in_order_app s l1 l2 us1 s1 us2 s2 :
  undo_in_order undo_step s l1 = Done (us1, s1) ->
  undo_in_order undo_step s1 l2 = Done (us2, s2) ->
  undo_in_order undo_step s (l1 ++ l2) = Done (us1 ++ us2, s2).
Proof.
  revert s us1; induction l1 as [|r l1 IH]; intros s us1 E1 E2; cbn [undo_in_order app] in *.
  - injection E1 as <- <-. exact E2.
  - apply bind_done in E1 as ([u t] & -> & E1). apply bind_done in E1 as ([us t2] & E3 & E1).
    injection E1 as <- <-. cbn [bind]. rewrite (IH _ _ E3 E2). reflexivity.
Qed.

Lemma undo_chain :
  (forall s rs r s' rs', inv s -> m_step s rs = Done (r, s', rs') ->
     forall h, inv h -> eqv s' h -> exists u h', undo_step h r = Done (u, h') /\ good r u /\
       inv h' /\ eqv s h') ->
  forall k s rs l s' rs', inv s -> m_steps m_step k s rs = Done (l, s', rs') ->
  forall h, inv h -> eqv s' h ->
  exists us h', undo_steps undo_step h l = Done (us, h') /\ Forall2 good (rev l) us /\
    inv h' /\ eqv s h'.
Proof using step_inv.
  intros step_undo k. unfold undo_steps.
  induction k as [|k IH]; intros s rs l s' rs' I E h Ih Eq; cbn [m_steps] in E.
  - injection E as <- <- <-. exists [], h. splits; auto. constructor.
  - apply bind_done in E as ([[r s1] rs1] & E1 & E).
    apply bind_done in E as ([[l2 s2] rs2] & E2 & E). injection E as <- <- <-.
    destruct (IH _ _ _ _ _ (step_inv I E1) E2 h Ih Eq) as (us & h1 & Eu & F & I1 & Eq1).
    destruct (step_undo _ _ _ _ _ I E1 h1 I1 Eq1) as (u & h' & Eu' & Gu & I' & Eq').
    exists (us ++ [u]), h'. splits; auto.
    + simpl rev. eapply undo_in_order_app; [apply Eu|]. simpl. rewrite Eu'. reflexivity.
    + simpl rev. apply Forall2_app; auto.
Qed.

Lemma undo_quiet_chain :
  (forall s rs r s' rs', inv s -> m_step s rs = Done (r, s', rs') ->
     forall h, inv h -> eqv s' h -> exists h', undo_quiet h r = Done h' /\
       inv h' /\ eqv s h') ->
  forall k s rs l s' rs', inv s -> m_steps m_step k s rs = Done (l, s', rs') ->
  forall h, inv h -> eqv s' h ->
  exists h', undo_steps_quiet undo_quiet h l = Done h' /\ inv h' /\ eqv s h'.
Proof using step_inv.
  intros step_undo k. unfold undo_steps_quiet.
  induction k as [|k IH]; intros s rs l s' rs' I E h Ih Eq; cbn [m_steps] in E.
  - injection E as <- <- <-. exists h. splits; auto.
  - apply bind_done in E as ([[r s1] rs1] & E1 & E).
    apply bind_done in E as ([[l2 s2] rs2] & E2 & E). injection E as <- <- <-.
    destruct (IH _ _ _ _ _ (step_inv I E1) E2 h Ih Eq) as (h1 & Eu & I1 & Eq1).
    destruct (step_undo _ _ _ _ _ I E1 h1 I1 Eq1) as (h' & Eu' & I' & Eq').
    exists h'. splits; auto. simpl rev. rewrite foldM_app, Eu. cbn [bind foldM].
    rewrite Eu'. reflexivity.
Qed.

End Chain.
