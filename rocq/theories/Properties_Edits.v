(** Theorems about what adding and removing edges does to the measures. *)
From Verif Require Import Base BaseFacts Containers ContainerSpec ContainerFacts Graph GraphSpec GraphFacts GraphOps.
From Verif Require Import Traversal TraversalSpec TraversalFacts Components ComponentSpec Transitivity EditSpec EditFacts Properties_Graph.

(** ** C80 *)

(** More edges never make a measure worse: degrees and cores grow, diameters shrink, what is
    connected stays connected. *)
Theorem C80_monotone {T A : Type} {C : AdjContainer T A} {L : AdjLaws C} :
  forall g g' : graph A, simple_graph g -> simple_graph g' -> extends g g' ->
  (forall i, length (nbrs g i) <= length (nbrs g' i)) /\
  (is_connected g = Done (Some true) -> is_connected g' = Done (Some true)) /\
  (forall d, diameter g = Done (Some d) -> exists d', diameter g' = Done (Some d') /\ d' <= d) /\
  (forall q m, q_core g q = Done (Some m) -> exists m', q_core g' q = Done (Some m') /\ m <= m').
Proof.
  intros g g' W W' X. split.
  { intros i. apply NoDup_incl_length; [apply (sg_nodup W)|]. intros x. apply X. }
  split.
  { intros E.
    assert (K : 0 < vertex_count g /\ connected g).
    { destruct (is_connected_spec W) as [[? Z]|[[? [? Z]]|[? [? Z]]]]; rewrite Z in E; try discriminate; auto. }
    destruct K as [H0 K]. apply (extends_connected X) in K. pose proof (proj1 X) as V.
    destruct (is_connected_spec W') as [[? Z]|[[? [? Z]]|[? [? Z]]]]; auto; [lia|tauto]. }
  split.
  - intros d. apply extends_diameter; auto.
  - intros q m. apply extends_q_core; auto.
Qed.
Print Assumptions C80_monotone.

(** An added edge within a component changes no component; one between two components merges
    exactly these two. *)
Theorem C80_add_components {T A : Type} {C : AdjContainer T A} {L : AdjLaws C} :
  forall p (g g' : graph A) i j, simple_graph g -> add_edge p g i j = Done (Ok tt, g') ->
  exists s s', connected_components g = Done s /\ connected_components g' = Done s' /\
  (joined (adj g) i j -> s' = s) /\
  (~ joined (adj g) i j -> exists ci cj r,
     is_component (adj g) i ci /\ is_component (adj g) j cj /\
     Permutation s (length ci :: length cj :: r) /\
     Permutation s' (length ci + length cj :: r)).
Proof.
  intros p g g' i j W E. destruct (add_one_more W E) as [W' O]. exact (one_more_components W W' O).
Qed.
Print Assumptions C80_add_components.

(** A removed edge splits at most its own component, and in exactly two. *)
Theorem C80_remove_components {T A : Type} {C : AdjContainer T A} {L : AdjLaws C} :
  forall p (g g' : graph A) i j, simple_graph g -> remove_edge p g i j = Done (Ok tt, g') ->
  exists s s', connected_components g = Done s /\ connected_components g' = Done s' /\
  (joined (adj g') i j -> s' = s) /\
  (~ joined (adj g') i j -> exists ci cj r,
     is_component (adj g') i ci /\ is_component (adj g') j cj /\
     Permutation s' (length ci :: length cj :: r) /\
     Permutation s (length ci + length cj :: r)).
Proof.
  intros p g g' i j W E. destruct (remove_one_more W E) as [W' O].
  destruct (one_more_components W' W O) as (s' & s & E1 & E2 & K1 & K2).
  exists s, s'. split; auto. split; auto. split; auto. intros J. symmetry. auto.
Qed.
Print Assumptions C80_remove_components.

(** The two counts whose quotient is the transitivity. *)
Theorem C80_add_transitivity {T A : Type} {C : AdjContainer T A} {L : AdjLaws C} :
  forall p (g g' : graph A) i j, simple_graph g -> add_edge p g i j = Done (Ok tt, g') ->
  exists closed paths, transitivity g = Done (closed, paths) /\
  transitivity g' = Done (closed + 6 * length (common g i j),
                          paths + 2 * (length (nbrs g i) + length (nbrs g j))).
Proof.
  intros p g g' i j W E. destruct (add_one_more W E) as [W' O].
  eexists _, _. split; [apply (TransitivityFacts.transitivity_spec W)|].
  apply (one_more_transitivity W W' O), (TransitivityFacts.transitivity_spec W).
Qed.
Print Assumptions C80_add_transitivity.

Theorem C80_remove_transitivity {T A : Type} {C : AdjContainer T A} {L : AdjLaws C} :
  forall p (g g' : graph A) i j, simple_graph g -> remove_edge p g i j = Done (Ok tt, g') ->
  exists closed paths, transitivity g' = Done (closed, paths) /\
  transitivity g = Done (closed + 6 * length (common g i j),
                         paths + 2 * (length (nbrs g i) - 1 + (length (nbrs g j) - 1))).
Proof.
  intros p g g' i j W E. destruct (remove_one_more W E) as [W' O].
  eexists _, _. split; [apply (TransitivityFacts.transitivity_spec W')|].
  rewrite (one_more_transitivity W' W O (TransitivityFacts.transitivity_spec W')).
  f_equal. f_equal; [f_equal; f_equal|do 2 f_equal; f_equal].
  - apply Permutation_length, NoDup_Permutation.
    + apply NoDup_filter, (sg_nodup W').
    + apply NoDup_filter, (sg_nodup W).
    + intros k. rewrite !in_common. destruct O as (V & Hi & Hj & N & Na & H). rewrite !H.
      pose proof (sg_irrefl W i) as Ii. pose proof (sg_irrefl W j) as Ij. rewrite H in Ii, Ij.
      split; [tauto|]. intuition (subst; tauto).
  - rewrite (one_more_degree W' W O). lia.
  - rewrite (one_more_degree_r W' W O). lia.
Qed.
Print Assumptions C80_remove_transitivity.

(** Non-trivial instances: a triangle with a tail and an isolated vertex. *)
Example C80_case :
  (exists g1 g2 g3, add_edge Debug ex_graph 3 4 = Done (Ok tt, g1) /\
     add_edge Debug ex_graph 0 3 = Done (Ok tt, g2) /\
     remove_edge Debug ex_graph 2 3 = Done (Ok tt, g3) /\
     connected_components ex_graph = Done [4; 1] /\ connected_components g1 = Done [5] /\
     connected_components g2 = Done [4; 1] /\ connected_components g3 = Done [3; 1; 1] /\
     transitivity ex_graph = Done (6, 10) /\ transitivity g2 = Done (12, 16) /\
     transitivity g3 = Done (6, 6) /\
     q_core ex_graph 2 = Done (Some 3) /\ q_core g2 2 = Done (Some 4) /\
     common ex_graph 0 3 = [2] /\ extends ex_graph g2).
Proof.
  do 3 eexists.
  do 13 (split; [vm_compute; reflexivity|]).
  destruct (add_one_more (p := Debug) (i := 0) (j := 3) ex_graph_simple eq_refl) as [_ O].
  apply (one_more_extends O).
Qed.
