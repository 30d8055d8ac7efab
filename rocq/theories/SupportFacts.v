(** Graphs with the same edges. *)
From Verif Require Import Base BaseFacts Containers ContainerSpec ContainerFacts Graph GraphSpec
  Sums GraphFacts GraphOps Rng Ba BaSpec Config ConfigSpec BaFacts.
Set Implicit Arguments.
Unset Strict Implicit.
Local Open Scope nat_scope.

Section Same.
Context {T A B : Type} {C : AdjContainer T A} {L : AdjLaws C} {D : AdjContainer T B} {M : AdjLaws D}.
Variables (g : graph A) (h : graph B).
Hypothesis Wg : simple_graph g.
Hypothesis Wh : simple_graph h.
Hypothesis Eq : forall i j, adj g i j <-> adj h i j.

Lemma nbrs_same i : Permutation (nbrs g i) (nbrs h i).
Proof using Wg Wh Eq.
  apply NoDup_Permutation; [apply (sg_nodup Wg)|apply (sg_nodup Wh)|]. intros j. apply Eq.
Qed.

Lemma edge_count_same : vertex_count g = vertex_count h -> edge_count g = edge_count h.
Proof using Wg Wh Eq.
  intros V. pose proof (simple_degsum Wg) as S1. pose proof (simple_degsum Wh) as S2. unfold degsum in *.
  rewrite V in S1. rewrite (@sum_over_ext _ _ (fun i => length (nbrs h i))) in S1; [lia|].
  intros i _. apply Permutation_length, nbrs_same.
Qed.

Lemma has_degrees_same v : vertex_count g = vertex_count h -> has_degrees v g -> has_degrees v h.
Proof using Wg Wh Eq.
  intros V [V1 Dg]. split; [congruence|]. intros i. rewrite <- Dg. symmetry. apply Permutation_length, nbrs_same.
Qed.

End Same.

Lemma grown_same {T} m (src g h : graph (node_container T)) order :
  simple_graph h -> (forall i j, adj g i j <-> adj h i j) -> vertex_count g = vertex_count h ->
  grown m src g order -> grown m src h order.
Proof.
  intros Wh Eq V [W P S At Ec]. constructor; auto.
  - rewrite <- V. auto.
  - intros i j Hi Hj. rewrite <- Eq. auto.
  - intros before x after E. rewrite <- (At before x after E). apply BaFacts.count_perm. symmetry. apply (nbrs_same W Wh Eq).
  - rewrite <- (edge_count_same W Wh Eq V), <- V. auto.
Qed.
