(** Measures of complete graphs. *)
From Verif Require Import Base BaseFacts Sums Containers ContainerSpec ContainerFacts Graph GraphSpec GraphFacts GraphOps
  GraphBuild Search TraversalSpec Traversal TraversalFacts Components ComponentSpec ComponentFacts
  CoreFacts Transitivity TransitivityFacts ClosenessFacts BiconnectedSpec FamilySpec FamilyFacts FamilyMeasures.
Set Implicit Arguments.
Unset Strict Implicit.

Section Generic.
Context {T A : Type} {C : AdjContainer T A} {L : AdjLaws C}.

(** A connected graph has one component. *)
Lemma connected_sizes (g : graph A) : simple_graph g -> connected g -> 0 < vertex_count g ->
  connected_components g = Done [vertex_count g].
Proof.
  intros W Hc H0. destruct (components_spec W) as (sizes & comps & -> & _ & P & Pc & Ne & J). f_equal.
  assert (E : exists c, comps = [c]).
  { destruct comps as [|c [|c' comps]].
    - cbn in Pc. apply Permutation_nil in Pc. destruct (vertex_count g); [lia|discriminate].
    - eauto.
    - exfalso. destruct c as [|u c]; [apply (Ne []); cbn; auto|]. destruct c' as [|v c']; [apply (Ne []); cbn; auto|].
      assert (Hu : u < vertex_count g).
      { assert (In u (seq 0 (vertex_count g))) as K; [|apply in_seq in K; lia].
        apply (Permutation_in _ Pc). cbn. auto. }
      assert (Hv : v < vertex_count g).
      { assert (In v (seq 0 (vertex_count g))) as K; [|apply in_seq in K; lia].
        apply (Permutation_in _ Pc). cbn. right. apply in_or_app. right. left. auto. }
      assert (I : In v (u :: c)). { apply (J (u :: c) u v); cbn; auto. }
      pose proof (Permutation_NoDup (Permutation_sym Pc) (seq_NoDup _ _)) as Nd. cbn [concat] in Nd.
      apply NoDup_app_iff in Nd as (_ & _ & Dj). apply (Dj v I). left. auto. }
  destruct E as (c & ->). cbn in P, Pc. rewrite app_nil_r in Pc. apply Permutation_length in Pc as Lc. rewrite seq_length in Lc.
  rewrite Lc in P. apply Permutation_sym, Permutation_length_1_inv in P. auto.
Qed.

Section Complete.
Variables (g : graph A).
Hypothesis W : simple_graph g.
Hypothesis H0 : 0 < vertex_count g.
Hypothesis K : complete g.
Notation n := (vertex_count g).

Lemma complete_adj i j : adj g i j <-> i < n /\ j < n /\ i <> j.
Proof.
  split; [|intros (Hi & Hj & N); apply K; auto]. intros H.
  pose proof (proj1 (Forall_forall _ _) (nbrs_range i W) j H). pose proof (proj1 (Forall_forall _ _) (nbrs_range j W) i (adj_sym W H)).
  split; auto. split; auto. intros ->. revert H. apply (sg_irrefl W).
Qed.

Lemma complete_dist i j : i < n -> j < n -> is_dist (adj g) i j (if i =? j then 0 else 1).
Proof.
  intros Hi Hj. destruct (Nat.eqb_spec i j) as [<-|N]; [apply is_dist_self|]. split.
  - apply walk_one. apply K; auto.
  - intros [|k] Wk; [|lia]. apply walk_zero in Wk. congruence.
Qed.

Lemma complete_connected : connected g.
Proof. intros i j Hi Hj. eexists. apply complete_dist; auto. Qed.

Lemma complete_regular : regular g (n - 1).
Proof.
  intros i Hi. rewrite <- (degree_sum_over i W).
  rewrite (@sum_over_ext _ _ (fun c => if c =? i then 0 else 1)).
  - pose proof (sum_but (fun _ => 1) Hi) as S. cbn beta in S. rewrite sum_over_const, seq_length in S. lia.
  - intros c Hc. apply in_seq in Hc. destruct (Nat.eqb_spec c i) as [->|N].
    + replace (adjb g i i) with false; auto. symmetry. apply Bool.not_true_iff_false. rewrite adjb_iff, complete_adj. tauto.
    + replace (adjb g i c) with true; auto. symmetry. apply adjb_iff, complete_adj. intuition lia.
Qed.

Lemma complete_ecc i : i < n -> is_ecc (adj g) i (Nat.min 1 (n - 1)).
Proof.
  intros Hi. split.
  - destruct (Nat.eq_dec n 1) as [E|E].
    + exists i. rewrite E. apply is_dist_self.
    + replace (Nat.min 1 (n - 1)) with 1 by lia. exists (if i =? 0 then 1 else 0).
      pose proof (@complete_dist i (if i =? 0 then 1 else 0) Hi) as D.
      destruct (Nat.eqb_spec i 0) as [->|N]; [apply D; lia|]. replace (i =? 0) with false in D; [apply D; lia|].
      symmetry. apply Nat.eqb_neq. auto.
  - intros v k Hv. assert (Lv : v < n).
    { destruct Hv as [Wk _]. destruct Wk as [|x y k Wk Hxy]; auto. apply complete_adj in Hxy. tauto. }
    rewrite (is_dist_fun Hv (complete_dist Hi Lv)). destruct (Nat.eqb_spec i v); lia.
Qed.

Lemma complete_longest i : i < n -> longest_shortest_path_from_index g i = Done (Some (Nat.min 1 (n - 1))).
Proof.
  intros Hi. destruct (longest_spec i W) as [[? _]|(_ & e & -> & He)]; [lia|].
  rewrite (is_ecc_fun He (complete_ecc Hi)). auto.
Qed.

Lemma complete_diameter : diameter g = Done (Some (Nat.min 1 (n - 1))).
Proof.
  destruct (diameter_spec W) as [[[?|Hc] _]|(_ & _ & e & -> & (u & v & Hu & Huv) & He)]; [lia|destruct Hc; apply complete_connected|].
  replace e with (Nat.min 1 (n - 1)); auto. apply Nat.le_antisymm.
  - destruct (proj1 (complete_ecc H0)) as (x & Hx). apply (He 0 x); auto.
  - apply (proj2 (complete_ecc Hu) v e Huv).
Qed.

Lemma complete_closeness p : closeness_centrality p g = Done (repeat (n - 1, n - 1) n).
Proof.
  destruct (closeness_spec p W H0) as (l & -> & Hl & H). f_equal.
  apply list_ext. intros v. destruct (Nat.lt_ge_cases v n) as [Hv|Hv].
  - destruct (H v Hv) as (dd & [D1 _] & ->). rewrite nth_error_repeat by auto. do 2 f_equal.
    change (sum_over dd (seq 0 n) = n - 1). rewrite (@sum_over_ext _ dd (fun c => if c =? v then 0 else 1)).
    + pose proof (sum_but (fun _ => 1) Hv) as S. cbn beta in S. rewrite sum_over_const, seq_length in S. lia.
    + intros w Hw. apply in_seq in Hw.
      rewrite (is_dist_fun (D1 w (proj2 Hw) (complete_connected Hv (proj2 Hw))) (complete_dist Hv (proj2 Hw))).
      rewrite Nat.eqb_sym. auto.
  - rewrite !(proj2 (nth_error_None _ _)); auto; [rewrite repeat_length; auto|lia].
Qed.

Lemma complete_transitivity : Transitivity.transitivity g = Done (n * ((n - 1) * (n - 2)), n * ((n - 1) * (n - 2))).
Proof.
  rewrite transitivity_spec by auto.
  assert (E : count (closed_path g) (triples n) = count (two_path g) (triples n)).
  { unfold count. f_equal. apply filter_ext_in. intros [[a b] c] _. cbn. 
    destruct (adjb g a b) eqn:E1; auto. destruct (adjb g b c) eqn:E2; auto. destruct (Nat.eqb_spec c a) as [->|N]; auto. cbn.
    apply adjb_iff. apply adjb_iff, complete_adj in E1. apply adjb_iff, complete_adj in E2. apply complete_adj. tauto. }
  rewrite E, (regular_paths W complete_regular). replace (n - 1 - 1) with (n - 2) by lia. auto.
Qed.

Lemma complete_biconnected : 2 <= n -> biconnected g (seq 0 n).
Proof.
  intros H2. split; [apply seq_NoDup|]. split; [rewrite seq_length; lia|]. split.
  - intros u v Hu Hv. apply (@joined_iff _ (adj g)); [|apply in_seq in Hu, Hv; apply complete_connected; lia].
    intros x y. unfold edge_within. rewrite !in_seq, complete_adj. intuition lia.
  - intros x u v Hx Hu Hv Nu Nv. destruct (Nat.eq_dec u v) as [<-|N]; [apply joined_refl|].
    exists 1. apply walk_one. split; [split|]; auto. apply in_seq in Hu, Hv. apply K; auto; lia.
Qed.

End Complete.
End Generic.
