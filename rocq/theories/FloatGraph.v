(** What the floating point measures need to know about graphs. *)
From Verif Require Import Base BaseFacts Sums Containers ContainerSpec Graph GraphSpec GraphFacts GraphOps Search
  Traversal TraversalSpec TraversalFacts ComponentSpec FamilySpec EditFacts ConsistencyFacts FamilyMeasures CoreFacts.
Set Implicit Arguments.
Unset Strict Implicit.

Section Measures.
Context {T A : Type} {C : AdjContainer T A} {L : AdjLaws C}.
Variable g : graph A.
Hypothesis W : simple_graph g.
Notation n := (vertex_count g).

Lemma regular_edges d : regular g d -> 2 * edge_count g = n * d.
Proof.
  intros R. rewrite (sg_count W), <- degsum_edges.
  - unfold degsum. rewrite (@sum_over_ext _ _ (fun _ => d)).
    + rewrite sum_over_const, seq_length. auto.
    + intros i Hi. apply R. apply in_seq in Hi. lia.
  - apply (sg_range W).
  - apply (sg_irrefl W).
  - apply (sg_nodup W).
  - apply (sg_sym W).
Qed.

Lemma walk_first v w k : walk (adj g) v w k -> v <> w -> nbrs g v <> [].
Proof.
  induction 1 as [|u w k Wk IH Hw]; intros N; [congruence|].
  destruct (Nat.eq_dec v u) as [<-|Nu]; auto. unfold adj in Hw. intros E. rewrite E in Hw. destruct Hw.
Qed.

Lemma dists_self v d : v < n -> dists g v d -> d v = 0.
Proof.
  intros Hv [D _]. specialize (D v Hv (joined_refl _ v)). apply (is_dist_fun D). apply is_dist_self.
Qed.

Lemma dists_adj v u d : v < n -> dists g v d -> (u < n /\ d u = 1 <-> adj g v u).
Proof.
  intros Hv [D1 D2]. split.
  - intros [Hu E]. destruct (D1 u Hu) as [K1 _].
    { destruct (joined_dec u W Hv) as [J|J]; auto. exfalso. specialize (D2 u Hu J). lia. }
    rewrite E in K1. inversion K1 as [|? ? ? K2 K3]; subst. apply walk_zero in K2 as <-. auto.
  - intros Ha. pose proof (sg_range W _ _ Ha) as Hu. split; auto.
    specialize (D1 u Hu (ex_intro _ 1 (walk_one Ha))). apply (is_dist_fun D1). split; [apply walk_one; auto|].
    intros [|k] Wk; [|lia]. apply walk_zero in Wk as <-. destruct (sg_irrefl W _ Ha).
Qed.

Lemma dists_positive v d : v < n -> connected g -> dists g v d -> forall u, u < n -> u <> v -> 1 <= d u.
Proof.
  intros Hv Hc [D1 _] u Hu N. destruct (D1 u Hu (Hc v u Hv Hu)) as [K _].
  destruct (d u) as [|]; [|lia]. apply walk_zero in K. congruence.
Qed.

Lemma sum_pointwise (f h : nat -> nat) l : (forall x, In x l -> f x <= h x) ->
  sum_over f l <= sum_over h l /\ (sum_over h l = sum_over f l -> forall x, In x l -> h x = f x).
Proof.
  induction l as [|a l IH]; intros H; [split; [apply Nat.le_refl|intros _ x []]|].
  destruct IH as [I1 I2]; [intros; apply H; simpl; auto|]. rewrite !sum_over_cons.
  pose proof (H a ltac:(simpl; auto)). split; [lia|]. intros E x [<-|Hx]; [lia|]. apply I2; auto. lia.
Qed.

Lemma sum_others v : v < n -> sum_over (fun c => if c =? v then 0 else 1) (seq 0 n) = n - 1.
Proof.
  intros Hv. pose proof (sum_but (fun _ => 1) Hv) as S. cbn beta in S. rewrite sum_over_const, seq_length in S. lia.
Qed.

Lemma dists_sum_zero v d : v < n -> dists g v d -> (list_sum (map d (seq 0 n)) = 0 <-> nbrs g v = []).
Proof.
  intros Hv D. change (list_sum (map d (seq 0 n))) with (sum_over d (seq 0 n)). split.
  - intros E. destruct (nbrs g v) as [|u l] eqn:En; auto. exfalso.
    assert (Ha : adj g v u) by (unfold adj; rewrite En; simpl; auto).
    apply (dists_adj u Hv D) in Ha as [Hu Du].
    destruct (@sum_pointwise (fun _ => 0) d (seq 0 n)) as [_ K]; [intros; lia|].
    rewrite (@sum_over_zero _ (fun _ => 0) (seq 0 n) (fun _ _ => eq_refl)) in K. specialize (K E u). rewrite in_seq in K. lia.
  - intros En. apply sum_over_zero. intros u Hu. apply in_seq in Hu. destruct D as [D1 D2].
    destruct (joined_dec u W Hv) as [J|J]; [|apply D2; auto; lia].
    destruct (D1 u ltac:(lia) J) as [K _]. destruct (Nat.eq_dec v u) as [<-|N].
    + apply (dists_self Hv (conj D1 D2)).
    + destruct (walk_first K N En).
Qed.

Lemma dists_sum_connected v d : v < n -> connected g -> dists g v d ->
  n - 1 <= list_sum (map d (seq 0 n)) /\
  (list_sum (map d (seq 0 n)) = n - 1 <-> forall u, u < n -> u <> v -> adj g v u).
Proof.
  intros Hv Hc D. change (list_sum (map d (seq 0 n))) with (sum_over d (seq 0 n)).
  destruct (@sum_pointwise (fun c => if c =? v then 0 else 1) d (seq 0 n)) as [S1 S2].
  { intros u Hu. apply in_seq in Hu. destruct (Nat.eqb_spec u v); [lia|]. apply (dists_positive Hv Hc D); auto; lia. }
  rewrite (sum_others Hv) in S1, S2. split; auto. split.
  - intros E u Hu N. apply (dists_adj u Hv D). split; auto. specialize (S2 E u). rewrite in_seq in S2.
    rewrite (S2 ltac:(lia)). destruct (Nat.eqb_spec u v); congruence.
  - intros H. rewrite <- (sum_others Hv). apply sum_over_ext. intros u Hu. apply in_seq in Hu.
    destruct (Nat.eqb_spec u v) as [->|N]; [apply (dists_self Hv D)|].
    apply (proj2 (dists_adj u Hv D)). apply H; auto. lia.
Qed.

Lemma closed_two : count (closed_path g) (triples n) <= count (two_path g) (triples n).
Proof. apply count_le. intros [[a b] c] _. unfold closed_path. intros H. apply andb_true_iff in H. tauto. Qed.
End Measures.
