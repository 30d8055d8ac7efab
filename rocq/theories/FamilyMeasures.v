(** Measures of regular graphs, complete graphs and ring lattices. *)
From Verif Require Import Base BaseFacts Sums Containers ContainerSpec ContainerFacts Graph GraphSpec GraphFacts GraphOps
  GraphBuild Search TraversalSpec Traversal TraversalFacts Components ComponentSpec ComponentFacts
  CoreFacts Transitivity TransitivityFacts ClosenessFacts MeasureSpec MeasureFacts FamilySpec FamilyFacts.
Set Implicit Arguments.
Unset Strict Implicit.

Section Generic.
Context {T A : Type} {C : AdjContainer T A} {L : AdjLaws C}.

(** ** Counting triples *)

Lemma count_triples (f : nat -> nat -> nat -> bool) n :
  count (fun t => let '(a, b, c) := t in f a b c) (triples n) =
  sum_over (fun b => sum_over (fun a => sum_over (fun c => b2n (f a b c)) (seq 0 n)) (seq 0 n)) (seq 0 n).
Proof.
  unfold count, triples. rewrite length_filter_sum, sum_over_flat_map.
  rewrite (@sum_over_ext _ _ (fun a => sum_over (fun b => sum_over (fun c => b2n (f a b c)) (seq 0 n)) (seq 0 n))).
  - apply sum_over_exchange.
  - intros a _. rewrite sum_over_flat_map. apply sum_over_ext. intros b _. rewrite sum_over_map. auto.
Qed.

Lemma degree_sum_over (g : graph A) b : simple_graph g ->
  sum_over (fun c => b2n (adjb g b c)) (seq 0 (vertex_count g)) = length (nbrs g b).
Proof.
  intros W. symmetry. apply NoDup_length_count; [apply W|]. intros x Hx.
  exact (proj1 (Forall_forall _ _) (nbrs_range b W) x Hx).
Qed.

Lemma adjb_iff (g : graph A) i j : adjb g i j = true <-> adj g i j.
Proof. apply contains_In. Qed.

Lemma adjb_sym (g : graph A) i j : simple_graph g -> adjb g i j = adjb g j i.
Proof. intros W. apply Bool.eq_true_iff_eq. rewrite !adjb_iff. split; apply adj_sym; auto. Qed.

Lemma sum_but (f : nat -> nat) n a : a < n ->
  sum_over (fun c => if c =? a then 0 else f c) (seq 0 n) + f a = sum_over f (seq 0 n).
Proof.
  intros Ha. rewrite (@sum_over_seq_upd (fun c => if c =? a then 0 else f c) f n a); auto.
  - rewrite Nat.eqb_refl. lia.
  - intros k Hk. apply Nat.eqb_neq in Hk. rewrite Hk. auto.
Qed.

Lemma sum_over_k (f : nat -> nat) l k : (forall x, In x l -> f x = k) -> sum_over f l = length l * k.
Proof. intros H. rewrite (@sum_over_ext _ f (fun _ => k)) by auto. apply sum_over_const. Qed.

(** Paths of two edges in a regular graph. *)
Lemma regular_paths (g : graph A) k : simple_graph g -> regular g k ->
  count (two_path g) (triples (vertex_count g)) = vertex_count g * (k * (k - 1)).
Proof.
  intros W R. unfold two_path. rewrite count_triples. rewrite sum_over_k with (k := k * (k - 1)); [rewrite seq_length; auto|].
  intros b Hb. apply in_seq in Hb.
  rewrite (@sum_over_ext _ _ (fun a => (k - 1) * b2n (adjb g b a))).
  - rewrite sum_over_mul. rewrite degree_sum_over, R by (auto; lia). lia.
  - intros a Ha. apply in_seq in Ha. rewrite (adjb_sym a b W). destruct (adjb g b a) eqn:E; cbn [andb b2n].
    + rewrite (@sum_over_ext _ _ (fun c => if c =? a then 0 else b2n (adjb g b c))).
      * pose proof (sum_but (fun c => b2n (adjb g b c)) (proj2 Ha)) as S. cbn beta in S. rewrite E in S. cbn [b2n] in S.
        rewrite degree_sum_over, R in S by (auto; lia). cbn [Nat.add] in S. lia.
      * intros c _. destruct (c =? a); [rewrite Bool.andb_false_r|rewrite Bool.andb_true_r]; auto.
    + rewrite sum_over_zero; auto; lia.
Qed.

Lemma filter_all {X} (f : X -> bool) l : (forall x, In x l -> f x = true) -> filter f l = l.
Proof. induction l as [|x l IH]; intros H; auto. cbn. rewrite H by (left; auto). f_equal. apply IH. intros; apply H; right; auto. Qed.

Lemma filter_le {X} (f : X -> bool) l : length (filter f l) <= length l.
Proof. induction l as [|x l IH]; cbn; auto. destruct (f x); cbn; lia. Qed.

(** ** The core of a regular graph *)

Lemma regular_core (g : graph A) k q : simple_graph g -> connected g -> regular g k -> 0 < vertex_count g -> 2 <= q ->
  q_core g q = Done (Some (if q <=? k then vertex_count g else 0)).
Proof.
  intros W Hc R H0 Hq. destruct (q_core_spec q W) as [[[?|?] _]|(_ & _ & m & E & Hle & Hm)]; try lia.
  rewrite E. repeat f_equal. destruct (Nat.leb_spec q k) as [Hk|Hk].
  - assert (In_all : forall v, v < vertex_count g -> in_core g q v).
    { intros v Hv. exists (fun w => w <? vertex_count g). split; [|apply Nat.ltb_lt; auto].
      intros w Hw. apply Nat.ltb_lt in Hw. split; auto. unfold count. rewrite filter_all; [rewrite R; auto|].
      intros x Hx. apply Nat.ltb_lt. exact (proj1 (Forall_forall _ _) (nbrs_range w W) x Hx). }
    assert (Comp : forall v, v < vertex_count g -> is_component (core_edge g q) v (seq 0 (vertex_count g))).
    { intros v Hv. split; [apply seq_NoDup|]. intros w. rewrite in_seq. split.
      - intros Hw. apply (@joined_iff _ (adj g)); [|apply Hc; lia].
        intros x y. unfold core_edge. split; [|tauto]. intros Hxy. split; auto.
        pose proof (proj1 (Forall_forall _ _) (nbrs_range x W) y Hxy).
        pose proof (proj1 (Forall_forall _ _) (nbrs_range y W) x (adj_sym W Hxy)). auto.
      - intros [j Hj]. split; [lia|]. destruct Hj as [|x y j Hj [Hxy _]]; auto.
        exact (proj1 (Forall_forall _ _) (nbrs_range x W) y Hxy). }
    assert (Hge : vertex_count g <= m).
    { rewrite <- (seq_length (vertex_count g) 0) at 1. apply (Hle 0); auto. }
    destruct Hm as [[-> Hn]|(v & comp & Hv & [Nd Hcomp] & <-)]; [lia|]. apply Nat.le_antisymm; auto.
    rewrite <- (seq_length (vertex_count g) 0). apply NoDup_incl_length; auto.
    destruct Hv as (S & Hd & Sv). destruct (Hd v Sv) as [Hv _].
    intros w Hw. apply (proj2 (Comp v Hv)). apply Hcomp; auto.
  - destruct Hm as [[-> _]|(v & comp & (S & Hd & Sv) & _)]; auto. exfalso.
    destruct (Hd v Sv) as [Hv Hcnt]. pose proof (filter_le S (nbrs g v)). unfold count in Hcnt. rewrite R in H by auto. lia.
Qed.

(** ** Ring lattices *)

Section Ring.
Variables (g : graph A) (d : nat).
Hypothesis W : simple_graph g.
Hypothesis Hd : 1 <= d.
Hypothesis Hn : 2 * d < vertex_count g.
Hypothesis R : forall i j, adj g i j <-> i < vertex_count g /\ j < vertex_count g /\
                               1 <= cyclic_distance (vertex_count g) i j <= d.
Notation n := (vertex_count g).

Lemma cyc_self i : i < n -> cyclic_distance n i i = 0.
Proof. intros Hi. rewrite cyc_up by auto. lia. Qed.

Lemma cyc_pos i j : i < n -> j < n -> cyclic_distance n i j = 0 -> i = j.
Proof.
  intros Hi Hj H. destruct (Nat.le_ge_cases i j) as [B|B]; [rewrite cyc_up in H by auto|rewrite cyc_sym, cyc_up in H by auto]; lia.
Qed.

Lemma ring_walk_le i j k : i < n -> walk (adj g) i j k -> j < n /\ cyclic_distance n i j <= k * d.
Proof.
  intros Hi Wk. induction Wk as [|v w k Wk [IH1 IH2] Hvw].
  - rewrite cyc_self by auto. lia.
  - apply R in Hvw as (_ & Hw & H). split; auto. pose proof (cyc_triangle Hi IH1 Hw). lia.
Qed.

Lemma ring_walk k : forall i j, i < n -> j < n -> cyclic_distance n i j <= k * d -> exists k', k' <= k /\ walk (adj g) i j k'.
Proof.
  induction k as [|k IH]; intros i j Hi Hj H.
  - exists 0. split; auto. rewrite (cyc_pos Hi Hj) by lia. constructor.
  - destruct (Nat.le_gt_cases (cyclic_distance n i j) d) as [M|M].
    + destruct (Nat.eq_dec (cyclic_distance n i j) 0) as [Z|Z].
      * exists 0. split; [lia|]. rewrite (cyc_pos Hi Hj Z). constructor.
      * exists 1. split; [lia|]. apply walk_one. apply R. splits; auto. lia.
    + destruct (cyc_towards Hi Hj (conj Hd M)) as (v & Hv & E1 & E2).
      destruct (IH v j Hv Hj) as (k' & Hk & Wk); [lia|]. exists (1 + k'). split; [lia|].
      apply walk_trans with (v := v); auto. apply walk_one. apply R. splits; auto; lia.
Qed.

Lemma ring_dist i j : i < n -> j < n -> is_dist (adj g) i j (Nat.div (cyclic_distance n i j + d - 1) d).
Proof.
  intros Hi Hj. destruct (@ring_walk (Nat.div (cyclic_distance n i j + d - 1) d) i j Hi Hj) as (k & Hk & Wk).
  { apply ceil_le; auto. }
  assert (Low : forall m, walk (adj g) i j m -> Nat.div (cyclic_distance n i j + d - 1) d <= m).
  { intros m Hm. apply ceil_le; auto. apply ring_walk_le; auto. }
  specialize (Low k Wk) as Lk. replace k with (Nat.div (cyclic_distance n i j + d - 1) d) in Wk by lia. split; auto.
Qed.

Lemma ring_connected : connected g.
Proof. intros u v Hu Hv. eexists. apply ring_dist; auto. Qed.

Lemma ring_turn_dist i k : i < n -> k < n -> is_dist (adj g) i (turn n i k) (ring_hops n d k).
Proof.
  intros Hi Hk. pose proof (ring_dist Hi (turn_lt Hi Hk)) as H.
  replace (cyclic_distance n i (turn n i k)) with (Nat.min k (n - k)) in H; auto.
  rewrite <- (turn_zero Hi) at 1. rewrite turn_cyc by lia. rewrite cyc_up by lia. rewrite Nat.sub_0_r. auto.
Qed.

Lemma turn_onto i j : i < n -> j < n -> exists k, k < n /\ j = turn n i k.
Proof.
  intros Hi Hj. assert (In j (map (turn n i) (seq 0 n))) as H.
  { apply Permutation_in with (seq 0 n); [apply turn_perm; auto|apply in_seq; lia]. }
  apply in_map_iff in H as (k & <- & Hk). apply in_seq in Hk. exists k. split; auto; lia.
Qed.

Lemma ring_hops_le k : k < n -> ring_hops n d k <= Nat.div (Nat.div n 2 + d - 1) d.
Proof.
  intros Hk. apply Nat.div_le_mono; [lia|].
  assert (Nat.min k (n - k) <= Nat.div n 2); [|lia]. apply Nat.div_le_lower_bound; lia.
Qed.

Lemma ring_hops_half : ring_hops n d (Nat.div n 2) = Nat.div (Nat.div n 2 + d - 1) d.
Proof.
  unfold ring_hops. replace (Nat.min (Nat.div n 2) (n - Nat.div n 2)) with (Nat.div n 2); auto.
  symmetry. apply Nat.min_l. pose proof (Nat.div_mod n 2). lia.
Qed.

Lemma half_lt : Nat.div n 2 < n.
Proof. apply Nat.div_lt; lia. Qed.

Lemma ring_ecc i : i < n -> is_ecc (adj g) i (Nat.div (Nat.div n 2 + d - 1) d).
Proof.
  intros Hi. split.
  - exists (turn n i (Nat.div n 2)). rewrite <- ring_hops_half. apply ring_turn_dist; auto. apply half_lt.
  - intros v k Hv. assert (v < n) as Lv. { destruct Hv as [Wk _]. apply (ring_walk_le Hi Wk). }
    destruct (turn_onto Hi Lv) as (x & Hx & ->). rewrite (is_dist_fun Hv (ring_turn_dist Hi Hx)). apply ring_hops_le; auto.
Qed.

Lemma ring_longest i : i < n -> longest_shortest_path_from_index g i = Done (Some (Nat.div (Nat.div n 2 + d - 1) d)).
Proof.
  intros Hi. destruct (longest_spec i W) as [[? _]|(_ & e & -> & He)]; [lia|].
  repeat f_equal. apply (is_ecc_fun He (ring_ecc Hi)).
Qed.

Lemma ring_diameter : diameter g = Done (Some (Nat.div (Nat.div n 2 + d - 1) d)).
Proof.
  destruct (diameter_spec W) as [[[?|Hc] _]|(_ & _ & e & -> & (u & v & Hu & Huv) & He)]; [lia|destruct Hc; apply ring_connected|].
  repeat f_equal. apply Nat.le_antisymm.
  - apply (proj2 (ring_ecc Hu) v e Huv).
  - assert (H0 : 0 < n) by lia. destruct (proj1 (ring_ecc H0)) as (x & Hx). apply (He 0 x); auto.
Qed.

Lemma ring_sum i : i < n ->
  list_sum (map (fun v => Nat.div (cyclic_distance n i v + d - 1) d) (seq 0 n)) = ring_total n d.
Proof.
  intros Hi. change (sum_over (fun v => Nat.div (cyclic_distance n i v + d - 1) d) (seq 0 n) = ring_total n d).
  rewrite (turn_sum _ Hi). unfold ring_total. change (list_sum _) with (sum_over (ring_hops n d) (seq 1 (n - 1))).
  replace (seq 0 n) with (0 :: seq 1 (n - 1)) by (replace n with (S (n - 1)) at 2 by lia; auto).
  rewrite sum_over_cons. rewrite turn_zero, cyc_self by auto. rewrite Nat.div_small by lia. cbn [Nat.add].
  apply sum_over_ext. intros k Hk. apply in_seq in Hk. unfold ring_hops.
  rewrite <- (turn_zero Hi) at 1. rewrite turn_cyc by lia. rewrite cyc_up by lia. rewrite Nat.sub_0_r. auto.
Qed.

Lemma ring_closeness p : exists l, closeness_centrality p g = Done l /\ l = repeat (n - 1, ring_total n d) n.
Proof.
  destruct (closeness_spec p W) as (l & -> & Hl & H); [lia|]. exists l. split; auto.
  apply list_ext. intros v. destruct (Nat.lt_ge_cases v n) as [Hv|Hv].
  - destruct (H v Hv) as (dd & [D1 _] & ->). rewrite nth_error_repeat by auto. repeat f_equal.
    rewrite <- (ring_sum Hv). f_equal. apply map_ext_in. intros w Hw. apply in_seq in Hw.
    apply (is_dist_fun (D1 w (proj2 Hw) (ring_connected Hv (proj2 Hw))) (ring_dist Hv (proj2 Hw))).
  - rewrite !(proj2 (nth_error_None _ _)); auto; [rewrite repeat_length; auto|lia].
Qed.

(** Turning the ring. *)
Lemma ring_iso b : b < n -> isomorphism g g (turn n b).
Proof.
  intros Hb. constructor; auto.
  - intros i Hi. apply turn_lt; auto.
  - intros i j Hi Hj. apply turn_inj; auto.
  - intros i j Hi Hj. rewrite !R, turn_cyc by auto. pose proof (turn_lt Hb Hi). pose proof (turn_lt Hb Hj). tauto.
Qed.
End Ring.

End Generic.
