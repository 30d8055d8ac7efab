(** Measures of complete graphs and ring lattices. *)
From Verif Require Import Base BaseFacts Sums Containers ContainerSpec ContainerFacts Graph GraphSpec GraphFacts GraphOps
  GraphBuild Search TraversalSpec Traversal TraversalFacts Components ComponentSpec ComponentFacts FamilySpec.
Set Implicit Arguments.
Unset Strict Implicit.

(** ** The circle *)

Lemma cyc_up n i j : i <= j -> j < n -> cyclic_distance n i j = Nat.min (j - i) (n - (j - i)).
Proof.
  intros H Hj. unfold cyclic_distance. rewrite !steps_round_eq by lia.
  destruct (Nat.leb_spec i j), (Nat.leb_spec j i); lia.
Qed.

Lemma cyc_sym n i j : cyclic_distance n i j = cyclic_distance n j i.
Proof. apply Nat.min_comm. Qed.

Lemma cyc_triangle n i j k : i < n -> j < n -> k < n ->
  cyclic_distance n i k <= cyclic_distance n i j + cyclic_distance n j k.
Proof.
  intros Hi Hj Hk.
  destruct (Nat.le_ge_cases i j) as [A|A]; [rewrite (cyc_up A) by auto|rewrite (cyc_sym n i j), (cyc_up A) by auto];
  (destruct (Nat.le_ge_cases j k) as [B|B]; [rewrite (cyc_up B) by auto|rewrite (cyc_sym n j k), (cyc_up B) by auto]);
  (destruct (Nat.le_ge_cases i k) as [D|D]; [rewrite (cyc_up D) by auto|rewrite (cyc_sym n i k), (cyc_up D) by auto]); lia.
Qed.

Lemma cyc_towards_up n i j d : i <= j -> j < n -> 1 <= d < cyclic_distance n i j ->
  exists k, k < n /\ cyclic_distance n i k = d /\ cyclic_distance n k j = cyclic_distance n i j - d.
Proof.
  intros L Hj H. rewrite (cyc_up L Hj) in *. destruct (Nat.le_gt_cases (2 * (j - i)) n) as [M|M].
  - exists (i + d). rewrite !cyc_up by lia. lia.
  - destruct (Nat.le_gt_cases d i) as [K|K].
    + exists (i - d). rewrite (cyc_sym n i), !cyc_up by lia. lia.
    + exists (i + n - d). rewrite (cyc_sym n _ j), !cyc_up by lia. lia.
Qed.

Lemma cyc_towards n i j d : i < n -> j < n -> 1 <= d < cyclic_distance n i j ->
  exists k, k < n /\ cyclic_distance n i k = d /\ cyclic_distance n k j = cyclic_distance n i j - d.
Proof.
  intros Hi Hj H. destruct (Nat.le_ge_cases i j) as [A|A]; [apply cyc_towards_up; auto|].
  rewrite cyc_sym in H. destruct (@cyc_towards_up n j i (cyclic_distance n j i - d)) as (k & Hk & E1 & E2); auto; [lia|].
  exists k. split; auto. rewrite (cyc_sym n i k), (cyc_sym n k j), (cyc_sym n i j). lia.
Qed.

(** The vertex [x] places after [b]. *)
Definition turn (n b x : nat) : nat := if n <=? b + x then b + x - n else b + x.

Lemma turn_lt n b x : b < n -> x < n -> turn n b x < n.
Proof. intros. unfold turn. destruct (Nat.leb_spec n (b + x)); lia. Qed.

Lemma turn_inj n b x y : b < n -> x < n -> y < n -> turn n b x = turn n b y -> x = y.
Proof. intros Hb Hx Hy. unfold turn. destruct (Nat.leb_spec n (b + x)), (Nat.leb_spec n (b + y)); lia. Qed.

Lemma turn_zero n b : b < n -> turn n b 0 = b.
Proof. intros. unfold turn. destruct (Nat.leb_spec n (b + 0)); lia. Qed.

Lemma turn_cyc_up n b x y : b < n -> x <= y -> y < n ->
  cyclic_distance n (turn n b x) (turn n b y) = cyclic_distance n x y.
Proof.
  intros Hb Hx Hy. rewrite (cyc_up Hx Hy). unfold turn.
  destruct (Nat.leb_spec n (b + x)), (Nat.leb_spec n (b + y)); try lia.
  - rewrite cyc_up by lia. lia.
  - rewrite cyc_sym, cyc_up by lia. lia.
  - rewrite cyc_up by lia. lia.
Qed.

Lemma turn_cyc n b x y : b < n -> x < n -> y < n ->
  cyclic_distance n (turn n b x) (turn n b y) = cyclic_distance n x y.
Proof.
  intros Hb Hx Hy. destruct (Nat.le_ge_cases x y) as [A|A]; [apply turn_cyc_up; auto|].
  rewrite (cyc_sym n x), (cyc_sym n (turn n b x)). apply turn_cyc_up; auto.
Qed.

Lemma turn_perm n b : b < n -> Permutation (seq 0 n) (map (turn n b) (seq 0 n)).
Proof.
  intros Hb. symmetry. apply NoDup_Permutation_bis.
  - apply NoDup_map_in; [|apply seq_NoDup]. intros x y Hx Hy. apply in_seq in Hx, Hy. apply turn_inj; lia.
  - rewrite map_length. auto.
  - intros z Hz. apply in_map_iff in Hz as (x & <- & Hx). apply in_seq in Hx. apply in_seq. pose proof (turn_lt Hb (proj2 Hx)). lia.
Qed.

Lemma turn_sum n b f : b < n -> sum_over f (seq 0 n) = sum_over (fun x => f (turn n b x)) (seq 0 n).
Proof. intros Hb. rewrite (sum_over_perm f (turn_perm Hb)), sum_over_map. auto. Qed.

(** ** Counting *)

Lemma ceil_le a d k : 1 <= d -> (Nat.div (a + d - 1) d <= k <-> a <= k * d).
Proof.
  intros Hd. split; intros H.
  - pose proof (Nat.mul_succ_div_gt (a + d - 1) d). nia.
  - apply Nat.lt_succ_r. apply Nat.div_lt_upper_bound; nia.
Qed.

Lemma ceil_eq a d k : 1 <= d -> a <= k * d -> (forall j, a <= j * d -> k <= j) -> k = Nat.div (a + d - 1) d.
Proof.
  intros Hd H M. apply Nat.le_antisymm.
  - apply M. apply ceil_le; auto.
  - apply ceil_le; auto.
Qed.

(** [a <= y < b]. *)
Definition within (a b y : nat) : bool := (a <=? y) && (y <? b).

Lemma within_iff a b y : within a b y = true <-> a <= y < b.
Proof. unfold within. rewrite Bool.andb_true_iff, Nat.leb_le, Nat.ltb_lt. tauto. Qed.

Lemma within_count a b n : b <= n -> sum_over (fun y => b2n (within a b y)) (seq 0 n) = b - a.
Proof.
  intros Hb. induction n as [|n IH].
  - cbn. lia.
  - rewrite seq_S, sum_over_app, sum_over_one, Nat.add_0_l. destruct (Nat.le_gt_cases b n) as [L|L].
    + rewrite IH by auto. unfold within. replace (n <? b) with false by (symmetry; apply Nat.ltb_ge; auto).
      rewrite Bool.andb_false_r. cbn. lia.
    + assert (b = S n) as -> by lia.
      rewrite (@sum_over_ext _ _ (fun y => b2n (a <=? y))).
      2:{ intros y Hy. apply in_seq in Hy. unfold within. replace (y <? S n) with true by (symmetry; apply Nat.ltb_lt; lia).
          rewrite Bool.andb_true_r. auto. }
      clear IH Hb L. unfold within. replace (n <? S n) with true by (symmetry; apply Nat.ltb_lt; lia). rewrite Bool.andb_true_r.
      induction n as [|n IH]; [cbn; destruct a; auto; cbn; lia|].
      rewrite seq_S, sum_over_app, sum_over_one, Nat.add_0_l. rewrite IH.
      destruct (Nat.leb_spec a (S n)); cbn [b2n]; lia.
Qed.

Lemma within_four f a1 b1 a2 b2 a3 b3 a4 b4 n :
  (forall y, y < n -> (f y = true <-> a1 <= y < b1 \/ a2 <= y < b2 \/ a3 <= y < b3 \/ a4 <= y < b4)) ->
  (forall y, a1 <= y < b1 -> y < a2 /\ y < a3 /\ y < a4) -> (forall y, a2 <= y < b2 -> y < a3 /\ y < a4) -> (forall y, a3 <= y < b3 -> y < a4) ->
  b1 <= n -> b2 <= n -> b3 <= n -> b4 <= n ->
  sum_over (fun y => b2n (f y)) (seq 0 n) = (b1 - a1) + (b2 - a2) + (b3 - a3) + (b4 - a4).
Proof.
  intros F D1 D2 D3 H1 H2 H3 H4.
  rewrite (@sum_over_ext _ (fun y => b2n (f y))
    (fun y => b2n (within a1 b1 y) + b2n (within a2 b2 y) + b2n (within a3 b3 y) + b2n (within a4 b4 y))).
  - rewrite !sum_over_plus, !within_count; auto.
  - intros y Hy. apply in_seq in Hy. specialize (F y (proj2 Hy)). specialize (D1 y). specialize (D2 y). specialize (D3 y).
    pose proof (within_iff a1 b1 y). pose proof (within_iff a2 b2 y). pose proof (within_iff a3 b3 y). pose proof (within_iff a4 b4 y).
    destruct (f y), (within a1 b1 y), (within a2 b2 y), (within a3 b3 y), (within a4 b4 y); cbn [b2n]; try reflexivity; exfalso;
    intuition (try discriminate; try lia).
Qed.
