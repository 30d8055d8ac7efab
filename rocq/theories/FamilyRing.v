(** Load, paths and biconnected components of ring lattices. *)
From Verif Require Import Base BaseFacts Sums Containers ContainerSpec ContainerFacts Graph GraphSpec GraphFacts GraphOps
  GraphBuild Search TraversalSpec Traversal TraversalFacts Components ComponentSpec ComponentFacts
  CoreFacts Transitivity TransitivityFacts ClosenessFacts Load LoadSpec LoadFacts LoadSums MeasureSpec MeasureFacts
  BiconnectedSpec ConsistencyFacts FamilySpec FamilyFacts FamilyMeasures.
From Coq Require Import QArith.
Set Implicit Arguments.
Unset Strict Implicit.
Local Open Scope nat_scope.

Section Generic.
Context {T A : Type} {C : AdjContainer T A} {L : AdjLaws C}.

(** In a connected graph the endpoints add [n - 1]. *)
Lemma load_endpoints (g : graph A) l l' : simple_graph g -> connected g ->
  vertex_load g true = Done l -> vertex_load g false = Done l' ->
  forall v, v < vertex_count g -> (nth v l' 0 == nth v l 0 - qnat (vertex_count g - 1))%Q.
Proof.
  intros W Hc E E' v Hv.
  destruct (load_value true W) as (D & F & l1 & HD & HF & E1 & _ & H). rewrite E1 in E. injection E as ->.
  destruct (load_value false W) as (D' & F' & l2 & HD' & HF' & E2 & _ & H'). rewrite E2 in E'. injection E' as ->.
  rewrite (H v), (H' v).
  assert (Ex : forall s w, s < vertex_count g -> w < vertex_count g -> D s w <> None).
  { intros s w Hs Hw K. destruct (dist_exists W Hs (Hc s w Hs Hw)) as (k & Hk). apply HD in Hk; auto. congruence. }
  assert (Eq : forall s w, s < vertex_count g -> D' s w = D s w) by (intros; eapply distances_fun; eauto).
  assert (HF2 : flow g D F').
  { intros s w Hs Hw. rewrite (HF' s w Hs) by (rewrite Eq; auto). apply Qplus_comp; [reflexivity|].
    replace (outward g D' s w) with (outward g D s w).
    2:{ unfold outward. apply filter_ext_in. intros x _. unfold nearer. rewrite !Eq; auto. }
    apply qsum_ext. intros x _. replace (inward g D' s x) with (inward g D s x); [reflexivity|].
    unfold inward. apply filter_ext_in. intros y _. unfold nearer. rewrite !Eq; auto. }
  assert (Cn : count (fun s => other D' s v) (seq 0 (vertex_count g)) = vertex_count g - 1).
  { unfold count. rewrite length_filter_sum.
    rewrite (@sum_over_ext _ _ (fun s => if s =? v then 0 else 1)).
    - pose proof (sum_but (fun _ => 1) Hv) as S. cbn beta in S. rewrite sum_over_const, seq_length in S. lia.
    - intros s Hs. apply in_seq in Hs. unfold other. rewrite Eq by lia. specialize (Ex s v (proj2 Hs) Hv).
      destruct (s =? v); auto. destruct (D s v); auto. congruence. }
  rewrite Cn.
  rewrite (@qsum_ext _ (fun s => through D F s v) (fun s => through D' F' s v)).
  - ring.
  - intros s Hs. apply in_seq in Hs. unfold through. rewrite Eq by lia. destruct (s =? v); [reflexivity|].
    specialize (Ex s v (proj2 Hs) Hv). pose proof (flow_unique W HD HF HF2 (proj2 Hs) Ex) as U.
    destruct (D s v); [exact U|reflexivity].
Qed.

Lemma sum_le {X} (f h : X -> nat) l : (forall x, In x l -> f x <= h x) -> sum_over f l <= sum_over h l.
Proof.
  induction l as [|a l IH]; intros H; auto. rewrite !sum_over_cons. specialize (IH (fun x Hx => H x (or_intror Hx))).
  specialize (H a (or_introl eq_refl)). lia.
Qed.

Lemma qnat_times a b : (qnat (a * b) == qnat a * qnat b)%Q.
Proof. unfold qnat. rewrite Nat2Z.inj_mul, inject_Z_mult. reflexivity. Qed.

Section Ring.
Variables (g : graph A) (d : nat).
Hypothesis W : simple_graph g.
Hypothesis Hd : 1 <= d.
Hypothesis Hn : 2 * d < vertex_count g.
Hypothesis R : forall i j, adj g i j <-> i < vertex_count g /\ j < vertex_count g /\
                               1 <= cyclic_distance (vertex_count g) i j <= d.
Notation n := (vertex_count g).

Lemma ring_load_same b l v w : vertex_load g b = Done l -> v < n -> w < n -> (nth v l 0 == nth w l 0)%Q.
Proof.
  intros E. enough (H0 : forall v, v < n -> (nth v l 0 == nth 0 l 0)%Q).
  { intros Hv Hw. rewrite (H0 v), (H0 w) by auto. reflexivity. }
  clear v w. intros v Hv. destruct (iso2_of W W (ring_iso R Hv)) as (f' & J).
  destruct (load_iso b J) as (l1 & l2 & E1 & E2 & _ & _ & H).
  assert (l1 = l) as -> by congruence. assert (l2 = l) as -> by congruence.
  specialize (H 0). rewrite turn_zero in H by auto. apply H. lia.
Qed.

Lemma ring_distances D : distances g D -> distance_sum D n = n * ring_total n d.
Proof.
  intros HD. unfold distance_sum.
  change (sum_over (fun s => list_sum (map (fun v => match D s v with Some k => k | None => 0 end) (seq 0 n))) (seq 0 n) = n * ring_total n d).
  rewrite sum_over_k with (k := ring_total n d); [rewrite seq_length; auto|].
  intros s Hs. apply in_seq in Hs. rewrite <- (ring_sum Hd Hn (proj2 Hs)). f_equal. apply map_ext_in. intros v Hv. apply in_seq in Hv.
  rewrite (proj2 (HD s v _ (proj2 Hs)) (ring_dist Hd Hn R (proj2 Hs) (proj2 Hv))). auto.
Qed.

Lemma ring_load b : exists l, vertex_load g b = Done l /\ length l = n /\
  forall v, v < n -> (nth v l 0 == qnat (if b then ring_total n d else ring_total n d - (n - 1)))%Q.
Proof.
  destruct (load_value b W) as (D & F & l & HD & _ & E & Ll & _). exists l. split; auto. split; auto. intros v Hv.
  destruct (load_total W) as (l1 & E1 & S). specialize (S D HD). rewrite (ring_distances HD) in S.
  destruct (load_value true W) as (_ & _ & l2 & _ & _ & E2 & Ll2 & _). assert (l2 = l1) as -> by congruence.
  assert (V : (nth v l1 0 == qnat (ring_total n d))%Q).
  { rewrite qsum_nth, Ll2 in S.
    rewrite (@qsum_ext _ (fun v => nth v l1 0%Q) (fun _ => nth v l1 0 * 1)%Q) in S.
    2:{ intros w Hw. apply in_seq in Hw. rewrite Qmult_1_r. apply (ring_load_same E1); auto. lia. }
    rewrite qsum_mul, qsum_one, seq_length, qnat_times in S.
    rewrite (Qmult_comm (nth v l1 0%Q)) in S. apply Qmult_inj_l in S; auto. apply qnat_nonzero. lia. }
  destruct b; [assert (l1 = l) as -> by congruence; auto|].
  rewrite (load_endpoints W (ring_connected Hd Hn R) E1 E Hv), V.
  assert (n - 1 <= ring_total n d).
  { unfold ring_total. change (list_sum _) with (sum_over (ring_hops n d) (seq 1 (n - 1))).
    rewrite <- (Nat.mul_1_r (n - 1)) at 1. rewrite <- (seq_length (n - 1) 1) at 1. rewrite <- sum_over_const.
    apply sum_le. intros k Hk. apply in_seq in Hk. unfold ring_hops. apply Nat.div_le_lower_bound; lia. }
  unfold qnat. rewrite (Nat2Z.inj_sub (ring_total n d) (n - 1)) by auto. unfold Zminus. rewrite inject_Z_plus, inject_Z_opp. ring.
Qed.

(** ** Triangles *)

(** [x] and [y] are joined, in terms of places on the circle. *)
Definition near (x y : nat) : bool := (1 <=? cyclic_distance n x y) && (cyclic_distance n x y <=? d).

Lemma near_iff x y : near x y = true <-> 1 <= cyclic_distance n x y <= d.
Proof. unfold near. rewrite Bool.andb_true_iff, !Nat.leb_le. tauto. Qed.

Lemma adjb_near i j : i < n -> j < n -> adjb g i j = near i j.
Proof. intros Hi Hj. apply Bool.eq_true_iff_eq. rewrite adjb_iff, near_iff, R. tauto. Qed.

Lemma near_turn b x y : b < n -> x < n -> y < n -> near (turn n b x) (turn n b y) = near x y.
Proof. intros. unfold near. rewrite !turn_cyc; auto. Qed.

(** The places [x] and [y] make a triangle with the place 0. *)
Definition corner (x y : nat) : bool := near x 0 && near 0 y && negb (y =? x) && near y x.

Lemma ring_closed_turn : count (closed_path g) (triples n) =
  n * sum_over (fun x => sum_over (fun y => b2n (corner x y)) (seq 0 n)) (seq 0 n).
Proof.
  replace (count (closed_path g) (triples n)) with
    (count (fun t : nat * nat * nat => let '(a, b, c) := t in adjb g a b && adjb g b c && negb (c =? a) && adjb g c a) (triples n)).
  2:{ unfold count. f_equal. apply filter_ext. intros [[a b] c]. reflexivity. }
  rewrite (@count_triples (fun a b c => adjb g a b && adjb g b c && negb (c =? a) && adjb g c a)).
  rewrite sum_over_k with (k := sum_over (fun x => sum_over (fun y => b2n (corner x y)) (seq 0 n)) (seq 0 n)); [rewrite seq_length; auto|].
  assert (Sq : forall z, In z (seq 0 n) -> z < n) by (intros z Hz; apply in_seq in Hz; lia).
  intros b Hb. apply Sq in Hb. rewrite (turn_sum _ Hb). apply sum_over_ext. intros x Hx. apply Sq in Hx.
  rewrite (turn_sum _ Hb). apply sum_over_ext. intros y Hy. apply Sq in Hy. f_equal. unfold corner.
  assert (H0 : 0 < n) by lia.
  rewrite !adjb_near by auto using turn_lt.
  rewrite <- (near_turn Hb Hx H0), <- (near_turn Hb H0 Hy), <- (near_turn Hb Hy Hx), (turn_zero Hb).
  replace (turn n b y =? turn n b x) with (y =? x); auto.
  apply Bool.eq_true_iff_eq. rewrite !Nat.eqb_eq. split; [congruence|]. apply turn_inj; lia.
Qed.

Lemma near_zero x : x < n -> (near x 0 = true <-> 1 <= x < d + 1 \/ n - d <= x < n).
Proof. intros Hx. rewrite near_iff, cyc_sym, cyc_up by lia. lia. Qed.

Lemma near_up x y : x < y -> y < n -> (near y x = true <-> y - x <= d \/ n - d <= y - x).
Proof. intros Hx Hy. rewrite near_iff, cyc_sym, cyc_up by lia. lia. Qed.

Lemma near_sym x y : near x y = near y x.
Proof. unfold near. rewrite cyc_sym. auto. Qed.

Lemma corner_iff x y : corner x y = true <-> near x 0 = true /\ near y 0 = true /\ y <> x /\ near y x = true.
Proof.
  unfold corner. rewrite !Bool.andb_true_iff, Bool.negb_true_iff, Nat.eqb_neq, (near_sym 0 y). tauto.
Qed.

Lemma corner_first x : 1 <= x <= d ->
  sum_over (fun y => b2n (corner x y)) (seq 0 n) = (2 * d - 1 - x) + (x + 2 * d + 1 - n).
Proof.
  intros Hx.
  rewrite (@within_four (corner x) 1 x (x + 1) (d + 1) (n - d) (x + d + 1) (n + x - d) n n); try lia.
  intros y Hy. rewrite corner_iff, !near_zero by lia.
  destruct (Nat.lt_trichotomy x y) as [K|[K|K]]; [rewrite near_up by lia; lia|lia|rewrite near_sym, near_up by lia; lia].
Qed.

Lemma corner_second z : 1 <= z <= d ->
  sum_over (fun y => b2n (corner (n - z) y)) (seq 0 n) = (2 * d - 1 - z) + (z + 2 * d + 1 - n).
Proof.
  intros Hz.
  rewrite (@within_four (corner (n - z)) 1 (d + 1 - z) (n - z - d) (d + 1) (n - d) (n - z) (n - z + 1) n n); try lia.
  intros y Hy. rewrite corner_iff, !near_zero by lia.
  destruct (Nat.lt_trichotomy (n - z) y) as [K|[K|K]]; [rewrite near_up by lia; lia|lia|rewrite near_sym, near_up by lia; lia].
Qed.

Lemma corner_none x : x < n -> near x 0 = false -> sum_over (fun y => b2n (corner x y)) (seq 0 n) = 0.
Proof. intros Hx E. apply sum_over_zero. intros y _. unfold corner. rewrite E. auto. Qed.

Lemma sum_down k t : sum_over (fun z => 2 * k - 1 - z) (seq 1 t) * 2 + t * (t + 1) = 2 * t * (2 * k - 1) \/ 2 * k - 1 < t.
Proof.
  induction t as [|t [IH|IH]].
  - left. cbn. lia.
  - destruct (Nat.lt_ge_cases (2 * k - 1) (S t)) as [K|K]; auto. left. rewrite seq_S, sum_over_app, sum_over_one. nia.
  - right. lia.
Qed.

Lemma sum_up m t : sum_over (fun z => z + 2 * m + 1 - t) (seq 1 m) * 2 = (3 * m + 1 - t) * (3 * m + 2 - t) \/ t < 2 * m + 1.
Proof.
  enough (H : forall c, 2 * m + 1 <= t -> c <= m -> sum_over (fun z => z + 2 * m + 1 - t) (seq 1 c) * 2 = (c + 2 * m + 1 - t) * (c + 2 * m + 2 - t)).
  { destruct (Nat.lt_ge_cases t (2 * m + 1)) as [K|K]; auto. left. rewrite (H m); auto. }
  intros c Ht. induction c as [|c IH]; intros Hc.
  - cbn. replace (2 * m + 1 - t) with 0 by lia. lia.
  - rewrite seq_S, sum_over_app, sum_over_one. rewrite Nat.mul_add_distr_r, IH by lia.
    destruct (Nat.le_gt_cases t (c + 2 * m + 1)) as [K|K].
    + replace t with (c + 2 * m + 1 - (c + 2 * m + 1 - t)) by lia. set (e := c + 2 * m + 1 - t) in *.
      replace (c + 2 * m + 1 - (c + 2 * m + 1 - e)) with e by lia. replace (c + 2 * m + 2 - (c + 2 * m + 1 - e)) with (e + 1) by lia.
      replace (1 + c + 2 * m + 1 - (c + 2 * m + 1 - e)) with (e + 1) by lia.
      replace (S c + 2 * m + 1 - (c + 2 * m + 1 - e)) with (e + 1) by lia.
      replace (S c + 2 * m + 2 - (c + 2 * m + 1 - e)) with (e + 2) by lia. lia.
    + replace (c + 2 * m + 1 - t) with 0 by lia. replace (1 + c + 2 * m + 1 - t) with 0 by lia.
      replace (S c + 2 * m + 1 - t) with 0 by lia. lia.
Qed.

Lemma ring_closed : count (closed_path g) (triples n) =
  n * (3 * d * (d - 1) + (3 * d + 1 - n) * (3 * d + 2 - n)).
Proof.
  rewrite ring_closed_turn. apply (f_equal (Nat.mul n)).
  assert (S : seq 0 n = 0 :: seq 1 d ++ seq (d + 1) (n - 2 * d - 1) ++ seq (n - d) d).
  { replace n with (1 + (d + ((n - 2 * d - 1) + d))) at 1 by lia. rewrite !seq_app. cbn [seq app].
    replace (0 + 1) with 1 by lia. replace (1 + d) with (d + 1) by lia. replace (d + 1 + (n - 2 * d - 1)) with (n - d) by lia. auto. }
  pose (f := fun x => sum_over (fun y => b2n (corner x y)) (seq 0 n)). change (sum_over f (seq 0 n) = 3 * d * (d - 1) + (3 * d + 1 - n) * (3 * d + 2 - n)).
  rewrite S, sum_over_cons, !sum_over_app. unfold f.
  rewrite corner_none; [|lia|apply Bool.not_true_iff_false; rewrite near_zero by lia; lia].
  rewrite (@sum_over_ext _ _ (fun x => (2 * d - 1 - x) + (x + 2 * d + 1 - n)) (seq 1 d)).
  2:{ intros x Hx. apply in_seq in Hx. apply corner_first. lia. }
  rewrite (@sum_over_zero _ _ (seq (d + 1) _)).
  2:{ intros x Hx. apply in_seq in Hx. apply corner_none; [lia|]. apply Bool.not_true_iff_false. rewrite near_zero by lia. lia. }
  assert (P : Permutation (seq (n - d) d) (map (fun z => n - z) (seq 1 d))).
  { symmetry. apply NoDup_Permutation_bis.
    - apply NoDup_map_in; [|apply seq_NoDup]. intros x y Hx Hy. apply in_seq in Hx, Hy. lia.
    - rewrite map_length, !seq_length. auto.
    - intros y Hy. apply in_map_iff in Hy as (z & <- & Hz). apply in_seq in Hz. apply in_seq. lia. }
  rewrite (sum_over_perm _ P), sum_over_map.
  rewrite (@sum_over_ext _ (fun z => sum_over (fun y => b2n (corner (n - z) y)) (seq 0 n)) (fun x => (2 * d - 1 - x) + (x + 2 * d + 1 - n)) (seq 1 d)).
  2:{ intros x Hx. apply in_seq in Hx. apply corner_second. lia. }
  rewrite !sum_over_plus. destruct (sum_down d d) as [E1|E1]; [|lia]. destruct (sum_up d n) as [E2|E2]; [|lia].
  set (s1 := sum_over _ _) in *. set (s2 := sum_over _ _) in *.
  assert (s1 * 2 = 3 * d * (d - 1)) by nia. lia.
Qed.

Lemma ring_transitivity : regular g (2 * d) -> Transitivity.transitivity g =
  Done (n * (3 * d * (d - 1) + (3 * d + 1 - n) * (3 * d + 2 - n)), n * (2 * d * (2 * d - 1))).
Proof. intros Rg. rewrite transitivity_spec by auto. rewrite ring_closed, (regular_paths W Rg). auto. Qed.

(** ** Biconnected *)

Lemma ring_round x a : x < n -> 1 <= a < n -> joined (edge_without g (seq 0 n) x) (turn n x 1) (turn n x a).
Proof.
  intros Hx. induction a as [|a IH]; intros Ha; [lia|]. destruct (Nat.eq_dec a 0) as [->|N]; [apply joined_refl|].
  apply joined_step with (turn n x a); [apply IH; lia|].
  assert (K : forall c, 1 <= c < n -> turn n x c < n /\ turn n x c <> x).
  { intros c Hc. split; [apply turn_lt; lia|]. intros Q. rewrite <- (turn_zero Hx) in Q at 2. apply turn_inj in Q; lia. }
  destruct (K a) as [K1 K2]; [lia|]. destruct (K (S a)) as [K3 K4]; [lia|].
  split; [split|]; auto.
  - apply R. split; auto. split; auto. rewrite turn_cyc by lia. rewrite cyc_up by lia. lia.
  - rewrite !in_seq. lia.
Qed.

Lemma ring_biconnected : biconnected g (seq 0 n).
Proof.
  split; [apply seq_NoDup|]. split; [rewrite seq_length; lia|]. split.
  - intros u v Hu Hv. apply in_seq in Hu, Hv. apply (@joined_iff _ (adj g)); [|apply (ring_connected Hd Hn R); lia].
    intros x y. unfold edge_within. rewrite !in_seq, R. intuition lia.
  - intros x u v Hx Hu Hv Nu Nv. apply in_seq in Hx, Hu, Hv.
    destruct (turn_onto Hd Hn (proj2 Hx) (proj2 Hu)) as (a & Ha & ->). destruct (turn_onto Hd Hn (proj2 Hx) (proj2 Hv)) as (b & Hb & ->).
    assert (a <> 0) by (intros ->; rewrite turn_zero in Nu; auto; lia).
    assert (b <> 0) by (intros ->; rewrite turn_zero in Nv; auto; lia).
    apply joined_trans with (turn n x 1); [apply joined_sym|]; try (apply ring_round; lia).
    intros y z [[K1 [K2 K3]] [K4 K5]]. split; [split|]; auto. apply adj_sym; auto.
Qed.

End Ring.
End Generic.
