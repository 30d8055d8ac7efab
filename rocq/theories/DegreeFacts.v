(** Facts about the distribution of degrees and numbers of edges. *)
From Verif Require Import Base BaseFacts Sums Containers ContainerSpec ContainerFacts Graph GraphSpec GraphFacts GraphOps
  Rng RngFacts Markov ErC ErCFacts ErM ErMSpec ErMFacts Spacial SpacialSpec SpacialFacts UniformSpec UniformFacts BalanceSpec BalanceFacts BalanceFixed PlaceFacts
  SwitchSpec SwitchFacts SwitchStep SurelyFacts FairSpec ConvergeSpec ConvergeFacts ConvergeErM ConvergeSwitch ConvergeRate ConvergeRateM RateSpec DegreeSpec.
From Coq Require Import Factorial QArith Lqa.
Local Open Scope nat_scope.
Set Implicit Arguments.
Unset Strict Implicit.

Lemma choose_above n : forall k, n < k -> choose n k = 0.
Proof. induction n as [|n IH]; intros [|k] H; try lia; auto. cbn [choose]. rewrite !IH by lia. auto. Qed.

Lemma choose_zero n : choose n 0 = 1.
Proof. destruct n; auto. Qed.

Lemma choose_fact n : forall k, k <= n -> choose n k * (fact k * fact (n - k)) = fact n.
Proof.
  induction n as [|n IH]; intros [|k] H; try lia; auto.
  - cbn [choose]. rewrite Nat.sub_0_r. cbn. lia.
  - cbn [choose]. replace (S n - S k) with (n - k) by lia. destruct (Nat.eq_dec k n) as [->|Nk].
    + rewrite (@choose_above n (S n)) by lia. specialize (IH n ltac:(lia)). rewrite Nat.sub_diag in *.
      change (fact (S n)) with (S n * fact n).
      transitivity (S n * (choose n n * (fact n * fact 0))); [ring|]. rewrite IH. auto.
    + pose proof (IH k ltac:(lia)) as H1. pose proof (IH (S k) ltac:(lia)) as H2.
      replace (n - k) with (S (n - S k)) in * by lia. change (fact (S n)) with (S n * fact n).
      change (fact (S k)) with (S k * fact k) in *. change (fact (S (n - S k))) with (S (n - S k) * fact (n - S k)) in *.
      transitivity (S k * (choose n k * (fact k * (S (n - S k) * fact (n - S k)))) +
        S (n - S k) * (choose n (S k) * (S k * fact k * fact (n - S k)))); [ring|].
      rewrite H1, H2. replace (S n) with (S k + S (n - S k)) by lia. ring.
Qed.

(** *** Independent coins *)
Section Coins.
Variables (acc : nat -> bool) (coins : list nat).
Local Notation a := (count acc coins).
Local Notation b := (count (fun z => negb (acc z)) coins).

(** How many of the marked draws are accepted. *)
Fixpoint wins (mask : list bool) (w : list nat) : nat :=
  match mask, w with
  | m :: mask, z :: w => b2n (m && acc z) + wins mask w
  | _, _ => 0
  end.

Lemma coins_split : a + b = length coins.
Proof. unfold count. induction coins as [|z l IH]; auto. cbn [filter length]. destruct (acc z); cbn [negb length]; lia. Qed.

Lemma sum_split F u v : (forall z, In z coins -> F z = if acc z then u else v) -> sum_over F coins = a * u + b * v.
Proof.
  unfold count. induction coins as [|z l IH]; intros H; auto. rewrite sum_over_cons, IH by (intros y Hy; apply H; simpl; auto).
  rewrite H by (simpl; auto). cbn [filter]. destruct (acc z); cbn [negb length]; lia.
Qed.

Lemma words_size k : length (words k coins) = length coins ^ k.
Proof.
  induction k as [|k IH]; auto. cbn [words Nat.pow]. rewrite <- (Nat.mul_1_r (length (flat_map _ _))), <- sum_over_const, sum_over_flat_map.
  rewrite (@sum_over_ext _ _ (fun _ => length coins ^ k)); [rewrite sum_over_const; auto|].
  intros c _. rewrite sum_over_map, sum_over_const. lia.
Qed.

Lemma wins_count mask : forall k, count (fun w => wins mask w =? k) (words (length mask) coins) =
  choose (count (fun m => m) mask) k * (a ^ k * b ^ (count (fun m => m) mask - k)) * length coins ^ (count negb mask).
Proof.
  induction mask as [|m mask IH]; intros k.
  - destruct k; auto.
  - unfold count at 1. rewrite length_filter_sum. cbn [length words]. rewrite sum_over_flat_map.
    set (M := count (fun m => m) mask) in *. set (R := count negb mask) in *.
    destruct m.
    + replace (count (fun m => m) (true :: mask)) with (S M) by auto. replace (count negb (true :: mask)) with R by auto.
      rewrite (@sum_split _ (match k with 0 => 0 | S k => count (fun w => wins mask w =? k) (words (length mask) coins) end)
        (count (fun w => wins mask w =? k) (words (length mask) coins))).
      2:{ intros z _. rewrite sum_over_map. cbn [wins andb]. destruct (acc z); cbn [b2n].
          - destruct k as [|k]; [apply sum_over_zero; auto|]. unfold count. rewrite length_filter_sum. auto.
          - unfold count. rewrite length_filter_sum. auto. }
      rewrite IH. destruct k as [|k].
      * rewrite !choose_zero. cbn [Nat.pow]. rewrite !Nat.sub_0_r. cbn [Nat.pow]. ring.
      * rewrite IH. cbn [choose]. replace (S M - S k) with (M - k) by lia. destruct (Nat.le_gt_cases M k) as [H|H].
        -- rewrite (@choose_above M (S k)) by lia. cbn [Nat.pow]. ring.
        -- replace (M - k) with (S (M - S k)) by lia. cbn [Nat.pow]. ring.
    + replace (count (fun m => m) (false :: mask)) with M by auto. replace (count negb (false :: mask)) with (S R) by auto.
      rewrite (@sum_over_ext _ _ (fun _ => count (fun w => wins mask w =? k) (words (length mask) coins))).
      2:{ intros z _. rewrite sum_over_map. cbn [wins andb b2n]. unfold count. rewrite length_filter_sum. auto. }
      rewrite sum_over_const, IH. cbn [Nat.pow]. ring.
Qed.

Lemma wins_sum mask : sum_over (wins mask) (words (length mask) coins) =
  count (fun m => m) mask * (a * length coins ^ (length mask - 1)).
Proof.
  induction mask as [|m mask IH]; auto. cbn [length words]. rewrite sum_over_flat_map.
  set (M := count (fun m => m) mask) in *. replace (S (length mask) - 1) with (length mask) by lia.
  rewrite (@sum_over_ext _ _ (fun z => b2n (m && acc z) * length coins ^ length mask + sum_over (wins mask) (words (length mask) coins))).
  2:{ intros z _. rewrite sum_over_map. cbn [wins]. rewrite sum_over_plus, sum_over_const, words_size. ring. }
  rewrite sum_over_plus, sum_over_const, IH.
  assert (E : length coins * (M * (a * length coins ^ (length mask - 1))) = M * (a * length coins ^ length mask)).
  { destruct mask as [|x mask]; [cbn; lia|]. cbn [length]. replace (S (length mask) - 1) with (length mask) by lia. cbn [Nat.pow]. ring. }
  rewrite E. destruct m; cbn [andb].
  - replace (count (fun m => m) (true :: mask)) with (S M) by auto.
    rewrite (@sum_split _ (length coins ^ length mask) 0) by (intros z _; destruct (acc z); cbn [b2n]; lia). ring.
  - replace (count (fun m => m) (false :: mask)) with M by auto. rewrite sum_over_zero; auto.
Qed.

Lemma wins_count_all mask w : length w = length mask ->
  wins mask w = count (fun mz => fst mz && acc (snd mz)) (combine mask w).
Proof.
  revert w. induction mask as [|m mask IH]; intros [|z w] H; auto; try discriminate. cbn [wins combine]. rewrite IH by (cbn in H; lia).
  unfold count. cbn [filter fst snd]. destruct (m && acc z); auto.
Qed.
End Coins.

(** *** Degrees *)

Definition touches (v : nat) (ij : nat * nat) : bool := (fst ij =? v) || (snd ij =? v).

Lemma degree_touch {T A} {C : AdjContainer T A} {L : AdjLaws C} (g : graph A) n v : simple_graph g -> vertex_count g = n ->
  length (nbrs g v) = count (fun ij => touches v ij && adjb g (fst ij) (snd ij)) (pairs_below n).
Proof.
  intros W V. rewrite <- adjb_degree by auto. rewrite V.
  set (l0 := filter (fun ij => adjb g (fst ij) (snd ij)) (pairs_below n)).
  assert (E : count (adjb g v) (seq 0 n) = count (member l0 v) (seq 0 n)).
  { unfold count. f_equal. apply filter_ext_in. intros j Hj. apply in_seq in Hj. apply eq_true_iff_eq. rewrite member_In.
    unfold l0. rewrite filter_In, In_pairs_below. cbn [fst snd]. rewrite !adjb_adj.
    assert (Sy : adj g (Nat.min v j) (Nat.max v j) <-> adj g v j).
    { destruct (Nat.le_ge_cases v j); [rewrite Nat.min_l, Nat.max_r by auto; tauto|].
      rewrite Nat.min_r, Nat.max_l by auto. split; apply (sg_sym W). }
    rewrite Sy. split; [|tauto]. intros A1. pose proof (adj_lt W A1) as [R1 R2]. rewrite V in *.
    assert (v <> j) by (intros ->; apply (sg_irrefl W _ A1)). splits; auto; lia. }
  rewrite E, member_degree.
  - unfold edges_at, l0, count. generalize (pairs_below n). intros l. induction l as [|ij l IH]; auto. cbn [filter].
    fold (touches v ij). destruct (adjb g (fst ij) (snd ij)), (touches v ij) eqn:Et; cbn [andb filter length]; auto;
      fold (touches v ij); rewrite Et; cbn [length]; auto.
  - apply NoDup_filter, NoDup_pairs_below.
  - intros ij I. apply filter_In in I. tauto.
Qed.

Lemma touching n v : v < n -> count (touches v) (pairs_below n) = n - 1.
Proof.
  intros Hv. pose proof (@member_degree n (pairs_below n) v (NoDup_pairs_below n) (incl_refl _)) as H.
  unfold edges_at in H. fold (touches v) in H. 
  replace (count (touches v) (pairs_below n)) with (count (member (pairs_below n) v) (seq 0 n)).
  assert (E : forall j, In j (seq 0 n) -> member (pairs_below n) v j = negb (j =? v)).
  { intros j Hj. apply in_seq in Hj. apply eq_true_iff_eq. rewrite member_In, In_pairs_below, negb_true_iff, Nat.eqb_neq. lia. }
  unfold count. rewrite (@filter_ext_in _ _ (fun j => negb (j =? v))) by auto.
  pose proof (@filter_single _ (fun j => j =? v) v (seq 0 n) (seq_NoDup n 0) ltac:(apply in_seq; lia) (Nat.eqb_refl v)
    ltac:(intros y _ Hy; apply Nat.eqb_eq; auto)) as S1.
  assert (S2 : length (filter (fun j => j =? v) (seq 0 n)) + length (filter (fun j => negb (j =? v)) (seq 0 n)) = length (seq 0 n)).
  { generalize (seq 0 n). intros l. induction l as [|x l IH]; auto. cbn [filter length]. destruct (x =? v); cbn [negb length]; lia. }
  rewrite S1, seq_length in S2. cbn [length] in S2. lia.
Qed.

Lemma wins_of (acc : nat -> bool) (A : nat -> nat -> bool) (B : nat * nat -> bool) ps : forall w, length w = length ps ->
  (forall k i j r, nth_error ps k = Some (i, j) -> nth_error w k = Some r -> A i j = acc r) ->
  count (fun ij => B ij && A (fst ij) (snd ij)) ps = wins acc (map B ps) w.
Proof.
  induction ps as [|[i j] ps IH]; intros [|z w] Hl H; try discriminate; auto. cbn [map wins]. rewrite <- IH.
  - rewrite <- (H 0 i j z) by auto. unfold count. cbn [filter fst snd]. destruct (B (i, j) && A i j); auto.
  - cbn in Hl. lia.
  - intros k i' j' r Hk Hr. apply (H (S k)); auto.
Qed.

Lemma count_perm {X} (f : X -> bool) l l' : Permutation l l' -> count f l = count f l'.
Proof. intros H. unfold count. rewrite !length_filter_sum. apply sum_over_perm. auto. Qed.

Lemma count_all {X} (l : list X) : count (fun _ => true) l = length l.
Proof. unfold count. induction l; cbn [filter length]; auto. Qed.

Lemma count_map {X Y} (f : Y -> bool) (h : X -> Y) l : count f (map h l) = count (fun x => f (h x)) l.
Proof. unfold count. induction l as [|x l IH]; auto. cbn [map filter]. destruct (f (h x)); cbn [length]; auto. Qed.

Lemma count_negb {X} (f : X -> bool) l : count (fun x => negb (f x)) l = length l - count f l.
Proof.
  enough (count f l + count (fun x => negb (f x)) l = length l) by lia.
  unfold count. induction l as [|x l IH]; auto. cbn [filter length]. destruct (f x); cbn [negb length]; lia.
Qed.

Lemma count_sum {X} (f : X -> bool) l : count f l = sum_over (fun x => b2n (f x)) l.
Proof. apply length_filter_sum. Qed.

Section ErC.
Context {T : Type}.
Variables (n : nat) (e : er_c T) (coins : list nat).
Hypothesis We : simple_graph (erc_graph e).
Hypothesis Ve : vertex_count (erc_graph e) = n.
Local Notation acc := (fun z => Qle_bool (unit_float z) (erc_prob e)).
Local Notation a := (count acc coins).
Local Notation b := (count (fun z => negb (acc z)) coins).
Local Notation N := (length (er_pairs n)).

Lemma erc_sample w : length w = N -> exists s, erc_randomize e w = Done (s, []) /\ simple_graph (erc_graph s) /\
  vertex_count (erc_graph s) = n /\
  forall B, count (fun ij => B ij && adjb (erc_graph s) (fst ij) (snd ij)) (pairs_below n) = wins acc (map B (er_pairs n)) w.
Proof using We Ve.
  intros Lw. destruct (@erc_randomize_spec T e w We) as (s & E & W & V & _ & _ & _ & _ & J).
  { rewrite Ve. lia. }
  rewrite Ve in *. exists s. splits; auto; [rewrite E, <- Lw, skipn_all; auto|].
  intros B. rewrite <- (count_perm _ (pairs_perm n)). apply wins_of; auto.
  intros k i j r H1 H2. apply eq_true_iff_eq. rewrite adjb_adj, (J k i j r H1 H2), Qle_bool_iff. tauto.
Qed.

Lemma erc_binomial (P : er_c T -> bool) B k :
  (forall s, simple_graph (erc_graph s) -> vertex_count (erc_graph s) = n ->
     P s = (count (fun ij => B ij && adjb (erc_graph s) (fst ij) (snd ij)) (pairs_below n) =? k)) ->
  count (fun d => ends P (erc_randomize e d)) (words N coins) =
  choose (count B (pairs_below n)) k * (a ^ k * b ^ (count B (pairs_below n) - k)) * length coins ^ (N - count B (pairs_below n)).
Proof using We Ve.
  intros HP. rewrite <- (count_perm B (pairs_perm n)).
  pose proof (wins_count acc coins (map B (er_pairs n)) k) as H. rewrite map_length, !count_map in H.
  rewrite (count_negb B (er_pairs n)) in H. etransitivity; [clear H|exact H]. rewrite !count_sum. apply sum_over_ext. intros w Hw.
  apply words_length in Hw. destruct (erc_sample Hw) as (s & E & W & V & J). rewrite E. cbn [ends]. rewrite HP, J; auto.
Qed.

Lemma erc_mean v : v < n ->
  degrees_total (fun s => erc_graph s) v (erc_randomize e) (words N coins) = (n - 1) * (a * length coins ^ (N - 1)).
Proof using We Ve.
  intros Hv. unfold degrees_total.
  pose proof (wins_sum acc coins (map (touches v) (er_pairs n))) as H. rewrite map_length, count_map in H.
  rewrite (count_perm _ (pairs_perm n)), touching in H by auto. rewrite <- H.
  apply sum_over_ext. intros w Hw. apply words_length in Hw. destruct (erc_sample Hw) as (s & E & W & V & J). rewrite E.
  rewrite degree_spec, V by auto. rewrite (proj2 (Nat.ltb_lt v n)) by auto. rewrite (degree_touch v W V). apply J.
Qed.
End ErC.

(** *** Coins that depend on the pair *)
Lemma weighted_sum {X} (acc : X -> nat -> bool) (B : X -> bool) coins ps :
  sum_over (fun w => count (fun xz => B (fst xz) && acc (fst xz) (snd xz)) (combine ps w)) (words (length ps) coins) =
  sum_over (fun x => b2n (B x) * count (acc x) coins) ps * length coins ^ (length ps - 1).
Proof.
  induction ps as [|x ps IH]; auto. cbn [length words]. rewrite sum_over_flat_map.
  replace (S (length ps) - 1) with (length ps) by lia.
  rewrite (@sum_over_ext _ _ (fun z => b2n (B x && acc x z) * length coins ^ length ps +
    sum_over (fun w => count (fun xz => B (fst xz) && acc (fst xz) (snd xz)) (combine ps w)) (words (length ps) coins))).
  2:{ intros z _. rewrite sum_over_map. rewrite <- words_size, Nat.mul_comm, <- sum_over_const, <- sum_over_plus.
      apply sum_over_ext. intros w _. cbn [combine]. unfold count. cbn [filter fst snd]. destruct (B x && acc x z); auto. }
  rewrite sum_over_plus, sum_over_const, IH, sum_over_cons.
  assert (E : length coins * (sum_over (fun x => b2n (B x) * count (acc x) coins) ps * length coins ^ (length ps - 1)) =
    sum_over (fun x => b2n (B x) * count (acc x) coins) ps * length coins ^ length ps).
  { destruct ps as [|y ps]; [cbn; lia|]. cbn [length]. replace (S (length ps) - 1) with (length ps) by lia. cbn [Nat.pow]. ring. }
  rewrite E, Nat.mul_add_distr_r. f_equal.
  rewrite (@sum_over_ext _ _ (fun z => length coins ^ length ps * b2n (B x && acc x z))) by (intros; ring).
  rewrite sum_over_mul, Nat.mul_comm. f_equal. rewrite count_sum. destruct (B x); cbn [andb b2n]; [lia|].
  rewrite sum_over_zero; auto.
Qed.

Lemma NoDup_map_in {X Y} (h : X -> Y) l : (forall x y, In x l -> In y l -> h x = h y -> x = y) -> NoDup l -> NoDup (map h l).
Proof.
  intros H N. induction N as [|x l Nx N IH]; [constructor|]. cbn [map]. constructor.
  - intros K. apply in_map_iff in K as (y & E & I). apply Nx. rewrite (H x y); simpl; auto.
  - apply IH. intros y z Hy Hz. apply H; simpl; auto.
Qed.

Lemma pairs_of n v : v < n -> Permutation (filter (touches v) (pairs_below n))
  (map (fun j => (Nat.min v j, Nat.max v j)) (filter (fun j => negb (j =? v)) (seq 0 n))).
Proof.
  intros Hv. apply NoDup_Permutation.
  - apply NoDup_filter, NoDup_pairs_below.
  - apply NoDup_map_in; [|apply NoDup_filter, seq_NoDup].
    intros j k Hj Hk E. apply filter_In in Hj as [_ Hj], Hk as [_ Hk]. injection E as E1 E2.
    rewrite negb_true_iff, Nat.eqb_neq in Hj, Hk. lia.
  - intros [i j]. rewrite filter_In, In_pairs_below, in_map_iff. unfold touches. cbn [fst snd]. rewrite orb_true_iff, !Nat.eqb_eq. split.
    + intros [H [-> | ->]]; [exists j|exists i]; (split; [f_equal; lia|]); apply filter_In; rewrite in_seq, negb_true_iff, Nat.eqb_neq; lia.
    + intros (k & E & H). injection E as <- <-. apply filter_In in H. rewrite in_seq, negb_true_iff, Nat.eqb_neq in H. lia.
Qed.

Section Spacial.
Context {T : Type}.
Variables (n : nat) (e : spacial T) (coins : list nat).
Hypothesis We : simple_graph (sp_graph e).
Hypothesis Ve : vertex_count (sp_graph e) = n.

Lemma sp_mean v : v < n ->
  degrees_total (fun s => sp_graph s) v (sp_randomize e) (words (length (er_pairs n)) coins) =
  sum_over (fun j => count (sp_accepts e (Nat.min v j) (Nat.max v j)) coins) (filter (fun j => negb (j =? v)) (seq 0 n)) *
    length coins ^ (length (er_pairs n) - 1).
Proof using We Ve.
  intros Hv. unfold degrees_total.
  transitivity (sum_over (fun w => count (fun xz => touches v (fst xz) && sp_accepts e (fst (fst xz)) (snd (fst xz)) (snd xz))
    (combine (er_pairs n) w)) (words (length (er_pairs n)) coins)).
  - apply sum_over_ext. intros w Lw. apply words_length in Lw.
    destruct (@sp_randomize_spec T e w We) as (s & E & W & V & _ & _ & _ & J).
    { rewrite Ve. lia. }
    rewrite Ve in *. rewrite E, degree_spec, V by auto. rewrite (proj2 (Nat.ltb_lt v n)) by auto.
    rewrite (degree_touch v W V), <- (count_perm _ (pairs_perm n)). clear E. revert w Lw J.
    generalize (er_pairs n) as ps. induction ps as [|[i j] ps IH]; intros [|z w] Lw J; try discriminate; auto.
    cbn [combine]. unfold count in *. cbn [filter fst snd].
    assert (Az : adjb (sp_graph s) i j = sp_accepts e i j z).
    { apply eq_true_iff_eq. rewrite adjb_adj. apply (J 0); auto. }
    rewrite Az. specialize (IH w ltac:(cbn in Lw; lia) ltac:(intros k i' j' r H1 H2; apply (J (S k)); auto)).
    destruct (touches v (i, j) && sp_accepts e i j z); cbn [length]; rewrite IH; auto.
  - rewrite (@weighted_sum _ (fun ij => sp_accepts e (fst ij) (snd ij)) (touches v) coins). f_equal.
    rewrite (sum_over_perm _ (pairs_perm n)).
    transitivity (sum_over (fun ij => count (sp_accepts e (fst ij) (snd ij)) coins) (filter (touches v) (pairs_below n))).
    + generalize (pairs_below n). intros l. induction l as [|ij l IH]; auto. rewrite sum_over_cons. cbn [filter].
      destruct (touches v ij); cbn [b2n]; rewrite ?sum_over_cons, IH; lia.
    + rewrite (sum_over_perm _ (pairs_of Hv)), sum_over_map. auto.
Qed.
End Spacial.

Lemma sublists_count {X} (B : X -> bool) l : forall k r,
  count (fun s => (count B s =? k) && (count (fun x => negb (B x)) s =? r)) (sublists l) =
  choose (count B l) k * choose (count (fun x => negb (B x)) l) r.
Proof.
  induction l as [|x l IH]; intros k r.
  - destruct k, r; auto.
  - cbn [sublists].
    transitivity (count (fun s => (count B (x :: s) =? k) && (count (fun x => negb (B x)) (x :: s) =? r)) (sublists l) +
      choose (count B l) k * choose (count (fun x => negb (B x)) l) r).
    { rewrite <- IH. unfold count at 1. rewrite filter_app, app_length. f_equal. 
      apply (count_map (fun s => (count B s =? k) && (count (fun x => negb (B x)) s =? r)) (cons x)). }
    destruct (B x) eqn:Bx.
    + replace (count B (x :: l)) with (S (count B l)) by (unfold count; cbn [filter]; rewrite Bx; auto).
      replace (count (fun x => negb (B x)) (x :: l)) with (count (fun x => negb (B x)) l) by (unfold count; cbn [filter]; rewrite Bx; auto).
      destruct k as [|k].
      * rewrite !choose_zero. replace (count _ (sublists l)) with 0; [lia|]. symmetry. rewrite count_sum. apply sum_over_zero. intros s _.
        unfold count at 1. cbn [filter]. rewrite Bx. auto.
      * cbn [choose]. rewrite Nat.mul_add_distr_r, <- (IH k r). f_equal. rewrite !count_sum. apply sum_over_ext. intros s _.
        unfold count. cbn [filter]. rewrite Bx. cbn [negb length]. auto.
    + replace (count B (x :: l)) with (count B l) by (unfold count; cbn [filter]; rewrite Bx; auto).
      replace (count (fun x => negb (B x)) (x :: l)) with (S (count (fun x => negb (B x)) l)) by (unfold count; cbn [filter]; rewrite Bx; auto).
      destruct r as [|r].
      * rewrite !choose_zero. replace (count _ (sublists l)) with 0; [lia|]. symmetry. rewrite count_sum. apply sum_over_zero. intros s _.
        rewrite andb_comm. unfold count at 1. cbn [filter]. rewrite Bx. auto.
      * cbn [choose]. rewrite Nat.mul_add_distr_l, <- (IH k r). f_equal. rewrite !count_sum. apply sum_over_ext. intros s _.
        unfold count. cbn [filter]. rewrite Bx. cbn [negb length]. auto.
Qed.

Section ErM.
Context {T : Type}.
Variables (p : profile) (n m : nat) (e : er_m T).
Hypothesis Oe : erm_ok n m e.

Lemma erm_shares f : looks_at n f ->
  count (fun d => ends (fun s => f (adjb (erm_graph s))) (erm_randomize p e d)) (fixed_draws n m 0) =
  count (fun l => (length l =? m) && f (member l)) (sublists (pairs_below n)) * (fact m * fact (n * (n - 1) / 2 - m)).
Proof using Oe.
  intros Hf. rewrite count_sum.
  set (samp := fun d => match erm_randomize p e d with Done (s', _) => s' | _ => e end).
  rewrite (@sum_over_ext _ _ (fun d => sum_over (fun l => b2n (f (member l)) *
    b2n (BalanceSpec.joins n (member l) (erm_graph (samp d)))) (sublists (pairs_below n)))).
  2:{ intros d Hd. destruct (msamp_ok p Oe Hd) as (s' & E & O). pose proof (wparts p Hf 0 O) as H. cbn [ways] in H.
      unfold samp. rewrite E. cbn [ends]. apply H. }
  rewrite sum_over_exchange, count_sum, (Nat.mul_comm (sum_over _ _)), <- sum_over_mul. apply sum_over_ext. intros l Hl.
  rewrite sum_over_mul. pose proof (mways p 0 (member l) Oe) as H. cbn [ways] in H.
  assert (Tl : tcount n (member l) = length l).
  { unfold tcount, count. f_equal. apply sublist_select; auto; [apply NoDup_pairs_below|]. intros [i j] I.
    apply In_pairs_below in I. cbn [fst snd]. rewrite member_In. rewrite Nat.min_l, Nat.max_r by lia. tauto. }
  unfold samp. rewrite H. destruct (Nat.eqb_spec (length l) m) as [El|Nl]; cbn [andb].
  - rewrite erm_chain by (auto; congruence). cbn [Nat.pow]. ring.
  - rewrite <- H. rewrite sum_over_zero; [cbn [b2n]; ring|]. intros d Hd.
    apply (@never T p n m (member l) 0); [congruence|]. destruct (msamp_ok p Oe Hd) as (s' & -> & O). auto.
Qed.

Lemma erm_degree v k r : v < n -> m = k + r ->
  count (fun d => ends (fun s => degree_is k v (erm_graph s)) (erm_randomize p e d)) (fixed_draws n m 0) =
  choose (n - 1) k * choose (n * (n - 1) / 2 - (n - 1)) r * (fact m * fact (n * (n - 1) / 2 - m)).
Proof using Oe.
  intros Hv Hm. set (f := fun A : nat -> nat -> bool => count (fun ij => touches v ij && A (fst ij) (snd ij)) (pairs_below n) =? k).
  assert (Hf : looks_at n f).
  { intros A B H. unfold f, count. f_equal. f_equal. apply filter_ext_in. intros [i j] I. apply In_pairs_below in I. cbn [fst snd].
    rewrite H by tauto. auto. }
  transitivity (count (fun d => ends (fun s => f (adjb (erm_graph s))) (erm_randomize p e d)) (fixed_draws n m 0)).
  - rewrite !count_sum. apply sum_over_ext. intros d Hd. destruct (msamp_ok p Oe Hd) as (s' & -> & O). cbn [ends].
    unfold degree_is. rewrite degree_spec, (eo_vertices O) by apply O. rewrite (proj2 (Nat.ltb_lt v n)) by auto.
    rewrite (degree_touch v (eo_simple O) (eo_vertices O)). auto.
  - rewrite (erm_shares Hf). f_equal.
    rewrite <- pairs_below_half, <- (touching Hv), <- count_negb, <- sublists_count.
    rewrite !count_sum. apply sum_over_ext. intros l Hl.
    assert (Sl : filter (fun ij => member l (fst ij) (snd ij)) (pairs_below n) = l).
    { apply sublist_select; auto; [apply NoDup_pairs_below|]. intros [i j] I.
      apply In_pairs_below in I. cbn [fst snd]. rewrite member_In. rewrite Nat.min_l, Nat.max_r by lia. tauto. }
    assert (Cl : count (fun ij => touches v ij && member l (fst ij) (snd ij)) (pairs_below n) = count (touches v) l).
    { transitivity (count (touches v) (filter (fun ij => member l (fst ij) (snd ij)) (pairs_below n))); [|rewrite Sl; auto]. unfold count. generalize (pairs_below n). intros ps. induction ps as [|ij ps IH]; auto. cbn [filter].
      destruct (member l (fst ij) (snd ij)); cbn [filter]; destruct (touches v ij); cbn [andb length]; auto. }
    unfold f. rewrite Cl. assert (K : count (touches v) l + count (fun x => negb (touches v x)) l = length l).
    { clear. unfold count. induction l as [|x l IH]; auto. cbn [filter length]. destruct (touches v x); cbn [negb length]; lia. }
    f_equal. apply eq_true_iff_eq. rewrite !andb_true_iff, !Nat.eqb_eq. lia.
Qed.
End ErM.

(** *** All values of a draw *)
Lemma count_upto t M : count (fun z => z <=? t) (seq 0 M) = Nat.min M (t + 1).
Proof.
  induction M as [|M IH]; auto. rewrite seq_S. unfold count in *. rewrite filter_app, app_length, IH. cbn [filter Nat.add].
  destruct (Nat.leb_spec M t); cbn [length]; lia.
Qed.

Lemma count_below (q : Q) M : Z.of_nat M = 9007199254740992%Z -> (0 <= q)%Q -> (q < 1)%Q ->
  let a := count (fun z => Qle_bool (unit_float z) q) (seq 0 M) in
  (q * inject_Z (Z.of_nat M) < inject_Z (Z.of_nat a))%Q /\ (inject_Z (Z.of_nat a) <= q * inject_Z (Z.of_nat M) + 1)%Q.
Proof.
  intros HM Q0 Q1 a. set (x := (q * inject_Z (Z.of_nat M))%Q). set (t := Z.to_nat (Qround.Qfloor x)).
  assert (X0 : (0 <= x)%Q) by (unfold x; rewrite HM; change (inject_Z 9007199254740992) with (9007199254740992 # 1); lra).
  assert (X1 : (x < inject_Z (Z.of_nat M))%Q) by (unfold x; rewrite HM; change (inject_Z 9007199254740992) with (9007199254740992 # 1); lra).
  pose proof (Qround.Qfloor_le x) as F1. pose proof (Qround.Qlt_floor x) as F2.
  assert (F0 : (0 <= Qround.Qfloor x)%Z).
  { apply Z.lt_succ_r. rewrite Zlt_Qlt. unfold Z.succ. change (inject_Z 0) with 0%Q. lra. }
  assert (FM : (Qround.Qfloor x < Z.of_nat M)%Z) by (rewrite Zlt_Qlt; lra).
  assert (Ea : a = t + 1).
  { unfold a. transitivity (count (fun z => z <=? t) (seq 0 M)).
    - unfold count. f_equal. apply filter_ext_in. intros z Hz. apply in_seq in Hz. apply eq_true_iff_eq.
      rewrite Qle_bool_iff, Nat.leb_le. unfold unit_float. rewrite Z.mod_small by lia.
      assert (V : (Z.of_nat z # 9007199254740992 == inject_Z (Z.of_nat z) * (1 # 9007199254740992))%Q).
      { unfold Qeq, inject_Z. cbn [Qnum Qden Qmult]. rewrite Z.mul_1_r. auto. }
      rewrite V. assert (Vx : (x == q * (9007199254740992 # 1))%Q) by (unfold x; rewrite HM; reflexivity).
      transitivity (Z.of_nat z <= Qround.Qfloor x)%Z.
      + split; intros H.
        * apply Z.lt_succ_r. rewrite Zlt_Qlt. unfold Z.succ. lra.
        * rewrite Zle_Qle in H. lra.
      + unfold t. lia.
    - rewrite count_upto. unfold t. lia. }
  assert (Et : Z.of_nat a = (Qround.Qfloor x + 1)%Z) by (rewrite Ea; unfold t; lia).
  rewrite Et. rewrite inject_Z_plus in *. change (inject_Z 1) with 1%Q in *. fold x. split; lra.
Qed.

Lemma count_everything (q : Q) M : (1 <= q)%Q -> count (fun z => Qle_bool (unit_float z) q) (seq 0 M) = M.
Proof.
  intros H. transitivity (count (fun _ : nat => true) (seq 0 M)); [|rewrite count_all, seq_length; auto].
  unfold count. f_equal. apply filter_ext. intros z. apply Qle_bool_iff. unfold unit_float.
  pose proof (Z.mod_pos_bound (Z.of_nat z) 9007199254740992 ltac:(lia)) as B. set (k := (Z.of_nat z mod 9007199254740992)%Z) in *.
  apply Qle_trans with 1%Q; auto. unfold Qle. cbn [Qnum Qden]. lia.
Qed.
