(** Sampling and steps with a fixed number of edges: lemmas. *)
From Verif Require Import Base BaseFacts Sums Containers ContainerSpec ContainerFacts Graph GraphSpec GraphFacts GraphOps Rng RngFacts
  Markov ErC ErCFacts ErMFacts Spacial SpacialSpec SpacialFacts UniformFacts BalanceSpec UniformSpec ErM ErMSpec MeasureFacts BalanceFacts.
From Coq Require Import QArith.
Set Implicit Arguments.
Unset Strict Implicit.
Local Open Scope nat_scope.

Lemma forallb_ext_in {X} (f g : X -> bool) l : (forall x, In x l -> f x = g x) -> forallb f l = forallb g l.
Proof. induction l as [|a l IH]; intros H; auto. cbn. rewrite H, IH; simpl; auto. intros; apply H; simpl; auto. Qed.

Lemma local_shuffle_down {X} k : forall l : list X, local (shuffle_down k l).
Proof.
  induction k as [|[|k] IH]; intros l; try apply local_done.
  intros rs x rs' H rest. rewrite shuffle_down_step in *.
  apply bind_done in H as ([j t] & E1 & H). apply bind_done in H as (l' & E2 & H).
  rewrite (local_gen_range E1 rest). cbn [bind]. rewrite E2. cbn [bind]. apply IH. auto.
Qed.

Lemma rolls_two a b s : In s (rolls [a; b]) -> exists x y, s = [x; y] /\ x < a /\ y < b.
Proof.
  intros H. apply rolls_In in H. inversion H as [|? x ? ? Hx H1]; subst. inversion H1 as [|? y ? ? Hy H2]; subst.
  inversion H2; subst. eauto.
Qed.

Lemma pairs_below_half n : length (pairs_below n) = n * (n - 1) / 2.
Proof. rewrite <- er_pairs_half. apply Permutation_length. symmetry. apply pairs_perm. Qed.

Definition tcount (n : nat) (t : nat -> nat -> bool) : nat :=
  count (fun ij => t (fst ij) (snd ij)) (pairs_below n).

(** Put [u] out and [v] in. *)
Definition swapped (t : nat -> nat -> bool) (u v : nat * nat) : nat -> nat -> bool :=
  fun i j => if pairb (fst u) (snd u) i j then false else if pairb (fst v) (snd v) i j then true else t i j.

Lemma swapped_at t u v i j n : In u (pairs_below n) -> In v (pairs_below n) -> In (i, j) (pairs_below n) ->
  swapped t u v i j = if pair_dec (i, j) u then false else if pair_dec (i, j) v then true else t i j.
Proof.
  destruct u as [a b], v as [c d]. rewrite !In_pairs_below. intros [H1 _] [H2 _] [H3 _]. unfold swapped. cbn [fst snd].
  pose proof (pairb_iff H1 H3) as P1. pose proof (pairb_iff H2 H3) as P2.
  destruct (pairb a b i j), (pair_dec (i, j) (a, b)); try (exfalso; intuition congruence); auto.
  destruct (pairb c d i j), (pair_dec (i, j) (c, d)); try (exfalso; intuition congruence); auto.
Qed.

Lemma swapped_count n t u v : In u (pairs_below n) -> In v (pairs_below n) ->
  t (fst u) (snd u) = true -> t (fst v) (snd v) = false -> tcount n (swapped t u v) = tcount n t.
Proof.
  intros Iu Iv Tu Tv. unfold tcount. pose proof (NoDup_pairs_below n) as N.
  assert (Nuv : u <> v) by congruence.
  rewrite (@count_remove_one _ (fun ij => t (fst ij) (snd ij))
    (fun ij => if pair_dec ij u then false else t (fst ij) (snd ij)) (pairs_below n) u N Iu Tu).
  2:{ intros x _. destruct (pair_dec x u); split; intros H; try tauto; try (split; tauto); intuition congruence. }
  apply (@count_remove_one _ _ _ (pairs_below n) v N Iv).
  - destruct v as [c d]. cbn [fst snd]. rewrite (swapped_at _ Iu Iv Iv).
    destruct (pair_dec (c, d) u); [congruence|]. destruct (pair_dec (c, d) (c, d)); congruence.
  - intros [i j] I. cbn [fst snd]. rewrite (swapped_at _ Iu Iv I).
    destruct (pair_dec (i, j) u); [intuition congruence|]. destruct (pair_dec (i, j) v) as [E|E].
    + rewrite <- E in Tv. cbn [fst snd] in Tv. rewrite Tv. intuition congruence.
    + tauto.
Qed.

Lemma sum_one {X Y} (f : X -> Y -> bool) l l' : NoDup l -> NoDup l' ->
  (forall x x' y y', In x l -> In x' l -> In y l' -> In y' l' -> f x y = true -> f x' y' = true -> x = x' /\ y = y') ->
  forall b : bool, (b = true <-> exists x y, In x l /\ In y l' /\ f x y = true) ->
  sum_over (fun x => sum_over (fun y => b2n (f x y)) l') l = b2n b.
Proof.
  intros N N' U b B. destruct b.
  - destruct (proj1 B eq_refl) as (x & y & Ix & Iy & F).
    rewrite (@sum_over_ext _ _ (fun x => b2n (existsb (f x) l')) l).
    + rewrite <- count_sum. apply (count_unique (x := x) N Ix).
      * apply existsb_exists. eauto.
      * intros x' Ix' F'. apply existsb_exists in F' as (y' & Iy' & F'). destruct (U x' x y' y); auto.
    + intros x' Ix'. rewrite <- count_sum. destruct (existsb (f x') l') eqn:Ex; cbn [b2n].
      * apply existsb_exists in Ex as (y' & Iy' & F'). apply (count_unique (x := y') N' Iy' F').
        intros z Iz Fz. destruct (U x' x' z y'); auto.
      * apply count_zero. intros z Iz. destruct (f x' z) eqn:Fz; auto. rewrite <- Ex. symmetry.
        apply existsb_exists. eauto.
  - apply sum_over_zero. intros x Ix. apply sum_over_zero. intros y Iy. destruct (f x y) eqn:F; auto.
    discriminate (proj2 B). eauto.
Qed.

Section Graphs.
Context {T A : Type} {C : AdjContainer T A} {L : AdjLaws C}.
Implicit Types (g : graph A).

Lemma joins_iff n t g : joins n t g = true <-> forall ij, In ij (pairs_below n) -> adjb g (fst ij) (snd ij) = t (fst ij) (snd ij).
Proof.
  unfold joins. rewrite forallb_forall.
  split; intros H ij I; specialize (H ij I); [apply eqb_true_iff; auto|rewrite H; apply eqb_reflx].
Qed.

(** The graphs one step away from [t]. *)
Lemma one_step_away n t g : simple_graph g -> vertex_count g = n -> edge_count g = tcount n t ->
  sum_over (fun u => sum_over (fun v => b2n (joins n (swapped t u v) g))
      (filter (fun v => negb (t (fst v) (snd v))) (pairs_below n)))
    (filter (fun u => t (fst u) (snd u)) (pairs_below n)) =
  b2n (count (fun ij => adjb g (fst ij) (snd ij) && negb (t (fst ij) (snd ij))) (pairs_below n) =? 1).
Proof.
  intros W V E. pose proof (NoDup_pairs_below n) as N.
  assert (Sym : count (fun ij => adjb g (fst ij) (snd ij) && negb (t (fst ij) (snd ij))) (pairs_below n) =
                count (fun ij => t (fst ij) (snd ij) && negb (adjb g (fst ij) (snd ij))) (pairs_below n)).
  { rewrite (sg_count W) in E. unfold number_of_edges, tcount in E. rewrite V in E.
    rewrite (count_split _ (fun ij => t (fst ij) (snd ij))) in E. symmetry in E.
    rewrite (count_split _ (fun ij => adjb g (fst ij) (snd ij))) in E.
    rewrite (@count_ext_in _ (fun x => t (fst x) (snd x) && adjb g (fst x) (snd x))
      (fun x => adjb g (fst x) (snd x) && t (fst x) (snd x))) in E by (intros; apply andb_comm).
    lia. }
  assert (J : forall u v, In u (filter (fun u => t (fst u) (snd u)) (pairs_below n)) ->
    In v (filter (fun v => negb (t (fst v) (snd v))) (pairs_below n)) ->
    joins n (swapped t u v) g = true -> forall x, In x (pairs_below n) ->
      adjb g (fst x) (snd x) = if pair_dec x u then false else if pair_dec x v then true else t (fst x) (snd x)).
  { intros u v Iu Iv Jo [i j] Ix. apply filter_In in Iu, Iv. cbn [fst snd]. rewrite <- (@swapped_at t u v i j n) by tauto.
    apply (proj1 (joins_iff n _ g) Jo (i, j) Ix). }
  assert (Uq : forall u v x, In u (filter (fun u => t (fst u) (snd u)) (pairs_below n)) ->
    In v (filter (fun v => negb (t (fst v) (snd v))) (pairs_below n)) ->
    joins n (swapped t u v) g = true -> In x (pairs_below n) ->
      ((t (fst x) (snd x) && negb (adjb g (fst x) (snd x)) = true <-> x = u) /\
       (adjb g (fst x) (snd x) && negb (t (fst x) (snd x)) = true <-> x = v))).
  { intros u v x Iu Iv Jo Ix. rewrite (J u v Iu Iv Jo x Ix). apply filter_In in Iu as [_ Tu], Iv as [_ Tv].
    apply negb_true_iff in Tv. rewrite !andb_true_iff, !negb_true_iff.
    destruct (pair_dec x u) as [->|Nu]; [rewrite Tu; split; intuition congruence|].
    destruct (pair_dec x v) as [->|Nv]; [rewrite Tv; split; intuition congruence|].
    destruct (t (fst x) (snd x)); split; intuition congruence. }
  apply sum_one; try (apply NoDup_filter; auto).
  - intros x x' y y' Ix Ix' Iy Iy' F F'.
    assert (Px : In x (pairs_below n)) by (apply filter_In in Ix; tauto).
    assert (Py : In y (pairs_below n)) by (apply filter_In in Iy; tauto).
    destruct (Uq x y x Ix Iy F Px) as [H1 _], (Uq x' y' x Ix' Iy' F' Px) as [H2 _].
    destruct (Uq x y y Ix Iy F Py) as [_ H3], (Uq x' y' y Ix' Iy' F' Py) as [_ H4]. intuition.
  - rewrite Nat.eqb_eq. split.
    + intros H. pose proof H as H'. rewrite Sym in H'. destruct (count_one H) as (v & Iv & Fv & Uv).
      destruct (count_one H') as (u & Iu & Fu & Uu). exists u, v.
      apply andb_true_iff in Fv as [Gv Tv], Fu as [Tu Gu]. splits.
      * apply filter_In. auto.
      * apply filter_In. auto.
      * apply joins_iff. intros [i j] I. cbn [fst snd]. rewrite (@swapped_at t u v i j n) by auto.
        specialize (Uv (i, j) I). specialize (Uu (i, j) I). cbn [fst snd] in *.
        destruct (pair_dec (i, j) u) as [<-|Nu]; [apply negb_true_iff; auto|].
        destruct (pair_dec (i, j) v) as [<-|Nv]; [auto|].
        destruct (adjb g i j), (t i j); cbn in *; auto; exfalso; auto.
    + intros (u & v & Iu & Iv & F). assert (Pv : In v (pairs_below n)) by (apply filter_In in Iv; tauto).
      apply (count_unique (x := v) N Pv).
      * apply (Uq u v v Iu Iv F Pv). auto.
      * intros y Iy. apply (Uq u v y Iu Iv F Iy).
Qed.
End Graphs.

(** A graph with prescribed edges. *)
Lemma drawn_graph {T} (g : graph (node_container T)) n t : simple_graph g -> vertex_count g = n ->
  exists h : graph (node_container T), simple_graph h /\ vertex_count h = n /\
  forall i j, i < j -> j < n -> adjb h i j = t i j.
Proof.
  intros W0 V0. set (e := mk_erc g 0%Q 0%Q).
  destruct (@erc_randomize_spec T e (map (fun ij : nat * nat => if t (fst ij) (snd ij) then 0 else 1) (er_pairs n)))
    as (e' & _ & W & V & _ & _ & _ & _ & J); auto.
  { cbn [e erc_graph]. rewrite V0, map_length. auto. }
  cbn [e erc_graph erc_prob] in *. rewrite V0 in *. exists (erc_graph e'). splits; auto.
  intros i j Hi Hj. assert (I : In (i, j) (er_pairs n)) by (apply er_pairs_In; auto).
  destruct (In_nth_error _ _ I) as [k Hk]. apply eq_true_iff_eq. rewrite adjb_adj.
  rewrite (J k i j (if t i j then 0 else 1) Hk).
  - destruct (t i j); split; intros H; try discriminate; auto.
  - rewrite nth_error_map, Hk. auto.
Qed.

Section ErM.
Context {T : Type}.
Implicit Types (e : er_m T).

Lemma erm_randomize_local p e : local (erm_randomize p e).
Proof.
  unfold erm_randomize. cbv zeta. apply (local_bind (@local_shuffle_down _ _ (erm_all e))). intros all.
  repeat (apply local_pure; intros). apply local_done.
Qed.

Lemma erm_m_step_local p e : local (erm_m_step p e).
Proof.
  unfold erm_m_step. apply (local_bind (@local_gen_range _)). intros i. apply (local_bind (@local_gen_range _)). intros j.
  apply local_pure. intros a. apply local_pure. intros b. cbv zeta. apply local_pure. intros e'. apply local_done.
Qed.

Lemma fixed_length n m k : length (fixed_draws n m k) = fact (n * (n - 1) / 2) * (m * (n * (n - 1) / 2 - m)) ^ k.
Proof.
  induction k as [|k IH]; cbn [fixed_draws Nat.pow].
  - rewrite rolls_length, Nat.mul_1_r. generalize (n * (n - 1) / 2) as N.
    induction N as [|[|N] IHN]; auto. change (down (S (S N))) with (S (S N) :: down (S N)).
    cbn [fold_right]. rewrite IHN. auto.
  - rewrite <- (Nat.mul_1_r (length _)), <- sum_over_const, sum_over_flat_map.
    rewrite (@sum_over_ext _ _ (fun _ => m * (n * (n - 1) / 2 - m))).
    + rewrite sum_over_const, IH. ring.
    + intros d _. rewrite sum_over_map, sum_over_const, rolls_length. cbn [fold_right]. ring.
Qed.

Lemma fixed_run_done p n m k e : erm_ok n m e -> forall d, In d (fixed_draws n m k) ->
  exists s, sample_and_steps (erm_randomize p) (erm_m_step p) k e d = Done (s, []) /\ erm_ok n m s.
Proof.
  intros O. destruct (erm_ok_lengths O) as (L1 & L2 & L3). induction k as [|k IH]; intros d H; cbn [fixed_draws] in H.
  - rewrite <- L3 in H. destruct (rolls_shuffle H) as (all & Es & _).
    destruct (@erm_randomize_spec T p n m e d) with (7 := Es) as (e' & E' & O' & _); auto; try apply O.
    exists e'. unfold sample_and_steps. rewrite E'. auto.
  - apply in_flat_map in H as (d0 & H & Hd). apply in_map_iff in Hd as (s & <- & Hs).
    destruct (IH d0 H) as (e1 & E1 & O1).
    apply rolls_two in Hs as (x & y & -> & Hx & Hy).
    destruct (@erm_m_step_total T p n m e1 x y [] O1) as (r & e2 & E2); [lia|]. exists e2.
    change (S k) with (1 + k). rewrite run_next.
    rewrite (run_local (@erm_randomize_local p) (@erm_m_step_local p) E1). cbn [bind app]. rewrite E2. split; auto.
    apply (erm_m_step_spec O1 E2).
Qed.

Lemma erm_chain p n m k e : erm_ok n m e -> forall t, tcount n t = m ->
  count (fun ds => ends (fun s => joins n t (erm_graph s)) (sample_and_steps (erm_randomize p) (erm_m_step p) k e ds)) (fixed_draws n m k) =
  fact m * fact (n * (n - 1) / 2 - m) * (m * (n * (n - 1) / 2 - m)) ^ k.
Proof.
  intros O. destruct (erm_ok_lengths O) as (L1 & L2 & L3). induction k as [|k IH]; intros t Ht;
    destruct (drawn_graph t (eo_simple O) (eo_vertices O)) as (h & Wh & Vh & Jh).
  - cbn [fixed_draws Nat.pow]. rewrite Nat.mul_1_r.
    assert (Eh : edge_count h = m).
    { rewrite (sg_count Wh), <- Ht. unfold number_of_edges, tcount. rewrite Vh. apply count_ext_in.
      intros [i j] I. apply In_pairs_below in I. apply Jh; tauto. }
    assert (Js : forall g : graph (node_container T), joins n t g = same_edges g h).
    { intros g. unfold joins, same_edges. rewrite Vh. apply forallb_ext_in. intros [i j] I. apply In_pairs_below in I.
      cbn [fst snd]. rewrite Jh by tauto. auto. }
    rewrite <- L3. rewrite <- (erm_count p (eo_simple O) (eo_vertices O) (eo_m O) (eo_all O) L1 L2 Wh Vh Eh).
    apply count_ext_in. intros d Hd. destruct (rolls_shuffle Hd) as (all & Es & _).
    destruct (@erm_randomize_spec T p n m e d) with (7 := Es) as (e' & E' & O' & _); auto; try apply O.
    unfold sample_and_steps. rewrite E'. cbn [bind m_steps ends]. apply Js.
  - cbn [fixed_draws]. rewrite count_sum, sum_over_flat_map.
    assert (Eh : edge_count h = m).
    { rewrite (sg_count Wh), <- Ht. unfold number_of_edges, tcount. rewrite Vh. apply count_ext_in.
      intros [i j] I. apply In_pairs_below in I. apply Jh; tauto. }
    assert (Js : forall g : graph (node_container T), joins n t g = same_edges g h).
    { intros g. unfold joins, same_edges. rewrite Vh. apply forallb_ext_in. intros [i j] I. apply In_pairs_below in I.
      cbn [fst snd]. rewrite Jh by tauto. auto. }
    set (N := n * (n - 1) / 2) in *.
    transitivity (sum_over (fun d => sum_over (fun u => sum_over (fun v =>
        b2n (ends (fun s => joins n (swapped t u v) (erm_graph s)) (sample_and_steps (erm_randomize p) (erm_m_step p) k e d)))
        (filter (fun v => negb (t (fst v) (snd v))) (pairs_below n)))
      (filter (fun u => t (fst u) (snd u)) (pairs_below n))) (fixed_draws n m k)).
    { apply sum_over_ext. intros d Hd. destruct (fixed_run_done p O Hd) as (s & Es & Os). rewrite Es. cbn [ends].
      rewrite one_step_away; [|apply Os|apply Os|rewrite Ht; apply Os].
      rewrite sum_over_map.
      rewrite (@sum_over_ext _ _ (fun ds => b2n (match erm_m_step p s ds with
                                                | Done (_, e', _) => same_edges (erm_graph e') h
                                                | _ => false
                                                end))).
      - rewrite <- count_sum. unfold N. rewrite (erm_step_count p Os Wh Vh Eh). unfold missing. rewrite Vh.
        rewrite (@count_ext_in _ (fun ij => adjb (erm_graph s) (fst ij) (snd ij) && negb (adjb h (fst ij) (snd ij)))
          (fun ij => adjb (erm_graph s) (fst ij) (snd ij) && negb (t (fst ij) (snd ij)))).
        + destruct (count _ _ =? 1); auto.
        + intros [i j] I. apply In_pairs_below in I. cbn [fst snd]. rewrite Jh by tauto. auto.
      - intros ds Hs. change (S k) with (1 + k). rewrite run_next.
        rewrite (run_local (@erm_randomize_local p) (@erm_m_step_local p) Es). cbn [bind app].
        apply rolls_two in Hs as (x & y & -> & Hx & Hy).
        destruct (@erm_m_step_total T p n _ s x y [] Os) as (r & e2 & E2); [fold N; lia|]. rewrite E2. cbn [bind ends].
        rewrite Js. auto. }
    rewrite sum_over_exchange.
    rewrite (@sum_over_ext _ _ (fun u => (N - m) * (fact m * fact (N - m) * (m * (N - m)) ^ k))).
    + rewrite sum_over_const. fold (count (fun u : nat * nat => t (fst u) (snd u)) (pairs_below n)).
      fold (tcount n t). rewrite Ht. cbn [Nat.pow]. ring.
    + intros u Iu. apply filter_In in Iu as [Iu Tu]. rewrite sum_over_exchange.
      rewrite (@sum_over_ext _ _ (fun v => fact m * fact (N - m) * (m * (N - m)) ^ k)).
      * rewrite sum_over_const. f_equal.
        pose proof (filter_length (fun v : nat * nat => t (fst v) (snd v)) (pairs_below n)) as F.
        rewrite pairs_below_half in F. fold N in F. unfold tcount, count in Ht. lia.
      * intros v Iv. apply filter_In in Iv as [Iv Tv]. rewrite <- count_sum. apply IH.
        rewrite swapped_count; auto. apply negb_true_iff. auto.
Qed.
End ErM.
