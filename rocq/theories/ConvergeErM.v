(** The chain of [ErEnsembleM] forgets its start. *)
From Verif Require Import Base BaseFacts Sums Containers ContainerSpec ContainerFacts Graph GraphSpec GraphFacts GraphOps
  Rng RngFacts Markov ErM ErMSpec ErMFacts UniformSpec UniformFacts BalanceSpec BalanceFacts BalanceFixed
  SurelyFacts FairSpec ConvergeSpec ConvergeFacts.
From Coq Require Import Factorial.
Set Implicit Arguments.
Unset Strict Implicit.

Section ErM.
Context {T : Type}.
Variables (p : profile) (n m : nat).
Let D := rolls [m; n * (n - 1) / 2 - m].
Let Inv (e : er_m T) := erm_ok n m e.
Let eqv (x y : er_m T) := same_edges (erm_graph x) (erm_graph y).
Let go := nxt (erm_m_step (T := T) p).

Lemma m_step_draw s d : Inv s -> In d D -> exists r s', erm_m_step p s d = Done (r, s', []) /\ Inv s'.
Proof.
  intros O Hd. destruct (erm_ok_lengths O) as (L1 & L2 & L3). apply rolls_two in Hd as (x & y & -> & Hx & Hy).
  destruct (nth_error (erm_current s) x) as [a|] eqn:Ea; [|apply nth_error_None in Ea; lia].
  destruct (nth_error (erm_possible s) y) as [b|] eqn:Eb; [|apply nth_error_None in Eb; lia].
  destruct (@erm_m_step_at T p n m s x y a b O Ea Eb) as (e' & E & O' & _). eauto.
Qed.

Lemma eqv_spec x y : Inv x -> Inv y -> (eqv x y = true <-> forall i j, i < j -> j < n -> (adj (erm_graph x) i j <-> adj (erm_graph y) i j)).
Proof. intros Ox Oy. unfold eqv. rewrite same_edges_spec, (eo_vertices Oy). tauto. Qed.

Lemma meqv_refl x : Inv x -> eqv x x = true.
Proof. intros O. apply eqv_spec; auto. tauto. Qed.

Lemma meqv_sym x y : Inv x -> Inv y -> eqv x y = true -> eqv y x = true.
Proof. intros Ox Oy. rewrite !eqv_spec by auto. intros K i j Hi Hj. symmetry. auto. Qed.

Lemma meqv_trans x y z : Inv x -> Inv y -> Inv z -> eqv x y = true -> eqv y z = true -> eqv x z = true.
Proof. intros Ox Oy Oz. rewrite !eqv_spec by auto. intros K1 K2 i j Hi Hj. rewrite K1 by auto. auto. Qed.

(** A step that takes [a] out and puts [b] in. *)
Lemma move s a b : Inv s -> fst a < snd a -> adj (erm_graph s) (fst a) (snd a) ->
  fst b < snd b -> snd b < n -> ~ adj (erm_graph s) (fst b) (snd b) ->
  exists d, In d D /\ Inv (go s d) /\
    forall q, fst q < snd q -> (adj (erm_graph (go s d)) (fst q) (snd q) <-> (adj (erm_graph s) (fst q) (snd q) /\ q <> a) \/ q = b).
Proof.
  intros O Ha Aa Hb Hb' Ab. destruct a as [a1 a2], b as [b1 b2]. cbn [fst snd] in *.
  assert (Ca : In (a1, a2) (erm_current s)) by (apply (eo_current O); tauto).
  assert (Cb : In (b1, b2) (erm_possible s)) by (apply (eo_possible O); tauto).
  apply In_nth_error in Ca as [x Ex], Cb as [y Ey].
  destruct (@erm_m_step_at T p n m s x y _ _ O Ex Ey) as (e1 & E1 & O1 & _ & Ad).
  destruct (erm_ok_lengths O) as (L1 & L2 & L3).
  exists [x; y]. split.
  - unfold D. cbn [rolls]. apply in_flat_map. exists x. split.
    + apply in_seq. assert (x < length (erm_current s)) by (apply nth_error_Some; congruence). lia.
    + apply in_map. apply in_flat_map. exists y. split; [|simpl; auto].
      apply in_seq. assert (y < length (erm_possible s)) by (apply nth_error_Some; congruence). lia.
  - unfold go, nxt. rewrite E1. split; auto. intros [q1 q2] Hq. cbn [fst snd] in *. apply Ad. auto.
Qed.

Lemma filter_one {X} (f : X -> bool) l : count f l = 1 -> exists a, In a l /\ f a = true /\ forall q, In q l -> f q = true -> q = a.
Proof.
  unfold count. intros E. destruct (filter f l) as [|a [|]] eqn:F; try discriminate.
  assert (I : In a (filter f l)) by (rewrite F; simpl; auto). apply filter_In in I as [I Fa].
  exists a. splits; auto. intros q Iq Fq. assert (J : In q (filter f l)) by (apply filter_In; auto).
  rewrite F in J. destruct J as [J|[]]; auto.
Qed.

Lemma differ_one x y : Inv x -> Inv y -> missing (erm_graph x) (erm_graph y) = 1 ->
  exists a, fst a < snd a /\ snd a < n /\ adj (erm_graph x) (fst a) (snd a) /\ ~ adj (erm_graph y) (fst a) (snd a) /\
    forall q, fst q < snd q -> snd q < n -> q <> a -> adj (erm_graph x) (fst q) (snd q) -> adj (erm_graph y) (fst q) (snd q).
Proof.
  intros Ox Oy E. unfold missing in E. rewrite (eo_vertices Oy) in E. apply filter_one in E as ([a1 a2] & Ia & Fa & U).
  apply In_pairs_below in Ia. cbn [fst snd] in *. rewrite andb_true_iff, negb_true_iff, adjb_adj, adjb_not_adj in Fa.
  exists (a1, a2). cbn [fst snd]. splits; try tauto. intros [q1 q2] Hq Hq' Nq Aq. cbn [fst snd] in *.
  destruct (adj_dec (erm_graph y) q1 q2) as [|K]; auto. destruct Nq. apply (U (q1, q2)).
  - apply In_pairs_below. auto.
  - cbn [fst snd]. rewrite andb_true_iff, negb_true_iff, adjb_adj, adjb_not_adj. auto.
Qed.

Lemma third a b : fst a < snd a -> snd a < n -> fst b < snd b -> snd b < n -> a <> b ->
  exists c : nat * nat, fst c < snd c /\ snd c < n /\ c <> a /\ c <> b.
Proof.
  intros Ha Ha' Hb Hb' Nab. destruct a as [a1 a2], b as [b1 b2]. cbn [fst snd] in *.
  assert (Hn : 3 <= n).
  { destruct (Nat.lt_ge_cases n 3); auto. destruct Nab. f_equal; lia. }
  assert (C : forall q1 q2 : nat * nat, {q1 = q2} + {q1 <> q2}) by (decide equality; apply Nat.eq_dec).
  destruct (C (0, 1) (a1, a2)) as [E1|N1].
  - destruct (C (0, 2) (b1, b2)) as [E2|N2].
    + exists (1, 2). cbn. splits; try lia; congruence.
    + exists (0, 2). cbn. splits; try lia; congruence.
  - destruct (C (0, 1) (b1, b2)) as [E2|N2].
    + destruct (C (0, 2) (a1, a2)) as [E3|N3].
      * exists (1, 2). cbn. splits; try lia; congruence.
      * exists (0, 2). cbn. splits; try lia; congruence.
    + exists (0, 1). cbn. splits; try lia; congruence.
Qed.

Lemma missing_zero x y : Inv x -> Inv y -> missing (erm_graph x) (erm_graph y) = 0 -> eqv x y = true.
Proof.
  intros Ox Oy D0. apply eqv_spec; auto.
  assert (G : forall x y, Inv x -> Inv y -> missing (erm_graph x) (erm_graph y) = 0 ->
    forall i j, i < j -> j < n -> adj (erm_graph x) i j -> adj (erm_graph y) i j).
  { clear. intros x y Ox Oy D0 i j Hi Hj A. destruct (adj_dec (erm_graph y) i j) as [|K]; auto. exfalso.
    unfold missing, count in D0. apply length_zero_iff_nil in D0. rewrite (eo_vertices Oy) in D0.
    assert (I : In (i, j) []) by (rewrite <- D0; apply filter_In; rewrite In_pairs_below; cbn [fst snd];
      rewrite andb_true_iff, negb_true_iff, adjb_adj, adjb_not_adj; auto). destruct I. }
  assert (D1 : missing (erm_graph y) (erm_graph x) = 0).
  { rewrite <- D0. apply missing_sym; try apply Ox; try apply Oy.
    - rewrite (eo_vertices Ox), (eo_vertices Oy). auto.
    - rewrite (eo_edges Ox), (eo_edges Oy). auto. }
  intros i j Hi Hj. split; eauto.
Qed.

Lemma closer_by x y k : Inv x -> Inv y -> missing (erm_graph x) (erm_graph y) = S k ->
  exists d, In d D /\ Inv (go x d) /\ missing (erm_graph (go x d)) (erm_graph y) = k /\
    exists a b, fst a < snd a /\ snd a < n /\ adj (erm_graph x) (fst a) (snd a) /\ fst b < snd b /\ snd b < n /\
      ~ adj (erm_graph x) (fst b) (snd b) /\
      forall q, fst q < snd q -> (adj (erm_graph (go x d)) (fst q) (snd q) <-> (adj (erm_graph x) (fst q) (snd q) /\ q <> a) \/ q = b).
Proof.
  intros Ox Oy E.
  assert (E' : missing (erm_graph y) (erm_graph x) = S k).
  { rewrite <- E. apply missing_sym; try apply Ox; try apply Oy.
    - rewrite (eo_vertices Ox), (eo_vertices Oy). auto.
    - rewrite (eo_edges Ox), (eo_edges Oy). auto. }
  pose proof E as E0. unfold missing, count in E, E'. rewrite (eo_vertices Oy) in E. rewrite (eo_vertices Ox) in E'.
  destruct (filter _ (pairs_below n)) as [|[a1 a2] t] eqn:Fa in E; [discriminate|].
  destruct (filter _ (pairs_below n)) as [|[b1 b2] t'] eqn:Fb in E'; [discriminate|].
  assert (Ia : In (a1, a2) ((a1, a2) :: t)) by (simpl; auto). rewrite <- Fa in Ia.
  assert (Ib : In (b1, b2) ((b1, b2) :: t')) by (simpl; auto). rewrite <- Fb in Ib.
  apply filter_In in Ia as [Ia Fa1], Ib as [Ib Fb1]. apply In_pairs_below in Ia, Ib. cbn [fst snd] in *.
  rewrite andb_true_iff, negb_true_iff, adjb_adj, adjb_not_adj in Fa1, Fb1.
  destruct (@move x (a1, a2) (b1, b2)) as (d & Id & I1 & Ad); cbn [fst snd]; try tauto.
  exists d. splits; auto.
  2:{ exists (a1, a2), (b1, b2). cbn [fst snd]. splits; try tauto. }
  unfold missing in E0 |- *. rewrite (eo_vertices Oy) in *.
  enough (Dm : count (fun ij => adjb (erm_graph x) (fst ij) (snd ij) && negb (adjb (erm_graph y) (fst ij) (snd ij))) (pairs_below n) =
    S (count (fun ij => adjb (erm_graph (go x d)) (fst ij) (snd ij) && negb (adjb (erm_graph y) (fst ij) (snd ij))) (pairs_below n))) by lia.
  apply count_remove_one with (a := (a1, a2)).
  - apply NoDup_pairs_below.
  - apply In_pairs_below. tauto.
  - cbn [fst snd]. rewrite andb_true_iff, negb_true_iff, adjb_adj, adjb_not_adj. tauto.
  - intros q Iq. destruct q as [i j]. apply In_pairs_below in Iq. pose proof (Ad (i, j)) as Aq. cbn [fst snd] in *.
    rewrite !andb_true_iff, !negb_true_iff, !adjb_adj, !adjb_not_adj, Aq by tauto. split; [|tauto].
    intros [[K|K] K']; [tauto|]. injection K as -> ->. tauto.
Qed.

Lemma closer x y k : Inv x -> Inv y -> missing (erm_graph x) (erm_graph y) = S k ->
  exists d, In d D /\ Inv (go x d) /\ missing (erm_graph (go x d)) (erm_graph y) = k.
Proof. intros Ox Oy E. destruct (closer_by Ox Oy E) as (d & I & O & M & _). eauto. Qed.

Hypothesis Hm : 0 < m.
Hypothesis HN : m < n * (n - 1) / 2.

(** One step each, after which fewer edges differ. *)
Lemma approach x y : Inv x -> Inv y -> exists d d', In d D /\ In d' D /\ Inv (go x d) /\ Inv (go y d') /\
  missing (erm_graph (go x d)) (erm_graph (go y d')) <= missing (erm_graph x) (erm_graph y) - 1.
Proof.
  intros Ox Oy.
  assert (Sym : forall x y, Inv x -> Inv y -> missing (erm_graph x) (erm_graph y) = missing (erm_graph y) (erm_graph x)).
  { intros u v Ou Ov. apply missing_sym; try apply Ou; try apply Ov.
    - rewrite (eo_vertices Ou), (eo_vertices Ov). auto.
    - rewrite (eo_edges Ou), (eo_edges Ov). auto. }
  assert (Zero : forall u v, Inv u -> Inv v ->
    (forall q, fst q < snd q -> snd q < n -> (adj (erm_graph u) (fst q) (snd q) <-> adj (erm_graph v) (fst q) (snd q))) ->
    missing (erm_graph u) (erm_graph v) <= 0).
  { intros u v Ou Ov K. unfold missing, count. rewrite (eo_vertices Ov).
    destruct (filter _ (pairs_below n)) as [|q l] eqn:F; [cbn; lia|]. exfalso.
    assert (I : In q (q :: l)) by (simpl; auto). rewrite <- F in I. apply filter_In in I as [I Fq].
    destruct q as [i j]. apply In_pairs_below in I. cbn [fst snd] in *.
    rewrite andb_true_iff, negb_true_iff, adjb_adj, adjb_not_adj in Fq. specialize (K (i, j)). cbn [fst snd] in K. tauto. }
  destruct (missing (erm_graph x) (erm_graph y)) as [|[|k]] eqn:E; cbn [Nat.sub].
  - pose proof (missing_zero Ox Oy E) as Eq. rewrite eqv_spec in Eq by auto.
    destruct (erm_ok_lengths Ox) as (L1 & L2 & L3).
    destruct (erm_current x) as [|[a1 a2] lc] eqn:Ec; [cbn in L1; lia|].
    destruct (erm_possible x) as [|[b1 b2] lp] eqn:Ep; [cbn in L2; lia|].
    assert (Ia : In (a1, a2) (erm_current x)) by (rewrite Ec; simpl; auto). apply (eo_current Ox) in Ia as [Ha Aa].
    assert (Ib : In (b1, b2) (erm_possible x)) by (rewrite Ep; simpl; auto). apply (eo_possible Ox) in Ib as (Hb & Hb' & Ab).
    pose proof (proj2 (adj_lt (eo_simple Ox) Aa)) as Ha'. rewrite (eo_vertices Ox) in Ha'.
    destruct (@move x (a1, a2) (b1, b2)) as (d & Id & I1 & Ad); auto.
    destruct (@move y (a1, a2) (b1, b2)) as (d' & Id' & I1' & Ad'); cbn [fst snd]; auto.
    { apply Eq; auto. } { rewrite <- Eq; auto. }
    exists d, d'. splits; auto. apply Zero; auto. intros [i j] Hi Hj. cbn [fst snd] in Hi, Hj. rewrite Ad, Ad' by auto.
    cbn [fst snd]. rewrite Eq by auto. tauto.
  - destruct (differ_one Ox Oy E) as (a & Ha & Ha' & Aa & Na & Ua).
    rewrite Sym in E by auto. destruct (differ_one Oy Ox E) as (b & Hb & Hb' & Ab & Nb & Ub).
    assert (Nab : a <> b) by (intros ->; tauto).
    destruct (third Ha Ha' Hb Hb' Nab) as (c & Hc & Hc' & Nca & Ncb).
    destruct (adj_dec (erm_graph x) (fst c) (snd c)) as [Ac|Ac].
    + assert (Ac' : adj (erm_graph y) (fst c) (snd c)) by auto.
      destruct (@move x c b) as (d & Id & I1 & Ad); auto.
      destruct (@move y c a) as (d' & Id' & I1' & Ad'); auto.
      exists d, d'. splits; auto. apply Zero; auto. intros q Hq Hq'. rewrite Ad, Ad' by auto. 
      assert (C : forall q1 q2 : nat * nat, {q1 = q2} + {q1 <> q2}) by (decide equality; apply Nat.eq_dec).
      destruct (C q a) as [->|Nqa]; [intuition congruence|]. destruct (C q b) as [->|Nqb]; [intuition congruence|].
      specialize (Ua q Hq Hq' Nqa). specialize (Ub q Hq Hq' Nqb). tauto.
    + assert (Ac' : ~ adj (erm_graph y) (fst c) (snd c)) by auto.
      destruct (@move x a c) as (d & Id & I1 & Ad); auto.
      destruct (@move y b c) as (d' & Id' & I1' & Ad'); auto.
      exists d, d'. splits; auto. apply Zero; auto. intros q Hq Hq'. rewrite Ad, Ad' by auto. 
      assert (C : forall q1 q2 : nat * nat, {q1 = q2} + {q1 <> q2}) by (decide equality; apply Nat.eq_dec).
      destruct (C q a) as [->|Nqa]; [intuition congruence|]. destruct (C q b) as [->|Nqb]; [intuition congruence|].
      specialize (Ua q Hq Hq' Nqa). specialize (Ub q Hq Hq' Nqb). tauto.
  - destruct (closer Ox Oy E) as (d & Id & I1 & E1).
    assert (E2 : missing (erm_graph y) (erm_graph (go x d)) = S k) by (rewrite <- E1; auto).
    destruct (closer Oy I1 E2) as (d' & Id' & I1' & E3).
    exists d, d'. splits; auto. rewrite Sym by auto. lia.
Qed.

Lemma mmeet : forall B x y, Inv x -> Inv y -> missing (erm_graph x) (erm_graph y) <= B -> exists w w',
  Forall (fun d => In d D) w /\ Forall (fun d => In d D) w' /\ length w = B /\ length w' = B /\
  eqv (walk (erm_m_step p) x w) (walk (erm_m_step p) y w') = true.
Proof.
  induction B as [|B IH]; intros x y Ox Oy Hb.
  - exists [], []. splits; auto. apply missing_zero; auto. apply Nat.le_0_r in Hb. exact Hb.
  - destruct (approach Ox Oy) as (d & d' & Id & Id' & O1 & O1' & E).
    destruct (IH _ _ O1 O1') as (w & w' & F & F' & L & L' & Eq); [lia|].
    exists (d :: w), (d' :: w'). splits; cbn [length]; auto.
Qed.

Lemma missing_le x y : Inv x -> Inv y -> missing (erm_graph x) (erm_graph y) <= m.
Proof.
  intros Ox Oy. rewrite <- (eo_edges Ox), (sg_count (eo_simple Ox)). unfold number_of_edges, missing.
  rewrite (eo_vertices Ox), (eo_vertices Oy). unfold count. generalize (pairs_below n). intros l.
  induction l as [|q l IH]; auto. cbn [filter]. destruct (adjb _ _ _), (adjb _ _ _); cbn [andb negb length]; lia.
Qed.

Lemma mlump x y c : Inv x -> Inv y -> Inv c -> eqv x y = true -> eqv x c = false ->
  count (fun d => eqv c (go x d)) D = count (fun d => eqv c (go y d)) D.
Proof.
  intros Ox Oy Oc Exy _.
  assert (G : forall z, Inv z -> count (fun d => eqv c (go z d)) D = if missing (erm_graph z) (erm_graph c) =? 1 then 1 else 0).
  { intros z Oz. rewrite <- (@erm_step_count T _ _ _ p n m z (erm_graph c) Oz); try apply Oc.
    unfold count. f_equal. apply filter_ext_in. intros d Hd. destruct (m_step_draw Oz Hd) as (r & s' & E & O').
    unfold go, nxt. rewrite E. apply eq_true_iff_eq. split; apply meqv_sym; auto. }
  rewrite !G by auto. replace (missing (erm_graph y) (erm_graph c)) with (missing (erm_graph x) (erm_graph c)); auto.
  unfold missing, count. f_equal. apply filter_ext_in. intros [i j] Hq. rewrite (eo_vertices Oc) in Hq.
  apply In_pairs_below in Hq. cbn [fst snd]. f_equal. apply eq_true_iff_eq. rewrite !adjb_adj.
  rewrite eqv_spec in Exy by auto. apply Exy; tauto.
Qed.

Lemma erm_limit e t : Inv e -> count (fun ij => t (fst ij) (snd ij)) (pairs_below n) = m ->
  tends_to (fact m * fact (n * (n - 1) / 2 - m)) (fact (n * (n - 1) / 2)) (erm_m_step p) D e (fun s => joins n t (erm_graph s)).
Proof.
  intros O Ht.
  assert (Lf : length (fixed_draws n m 0) = fact (n * (n - 1) / 2)) by (rewrite fixed_length; cbn; lia).
  rewrite <- Lf.
  assert (LD : length D = m * (n * (n - 1) / 2 - m)).
  { unfold D. rewrite rolls_length. cbn [fold_right]. ring. }
  apply (@limit_from_chain _ _ (erm_m_step p) D Inv eqv (@erm_m_step_local T p) m_step_draw) with (B := m)
    (randomize := erm_randomize p) (e := e) (cd := fixed_draws n m); auto.
  - intros X. rewrite X in LD. cbn [length] in LD. symmetry in LD. apply Nat.eq_mul_0 in LD. clear - LD Hm HN.
    set (N := n * (n - 1) / 2) in *. clearbody N. lia.
  - apply meqv_refl.
  - apply meqv_sym.
  - apply meqv_trans.
  - apply mlump.
  - intros x y Ox Oy E. rewrite eqv_spec in E by auto. apply eq_true_iff_eq. rewrite !joins_iff.
    assert (A : forall ij, In ij (pairs_below n) -> adjb (erm_graph x) (fst ij) (snd ij) = adjb (erm_graph y) (fst ij) (snd ij)).
    { intros [i j] Hq. apply In_pairs_below in Hq. cbn [fst snd]. apply eq_true_iff_eq. rewrite !adjb_adj. apply E; tauto. }
    split; intros K ij Hq; rewrite <- K by auto; [symmetry|]; auto.
  - intros x y Ox Oy. apply mmeet; auto. apply missing_le; auto.
  - apply erm_randomize_local.
  - intros d Hd. destruct (@fixed_run_done T p n m 0 e O d Hd) as (s & E & Os).
    unfold sample_and_steps in E. apply bind_done in E as ([s1 rs1] & E1 & E). cbn in E. injection E as <- <-. eauto.
  - intros X. apply (f_equal (@length _)) in X. rewrite Lf in X. cbn [length] in X. pose proof (lt_O_fact (n * (n - 1) / 2)). lia.
  - intros k. rewrite LD. apply erm_chain; auto.
Qed.

End ErM.
