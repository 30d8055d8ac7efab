(** Proofs about [ErEnsembleM]. *)
From Verif Require Import Base BaseFacts Sums Containers ContainerSpec ContainerFacts Graph GraphSpec GraphFacts GraphOps GraphBuild Rng RngFacts Markov EnsembleFacts ErC ErCFacts ErM ErMSpec.
Set Implicit Arguments.
Unset Strict Implicit.

Lemma er_pairs_length n : 2 * length (er_pairs n) = n * (n - 1).
Proof.
  unfold er_pairs. assert (G : forall l, (forall i, In i l -> i < n) ->
    length (flat_map (fun i => map (pair i) (seq (i + 1) (n - (i + 1)))) l) =
    sum_over (fun i => n - (i + 1)) l).
  { induction l as [|a l IH]; intros H; auto. cbn [flat_map]. rewrite app_length, map_length, seq_length.
    rewrite sum_over_cons, IH; auto. intros; apply H; simpl; auto. }
  rewrite G by (intros i Hi; apply in_seq in Hi; lia). clear G.
  assert (G : forall k, k <= n -> 2 * sum_over (fun i => n - (i + 1)) (seq 0 k) = k * (2 * n - k - 1)).
  { induction k as [|k IH]; intros H; auto. rewrite seq_S, sum_over_app, sum_over_one, Nat.mul_add_distr_l, IH by lia.
    cbn [Nat.add]. nia. }
  rewrite G by lia. f_equal. lia.
Qed.

Lemma er_pairs_half n : length (er_pairs n) = Nat.div (n * (n - 1)) 2.
Proof. rewrite <- er_pairs_length, Nat.mul_comm, Nat.div_mul; lia. Qed.

Lemma lists_once_perm l l' P : lists_once l P -> lists_once l' P -> Permutation l l'.
Proof.
  intros [N H] [N' H']. apply NoDup_Permutation; auto. intros [i j]. rewrite H, H'. tauto.
Qed.

Lemma In_upd_NoDup {X} (l : list X) i x y z :
  NoDup l -> nth_error l i = Some y -> ~ In x l ->
  (In z (upd l i x) <-> z = x \/ (In z l /\ z <> y)).
Proof.
  intros N E Hx. split.
  - intros H. apply In_nth_error in H as [k Hk]. rewrite nth_error_upd in Hk.
    destruct (Nat.eqb_spec i k) as [->|Ne]; cbn [andb] in Hk.
    + destruct (Nat.ltb_spec k (length l)) as [Hl|Hl]; [left; congruence|].
      apply nth_error_None in Hl. congruence.
    + right. split; [eapply nth_error_In; eauto|]. intros ->. apply Ne.
      apply (proj1 (NoDup_nth_error l) N); [apply nth_error_Some; congruence|congruence].
  - intros [->|[H Ne]].
    + eapply nth_error_In. apply nth_error_upd_same. apply nth_error_Some. congruence.
    + apply In_nth_error in H as [k Hk]. apply nth_error_In with k.
      rewrite nth_error_upd_other; auto. intros ->. congruence.
Qed.

Lemma upd_NoDup {X} (l : list X) i x y :
  NoDup l -> nth_error l i = Some y -> ~ In x l -> NoDup (upd l i x).
Proof.
  intros N E Hx. apply NoDup_nth_error. intros a b Ha. rewrite upd_length in Ha.
  rewrite !nth_error_upd.
  destruct (Nat.eqb_spec i a) as [Ea|Na], (Nat.eqb_spec i b) as [Eb|Nb]; cbn [andb]; try congruence.
  - destruct (Nat.ltb_spec i (length l)) as [_|]; [|lia]. intros H. symmetry in H.
    destruct Hx. eapply nth_error_In; eauto.
  - destruct (Nat.ltb_spec i (length l)) as [Hb|Hb]; intros H.
    + destruct Hx. eapply nth_error_In; eauto.
    + apply nth_error_None in Hb. congruence.
  - intros H. apply (proj1 (NoDup_nth_error l) N); auto.
Qed.

Lemma In_pairs_below n i j : In (i, j) (pairs_below n) <-> i < j /\ j < n.
Proof.
  unfold pairs_below. rewrite in_flat_map. split.
  - intros (k & Hk & H). apply in_map_iff in H as (x & E & H). injection E as -> ->.
    apply in_seq in Hk, H. lia.
  - intros [H1 H2]. exists j. split; [apply in_seq; lia|]. apply in_map_iff. exists i.
    split; auto. apply in_seq. lia.
Qed.

Lemma NoDup_pairs_below n : NoDup (pairs_below n).
Proof.
  induction n as [|n IH]; [constructor|]. unfold pairs_below. rewrite seq_S, flat_map_app.
  cbn [flat_map Nat.add]. rewrite app_nil_r. apply NoDup_app_iff. splits; auto.
  - apply FinFun.Injective_map_NoDup; [|apply seq_NoDup]. intros x y E. congruence.
  - intros [i j] H1 H2. apply In_pairs_below in H1. apply in_map_iff in H2 as (x & E & _).
    injection E as -> ->. lia.
Qed.

Section Facts.
Context {T : Type}.
Implicit Types g : graph (node_container T).
Implicit Types e h : er_m T.

Lemma add_edge_unwrap_done p g i j g' :
  add_edge_unwrap p g (i, j) = Done g' <-> add_edge p g i j = Done (Ok tt, g').
Proof.
  unfold add_edge_unwrap. cbn [fst snd]. split.
  - intros E. apply bind_done in E as ([r g1] & E & E1). destruct r as [[]|]; [|discriminate].
    cbn [unwrap bind] in E1. congruence.
  - intros ->. reflexivity.
Qed.

Lemma remove_edge_unwrap_done p g i j g' :
  remove_edge_unwrap p g (i, j) = Done g' <-> remove_edge p g i j = Done (Ok tt, g').
Proof.
  unfold remove_edge_unwrap. cbn [fst snd]. split.
  - intros E. apply bind_done in E as ([r g1] & E & E1). destruct r as [[]|]; [|discriminate].
    cbn [unwrap bind] in E1. congruence.
  - intros ->. reflexivity.
Qed.

Lemma add_loop_spec p l : forall g,
  simple_graph g -> (forall i j, In (i, j) l -> i < j /\ j < vertex_count g /\ ~ adj g i j) ->
  NoDup l ->
  exists g', foldM (add_edge_unwrap p) g l = Done g' /\ simple_graph g' /\
    vertex_count g' = vertex_count g /\ payloads g' = payloads g /\
    edge_count g' = edge_count g + length l /\
    forall x y, adj g' x y <-> adj g x y \/ In (x, y) l \/ In (y, x) l.
Proof.
  induction l as [|[i j] l IH]; intros g W R N.
  - exists g. cbn [foldM]. splits; auto. simpl. tauto.
  - apply NoDup_cons_iff in N as [Nij N].
    destruct (R i j (or_introl eq_refl)) as (Hij & Hj & Hnew). cbn [foldM].
    destruct (@add_edge_absent _ _ _ _ p g i j) as (g1 & E & _); auto; try lia.
    rewrite (proj2 (add_edge_unwrap_done p g i j g1) E). cbn [bind].
    destruct (add_edge_ok W E) as (_ & W1 & V1 & C1 & P1 & A1).
    destruct (IH g1) as (g' & E' & W' & V' & P' & C' & A'); auto.
    { intros a b Hab. destruct (R a b (or_intror Hab)) as (X1 & X2 & X3). splits; try lia.
      rewrite A1. intros [Y|[[-> ->]|[-> ->]]]; auto. lia. }
    exists g'. splits; auto; try congruence.
    + rewrite C', C1. simpl. lia.
    + intros x y. rewrite A', A1. simpl. unfold is_pair. split.
      * intros [[H|[[-> ->]|[-> ->]]]|H]; tauto.
      * intros [H|[[H|H]|[H|H]]]; try tauto; injection H as <- <-; tauto.
Qed.

Lemma erm_randomize_spec p n m e rs :
  simple_graph (erm_graph e) -> vertex_count (erm_graph e) = n -> erm_m e = m ->
  lists_once (erm_all e) (fun i j => i < j /\ j < n) ->
  length (erm_current e) = m -> length (erm_possible e) + m = length (erm_all e) ->
  forall all rs', shuffle (erm_all e) rs = Done (all, rs') ->
  exists e', erm_randomize p e rs = Done (e', rs') /\ erm_ok n m e' /\
    payloads (erm_graph e') = payloads (erm_graph e) /\
    erm_all e' = all /\ erm_all e' = erm_current e' ++ erm_possible e'.
Proof.
  intros W V M [N A] Lc Lp all rs' Es.
  pose proof (shuffle_done Es) as P.
  assert (Na : NoDup all) by (eapply Permutation_NoDup; eauto).
  assert (Aa : forall i j, In (i, j) all <-> i < j /\ j < n).
  { intros i j. rewrite <- A. split; intros H; [rewrite P|rewrite <- P]; auto. }
  assert (La : length all = length (erm_all e)) by (symmetry; apply Permutation_length; auto).
  unfold erm_randomize. rewrite Es. cbn [bind].
  destruct (clear_edges_spec W) as (W0 & V0 & C0 & P0 & N0).
  unfold slice_to, slice_from. rewrite M.
  destruct (Nat.leb_spec m (length all)) as [Hm|Hm]; [|lia]. cbn [bind].
  unfold copy_from_slice. rewrite firstn_length_le, Lc, Nat.eqb_refl by auto. cbn [bind].
  rewrite skipn_length.
  rewrite <- (firstn_skipn m all) in Na. apply NoDup_app_iff in Na as (N1 & N2 & N3).
  assert (Sp : forall x, In x all <-> In x (firstn m all) \/ In x (skipn m all)).
  { intros x. rewrite <- in_app_iff, firstn_skipn. tauto. }
  destruct (@add_loop_spec p (firstn m all) (clear_edges (erm_graph e)))
    as (g' & E' & W' & V' & P' & C' & A'); auto.
  { intros i j H. assert (In (i, j) all) as Hi by (apply Sp; auto). apply Aa in Hi.
    splits; try lia. unfold adj. rewrite N0. auto. }
  rewrite E'. cbn [bind].
  assert (length (erm_possible e) =? length all - m = true) as -> by (apply Nat.eqb_eq; lia).
  cbn [bind]. eexists. split; [reflexivity|].
  assert (Ag : forall i j, i < j -> adj g' i j <-> In (i, j) (firstn m all)).
  { intros i j Hl. rewrite A'. unfold adj. rewrite N0. split.
    - intros [[]|[H|H]]; auto. assert (In (j, i) all) as Hi by (apply Sp; auto). apply Aa in Hi. lia.
    - auto. }
  splits; cbn [erm_graph erm_all erm_current erm_possible]; auto.
  - constructor; cbn [erm_graph erm_all erm_current erm_possible erm_m]; auto.
    + lia.
    + rewrite C', C0, firstn_length_le; auto.
    + split; auto. eapply Permutation_NoDup; eauto.
    + split; auto. intros i j. split.
      * intros H. assert (In (i, j) all) as Hi by (apply Sp; auto). apply Aa in Hi.
        split; [tauto|]. apply Ag; tauto.
      * intros [H1 H2]. apply Ag; auto.
    + split; auto. intros i j. split.
      * intros H. assert (In (i, j) all) as Hi by (apply Sp; auto). apply Aa in Hi.
        splits; try tauto. rewrite Ag by tauto. intros X. exact (N3 _ X H).
      * intros (H1 & H2 & H3). rewrite Ag in H3 by auto.
        assert (In (i, j) all) as Hi by (apply Aa; auto). apply Sp in Hi. tauto.
  - congruence.
  - symmetry. apply firstn_skipn.
Qed.

Lemma erm_ok_lengths n m e : erm_ok n m e ->
  length (erm_current e) = m /\ length (erm_possible e) + m = length (erm_all e) /\
  length (erm_all e) = Nat.div (n * (n - 1)) 2.
Proof.
  intros [W V Ce M [Na Aa] [Nc Ac] [Np Ap]].
  assert (Pall : Permutation (erm_all e) (er_pairs n)).
  { apply NoDup_Permutation; auto; [apply er_pairs_NoDup|]. intros [i j]. rewrite Aa, er_pairs_In. tauto. }
  assert (Pcp : Permutation (erm_all e) (erm_current e ++ erm_possible e)).
  { apply NoDup_Permutation; auto.
    - apply NoDup_app_iff. splits; auto. intros [i j] H1 H2. apply Ac in H1. apply Ap in H2. tauto.
    - intros [i j]. rewrite in_app_iff, Aa, Ac, Ap.
      destruct (adj_dec (erm_graph e) i j) as [H|H]; try tauto.
      pose proof (adj_lt W H). rewrite V in *. tauto. }
  assert (Lc : length (erm_current e) = m).
  { rewrite <- Ce, (sg_count W). unfold number_of_edges, count. rewrite V.
    apply Permutation_length. apply NoDup_Permutation; auto.
    - apply NoDup_filter. apply NoDup_pairs_below.
    - intros [i j]. rewrite Ac, filter_In, In_pairs_below. cbn [fst snd]. rewrite adjb_adj.
      split; [|tauto]. intros [H1 H2]. pose proof (adj_lt W H2). rewrite V in *. tauto. }
  splits; auto.
  - apply Permutation_length in Pcp. rewrite app_length in Pcp. lia.
  - rewrite (Permutation_length Pall). apply er_pairs_half.
Qed.

(** ** Steps *)

(** Exchange the edge [a] at position [i] of the current edges with [b] at position
    [j] of the possible ones. *)
Lemma erm_step_spec p n m e a i b j :
  erm_ok n m e -> nth_error (erm_current e) i = Some a ->
  nth_error (erm_possible e) j = Some b ->
  exists e', erm_step p e (mk_esm a i b j) = Done e' /\ erm_ok n m e' /\
    payloads (erm_graph e') = payloads (erm_graph e) /\ erm_all e' = erm_all e /\
    erm_current e' = upd (erm_current e) i b /\
    erm_possible e' = upd (erm_possible e) j a /\
    (forall x y, adj (erm_graph e') x y <->
       (adj (erm_graph e) x y /\ ~ is_pair (fst a) (snd a) x y) \/ is_pair (fst b) (snd b) x y).
Proof.
  intros [W V Ce M [Na Aa] [Nc Ac] [Np Ap]] Ea Eb. destruct a as [a1 a2], b as [b1 b2].
  pose proof (nth_error_In _ _ Ea) as Ia. pose proof (nth_error_In _ _ Eb) as Ib.
  pose proof (proj1 (Ac _ _) Ia) as [La Ha]. pose proof (proj1 (Ap _ _) Ib) as (Lb & Hb & Hn).
  unfold erm_step. cbn [esm_removed esm_inserted esm_i_removed esm_i_inserted].
  destruct (@remove_edge_present _ _ _ _ p (erm_graph e) a1 a2 W Ha) as (g1 & E1 & _).
  rewrite (proj2 (remove_edge_unwrap_done p (erm_graph e) a1 a2 g1) E1). cbn [bind].
  destruct (remove_edge_ok W E1) as (_ & W1 & V1 & C1 & P1 & A1).
  destruct (@add_edge_absent _ _ _ _ p g1 b1 b2) as (g2 & E2 & _); auto; try lia.
  { rewrite A1. tauto. }
  rewrite (proj2 (add_edge_unwrap_done p g1 b1 b2 g2) E2). cbn [bind].
  destruct (add_edge_ok W1 E2) as (_ & W2 & V2 & C2 & P2 & A2).
  unfold vget. rewrite Ea, Eb. cbn [bind]. eexists. split; [reflexivity|].
  assert (Nbc : ~ In (b1, b2) (erm_current e)) by (intros X; apply Ac in X; tauto).
  assert (Nap : ~ In (a1, a2) (erm_possible e)) by (intros X; apply Ap in X; tauto).
  assert (Ag : forall x y, adj g2 x y <->
       (adj (erm_graph e) x y /\ ~ is_pair a1 a2 x y) \/ is_pair b1 b2 x y)
    by (intros x y; rewrite A2, A1; tauto).
  splits; cbn [erm_graph erm_all erm_current erm_possible]; auto; try congruence.
  constructor; cbn [erm_graph erm_all erm_current erm_possible erm_m]; auto; try lia.
  - split; auto.
  - split; [eapply upd_NoDup; eauto|]. intros x y.
    rewrite (In_upd_NoDup (x := (b1, b2)) (y := (a1, a2)) (x, y) Nc Ea Nbc), Ac, Ag. unfold is_pair. split.
    + intros [H|[[H1 H2] H3]].
      * injection H as -> ->. split; auto.
      * split; auto. left. split; auto. intros [[-> ->]|[-> ->]]; [congruence|lia].
    + intros [H1 [[H2 H3]|[[-> ->]|[-> ->]]]]; auto; try lia.
      right. split; auto. intros X. injection X as -> ->. tauto.
  - split; [eapply upd_NoDup; eauto|]. intros x y.
    rewrite (In_upd_NoDup (x := (a1, a2)) (y := (b1, b2)) (x, y) Np Eb Nap), Ap, Ag. unfold is_pair. split.
    + intros [H|[(H1 & H2 & H3) H4]].
      * injection H as -> ->. pose proof (adj_lt W Ha). splits; auto; try lia.
        intros [[_ X]|[[X1 X2]|[X1 X2]]]; [tauto|congruence|lia].
      * splits; auto. intros [[X _]|[[X1 X2]|[X1 X2]]]; [tauto|congruence|lia].
    + intros (H1 & H2 & H3). destruct (adj_dec (erm_graph e) x y) as [H|H].
      * left. destruct (Nat.eq_dec x a1), (Nat.eq_dec y a2); subst; auto; exfalso; apply H3;
          left; split; auto; lia.
      * right. split; auto. intros X. injection X as -> ->. tauto.
Qed.

Lemma erm_m_step_spec p n m e rs s e' rs' :
  erm_ok n m e -> erm_m_step p e rs = Done (s, e', rs') ->
  erm_ok n m e' /\ erm_step p e s = Done e' /\
  nth_error (erm_current e) (esm_i_removed s) = Some (esm_removed s) /\
  nth_error (erm_possible e) (esm_i_inserted s) = Some (esm_inserted s).
Proof.
  intros O E. unfold erm_m_step in E. apply bind_done in E as ([i rs1] & E1 & E).
  apply bind_done in E as ([j rs2] & E2 & E). apply bind_done in E as (a & E3 & E).
  apply bind_done in E as (b & E4 & E). cbv zeta in E. apply bind_done in E as (e1 & E5 & E).
  injection E as <- <- <-. cbn [esm_removed esm_inserted esm_i_removed esm_i_inserted].
  unfold vget in E3, E4.
  destruct (nth_error (erm_current e) i) eqn:X; [|discriminate]. injection E3 as ->.
  destruct (nth_error (erm_possible e) j) eqn:Y; [|discriminate]. injection E4 as ->.
  destruct (erm_step_spec p O X Y) as (e2 & E6 & O2 & _). rewrite E5 in E6. injection E6 as <-.
  splits; auto.
Qed.

Lemma erm_m_step_total p n m e x y rs :
  erm_ok n m e -> 0 < m < Nat.div (n * (n - 1)) 2 ->
  exists s e', erm_m_step p e (x :: y :: rs) = Done (s, e', rs).
Proof.
  intros O Hm. destruct (erm_ok_lengths O) as (L1 & L2 & L3). unfold erm_m_step.
  rewrite gen_range_cons by lia. cbn [bind]. rewrite gen_range_cons by lia. cbn [bind].
  destruct (@vget_lt _ (erm_current e) (Nat.modulo x (length (erm_current e)))) as [a Ea];
    [apply Nat.mod_upper_bound; lia|].
  destruct (@vget_lt _ (erm_possible e) (Nat.modulo y (length (erm_possible e)))) as [b Eb];
    [apply Nat.mod_upper_bound; lia|].
  unfold vget at 1 2. rewrite Ea, Eb. cbn [bind]. cbv zeta.
  destruct (erm_step_spec p O Ea Eb) as (e' & -> & _). cbn [bind]. eauto.
Qed.

(** Undoing a record that fits the bookkeeping. *)
Lemma erm_undo_spec p n m e s :
  erm_ok n m e -> erm_applicable e s ->
  exists e', erm_undo_step p e s = Done (esm_inverted s, e') /\
    erm_undo_step_quiet p e s = Done e' /\ erm_ok n m e' /\
    payloads (erm_graph e') = payloads (erm_graph e) /\ erm_all e' = erm_all e /\
    erm_current e' = upd (erm_current e) (esm_i_removed s) (esm_removed s) /\
    erm_possible e' = upd (erm_possible e) (esm_i_inserted s) (esm_inserted s).
Proof.
  intros O [E1 E2]. destruct s as [a i b j]. unfold erm_undo_step, erm_undo_step_quiet, esm_inverted.
  cbn [esm_removed esm_inserted esm_i_removed esm_i_inserted] in *. cbv zeta.
  destruct (erm_step_spec p O E1 E2) as (e' & -> & O' & P & Al & Cu & Po & _). cbn [bind].
  eexists. splits; eauto.
Qed.

Lemma erm_ok_like n m e h : erm_ok n m e -> erm_ok n m h ->
  payloads (erm_graph h) = payloads (erm_graph e) -> erm_all h = erm_all e ->
  erm_possible h = erm_possible e -> erm_current h = erm_current e -> erm_like e h.
Proof.
  intros [W V Ce M Al [Nc Ac] Po] [W' V' Ce' M' Al' [Nc' Ac'] Po'] P Ea Ep Ec.
  unfold erm_like. splits; auto; try congruence.
  apply same_topology_intro; auto; try congruence.
  assert (G : forall i j, i < j -> adj (erm_graph e) i j <-> adj (erm_graph h) i j).
  { intros i j Hl. specialize (Ac i j). specialize (Ac' i j). rewrite Ec in Ac'. tauto. }
  intros i j. destruct (Nat.lt_trichotomy i j) as [Hl|[->|Hl]]; auto.
  - split; intros X; [destruct (sg_irrefl W _ X)|destruct (sg_irrefl W' _ X)].
  - specialize (G _ _ Hl). split; intros X.
    + apply (sg_sym W'), G, (sg_sym W), X.
    + apply (sg_sym W), G, (sg_sym W'), X.
Qed.

Lemma erm_step_undo p n m e rs s e' rs' :
  erm_ok n m e -> erm_m_step p e rs = Done (s, e', rs') ->
  forall h, erm_ok n m h -> erm_like e' h ->
  exists u h', erm_undo_step p h s = Done (u, h') /\ u = esm_inverted s /\
    erm_ok n m h' /\ erm_like e h'.
Proof.
  intros O E h Oh (S & M & Al & Po & Cu).
  destruct (erm_m_step_spec O E) as (O' & Es & E1 & E2).
  destruct s as [a i b j]. cbn [esm_removed esm_inserted esm_i_removed esm_i_inserted] in *.
  destruct (erm_step_spec p O E1 E2) as (e1 & Es' & _ & P1 & A1 & C1 & Q1 & _).
  rewrite Es in Es'. injection Es' as <-.
  pose proof (nth_error_lt _ _ E1) as L1. pose proof (nth_error_lt _ _ E2) as L2.
  destruct (@erm_undo_spec p n m h (mk_esm a i b j) Oh) as (h' & Eu & _ & Oh' & Ph & Ah & Ch & Qh).
  { split; cbn [esm_removed esm_inserted esm_i_removed esm_i_inserted].
    - rewrite Cu, C1. apply nth_error_upd_same; auto.
    - rewrite Po, Q1. apply nth_error_upd_same; auto. }
  cbn [esm_removed esm_inserted esm_i_removed esm_i_inserted] in *.
  exists (esm_inverted (mk_esm a i b j)), h'. splits; auto.
  destruct S as (_ & _ & S3 & _).
  apply (@erm_ok_like n m); auto; try congruence.
  - rewrite Qh, Po, Q1, upd_upd. apply upd_same; auto.
  - rewrite Ch, Cu, C1, upd_upd. apply upd_same; auto.
Qed.

Lemma erm_step_undo_quiet p n m e rs s e' rs' :
  erm_ok n m e -> erm_m_step p e rs = Done (s, e', rs') ->
  forall h, erm_ok n m h -> erm_like e' h ->
  exists h', erm_undo_step_quiet p h s = Done h' /\ erm_ok n m h' /\ erm_like e h'.
Proof.
  intros O E h Oh S. destruct (erm_step_undo O E Oh S) as (u & h' & Eu & _ & Oh' & S').
  exists h'. splits; auto. unfold erm_undo_step in Eu. cbv zeta in Eu.
  apply bind_done in Eu as (h1 & E1 & E2). unfold erm_undo_step_quiet. congruence.
Qed.

(** ** Construction and histories *)

Lemma erm_new_done p mk n m rs e rs' :
  1 <= n -> erm_new (T := T) p mk n m rs = Done (e, rs') ->
  m <= Nat.div (n * (n - 1)) 2 /\ erm_ok n m e /\ payloads (erm_graph e) = map mk (seq 0 n).
Proof.
  intros Hn E. unfold erm_new, usub in E. destruct (Nat.leb_spec 1 n); [|lia]. cbn [bind] in E.
  destruct (Nat.leb_spec m (Nat.div (n * (n - 1)) 2)) as [Hm|Hm]; [|discriminate].
  destruct (graph_new_spec (A := node_container T) mk n) as (Wn & Vn & Cn & Pn & An).
  pose proof E as E0. unfold erm_randomize in E0. apply bind_done in E0 as ([all rs1] & Es & E0).
  cbn [erm_all] in Es.
  destruct (@erm_randomize_spec p n m (mk_erm (graph_new mk n) m (er_pairs n)
      (repeat (0, 0) (Nat.div (n * (n - 1)) 2 - m)) (repeat (0, 0) m)) rs) with (all := all) (rs' := rs1)
    as (e1 & E1 & O1 & P1 & _); auto; cbn [erm_graph erm_all erm_possible erm_current erm_m]; auto.
  - split; [apply er_pairs_NoDup|]. intros; apply er_pairs_In.
  - apply repeat_length.
  - rewrite repeat_length, er_pairs_half. lia.
  - rewrite E in E1. injection E1 as <- <-. splits; auto. cbn [erm_graph] in P1. congruence.
Qed.

Lemma erm_new_total p mk n m rs :
  1 <= n -> m <= Nat.div (n * (n - 1)) 2 -> Nat.div (n * (n - 1)) 2 - 1 <= length rs ->
  exists e, erm_new (T := T) p mk n m rs = Done (e, skipn (Nat.div (n * (n - 1)) 2 - 1) rs).
Proof.
  intros Hn Hm Hr. unfold erm_new, usub. destruct (Nat.leb_spec 1 n); [|lia]. cbn [bind].
  destruct (Nat.leb_spec m (Nat.div (n * (n - 1)) 2)) as [_|Hm']; [|lia].
  destruct (graph_new_spec (A := node_container T) mk n) as (Wn & Vn & Cn & Pn & An).
  destruct (@shuffle_spec _ (er_pairs n) rs) as (all & Es & _); [rewrite er_pairs_half; auto|].
  rewrite er_pairs_half in Es.
  destruct (@erm_randomize_spec p n m (mk_erm (graph_new mk n) m (er_pairs n)
      (repeat (0, 0) (Nat.div (n * (n - 1)) 2 - m)) (repeat (0, 0) m)) rs) with (1 := Wn) (7 := Es)
    as (e1 & E1 & _); auto; cbn [erm_graph erm_all erm_possible erm_current erm_m]; auto.
  - split; [apply er_pairs_NoDup|]. intros; apply er_pairs_In.
  - apply repeat_length.
  - rewrite repeat_length, er_pairs_half. lia.
  - eauto.
Qed.

Lemma erm_history_ok p n m e : 1 <= n -> erm_history p n m e -> erm_ok (T := T) n m e.
Proof.
  intros Hn. induction 1 as [mk rs e rs' E|e rs e' rs' H IH E|e rs s e' rs' H IH E|e s s' e' H IH Ap E
    |e s e' H IH Ap E|e g' H IH E].
  - eapply erm_new_done; eauto.
  - destruct (erm_ok_lengths IH) as (L1 & L2 & L3).
    pose proof E as E0. unfold erm_randomize in E0. apply bind_done in E0 as ([all rs1] & Es & _).
    destruct IH as [W V Ce M Al Cu Po].
    destruct (@erm_randomize_spec p n m e rs) with (all := all) (rs' := rs1) as (e1 & E1 & O1 & _); auto.
    rewrite E in E1. injection E1 as <- <-. auto.
  - eapply erm_m_step_spec; eauto.
  - destruct (@erm_undo_spec p n m e s IH Ap) as (e1 & E1 & _ & O1 & _).
    rewrite E in E1. injection E1 as _ <-. auto.
  - destruct (@erm_undo_spec p n m e s IH Ap) as (e1 & _ & E1 & O1 & _).
    rewrite E in E1. injection E1 as <-. auto.
  - destruct IH as [W V Ec M Al [Nc Cu] [Np Po]]. destruct (sort_adj_spec W) as (g & Eg & W' & S & _).
    rewrite E in Eg. injection Eg as <-. pose proof S as (S1 & S2 & S3 & S4).
    constructor; cbn [erm_graph erm_m erm_all erm_current erm_possible]; auto; try congruence.
    + split; auto. intros i j. rewrite Cu, (same_topology_adj i j S). reflexivity.
    + split; auto. intros i j. rewrite Po, (same_topology_adj i j S). reflexivity.
Qed.

End Facts.
