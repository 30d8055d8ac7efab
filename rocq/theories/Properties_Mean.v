(** C110: how many words of the generator the calls take in the mean. *)
From Verif Require Import Base BaseFacts Prob Containers ContainerSpec ContainerFacts Graph GraphSpec Sums GraphFacts GraphOps
  Rng RngFacts DrawsSpec DrawsFacts DrawsCount Markov ErC ErCFacts ErM ErMSpec ErMFacts Sw SwSpec SwFacts Spacial SpacialFacts UniformSpec SurelySpec SurelyFacts
  Words WordsMore WordsChain WordsSpec OrderSpec OrderFacts OrderRuns WordsChainFacts WordsEndSpec MeanFacts.
From Verif Require Properties_ErC Properties_ErM Properties_Sw Properties_Spacial Properties_Order.
From Coq Require Import NArith QArith.
Local Open Scope nat_scope.

(** The draws: two words for a number below [h] at most, whatever [h]. *)
Theorem C110_draws :
  (forall h, 0 < h ->
   mean_draws_at_most 2 word_count (on_words (w_gen_range h)) /\ mean_draws_at_most 2 word_count (on_words (w_gen_index h)) /\
   mean_draws_at_most 2 word_count (on_words (w_uniform h)) /\ mean_draws_at_most 2 word_count (on_words (w_uniform_u32 h))) /\
  (forall X (l : list X), mean_draws_at_most (2 * (length l - 1)) word_count (on_words (w_shuffle l))) /\
  (forall X (l : list X), l <> [] -> mean_draws_at_most 2 word_count (on_words (w_choose_unwrap l))) /\
  (forall p h, 2 <= h -> mean_draws_at_most 4 word_count (on_words (w_draw_two_from_range p h))).
Proof.
  destruct Properties_Order.C108_draws as (O1 & O2 & O3 & O4 & _ & _ & O5 & O6 & _ & O7).
  assert (R : forall h, 0 < h -> forall rs, 1 <= length rs -> returns (gen_range h) rs).
  { intros h H [|r rs] L; [cbn in L; lia|]. unfold returns, gen_range. destruct (Nat.eqb_spec h 0); [lia|]. cbn [draw bind]. eauto. }
  splits.
  - intros h H. splits; [apply (order_mean (O1 h) (R h H))|apply (order_mean (O2 h) (R h H))|apply (order_mean (O3 h) (R h H))|apply (order_mean (O4 h) (R h H))].
  - intros X l. apply (order_mean (O5 X l)). intros rs L. destruct (shuffle_spec (l := l) L) as (l' & E & _). unfold returns. eauto.
  - intros X l H. apply (order_mean (B := 1) (O6 X l)). intros [|r rs] L; [cbn in L; lia|].
    destruct l as [|x l]; [now destruct H|]. unfold returns, choose_unwrap, gen_range. cbn [length Nat.eqb draw bind].
    destruct (@vget_lt _ (x :: l) (Nat.modulo r (S (length l)))) as [y Ey].
    { apply (Nat.mod_upper_bound r (S (length l))). discriminate. }
    unfold vget. change (length (x :: l)) with (S (length l)). rewrite Ey. cbn [bind]. eauto.
  - intros p h H. apply (order_mean (B := 2) (O7 p h)). intros [|x [|y rs]] L; try (cbn in L; lia).
    unfold returns, draw_two_from_range, gen_range. destruct (Nat.eqb_spec h 0); [lia|]. cbn [draw bind].
    unfold usub. destruct (Nat.leb_spec 1 h); [|lia]. cbn [bind]. destruct (Nat.eqb_spec (h - 1) 0); [lia|]. cbn [draw bind].
    destruct (_ <? _); eauto.
Qed.
Print Assumptions C110_draws.

(** ErEnsembleC: two words a pair; six words a step. *)
Theorem C110_er_c {T : Type} : forall p (mk : nat -> T) c k n (e : er_c T), simple_graph (erc_graph e) -> vertex_count (erc_graph e) = n ->
  (1 <= n -> mean_draws_at_most (2 * (n * (n - 1) / 2)) word_count (on_words (w_erc_new p mk n c))) /\
  mean_draws_at_most (2 * (n * (n - 1) / 2)) word_count (on_words (w_erc_randomize e)) /\
  (2 <= n -> mean_draws_at_most 6 word_count (on_words (w_erc_m_step p e)) /\
   mean_draws_at_most (6 * k) word_count (on_words (w_m_steps (w_erc_m_step p) k e))).
Proof.
  intros p mk c k n e W V.
  assert (R : forall s : er_c T, simple_graph (erc_graph s) -> vertex_count (erc_graph s) = n ->
    mean_draws_at_most (2 * (n * (n - 1) / 2)) word_count (on_words (w_erc_randomize s))).
  { intros s Ws Vs. apply (order_mean (ordered_in_order (ordered_erc_randomize s))).
    destruct (Properties_ErC.C34_randomize (T := T) n) as (pairs & _ & _ & H).
    apply (tight (B := length pairs) (settled_erc_randomize s)).
    - pose proof (@uses_erc_randomize T s) as U. cbv zeta in U. rewrite Vs in U. exact U.
    - intros rs L. destruct (H s rs Ws Vs L) as (e' & E & _). unfold returns. eauto. }
  assert (St : 2 <= n -> forall (s : er_c T) rs, (simple_graph (erc_graph s) /\ vertex_count (erc_graph s) = n) -> 3 <= length rs ->
    exists r s' rest, erc_m_step p s rs = Done (r, s', rest) /\ (simple_graph (erc_graph s') /\ vertex_count (erc_graph s') = n) /\
      length rs <= 3 + length rest).
  { intros H2 s [|x [|y [|z rs]]] [Ws Vs] L; try (cbn in L; lia).
    destruct (Properties_ErC.C35_step_returns p s x y z rs Ws ltac:(lia)) as (r & e' & E). exists r, e', rs. split; [exact E|]. split; [|cbn; lia].
    split; [exact (erc_m_step_simple Ws E)|].
    destruct (erc_m_step_cases Ws E) as (_ & _ & C). destruct r as [|[a b]|[a b]|]; subst; auto; try tauto.
    + destruct (add_edge_ok Ws C) as (_ & _ & -> & _). assumption.
    + destruct (remove_edge_ok Ws C) as (_ & _ & -> & _). assumption. }
  splits; auto.
  - intros Hn. unfold w_erc_new, erc_probability, usub. destruct (Nat.leb_spec 1 n); [|lia]. cbn [bind]. apply R; apply graph_new_spec.
  - intros H2. split.
    + apply (order_mean (B := 3) (ordered_in_order (ordered_erc_m_step p e))). intros rs L.
      destruct (St H2 e rs (conj W V) L) as (r & s' & rest & E & _). exists (r, s'), rest. exact E.
    + replace (6 * k) with (2 * (k * 3)) by lia. apply (order_mean (proj1 (Properties_Order.C108_chains p k) e)).
      intros rs L. exact (steps_return (St H2) (conj W V) L).
Qed.
Print Assumptions C110_er_c.

(** ErEnsembleM: two words a pair but one; four words a step. *)
Theorem C110_er_m {T : Type} : forall p (mk : nat -> T) k n m (e : er_m T),
  (1 <= n -> m <= n * (n - 1) / 2 -> mean_draws_at_most (2 * (n * (n - 1) / 2)) word_count (on_words (w_erm_new p mk n m))) /\
  (erm_ok n m e -> mean_draws_at_most (2 * (n * (n - 1) / 2 - 1)) word_count (on_words (w_erm_randomize p e))) /\
  (erm_ok n m e -> 0 < m < n * (n - 1) / 2 ->
   mean_draws_at_most 4 word_count (on_words (w_erm_m_step p e)) /\
   mean_draws_at_most (4 * k) word_count (on_words (w_m_steps (w_erm_m_step p) k e))).
Proof.
  intros p mk k n m e.
  assert (St : 0 < m < n * (n - 1) / 2 -> forall (s : er_m T) rs, erm_ok n m s -> 2 <= length rs ->
    exists r s' rest, erm_m_step p s rs = Done (r, s', rest) /\ erm_ok n m s' /\ length rs <= 2 + length rest).
  { intros Hm s [|x [|y rs]] O L; try (cbn in L; lia).
    destruct (Properties_ErM.C39_step_returns p n m s x y rs O Hm) as (r & e' & E & O' & _). exists r, e', rs. splits; auto. }
  splits.
  - intros Hn Hm. apply (order_mean (ordered_in_order (ordered_erm_new p mk n m))). intros rs L.
    destruct (proj2 (Properties_ErM.C38_new p mk n m rs Hn) Hm L) as (x & rs' & E & _). unfold returns. eauto.
  - intros O. destruct (erm_ok_lengths O) as (_ & _ & L3). rewrite <- L3.
    apply (order_mean (ordered_in_order (ordered_erm_randomize p e))).
    apply (tight (B := n * (n - 1) / 2) (settled_erm_randomize p e) (@uses_erm_randomize T p e)).
    intros rs L. destruct (Properties_ErM.C38_randomize p n m e rs O L) as (x & rs' & E & _). unfold returns. eauto.
  - intros O Hm. split.
    + apply (order_mean (B := 2) (ordered_in_order (ordered_erm_m_step p e))). intros rs L.
      destruct (St Hm e rs O L) as (r & s' & rest & E & _). exists (r, s'), rest. exact E.
    + replace (4 * k) with (2 * (k * 2)) by lia. apply (order_mean (proj1 (proj2 (Properties_Order.C108_chains p k)) e)).
      intros rs L. exact (steps_return (St Hm) O L).
Qed.
Print Assumptions C110_er_m.

(** SwEnsemble: eight words a vertex; six words a step. *)
Theorem C110_small_world {T : Type} : forall p (mk : nat -> T) n q k (e : sw_ensemble T),
  (5 <= n -> mean_draws_at_most (8 * n) word_count (on_words (w_sw_new p mk n q))) /\
  (sw_ok n 2 (sw_graph e) -> mean_draws_at_most (8 * n) word_count (on_words (w_sw_randomize p e))) /\
  (sw_ok n 2 (sw_graph e) -> 0 < n -> mean_draws_at_most 6 word_count (on_words (w_sw_m_step p e)) /\
   mean_draws_at_most (6 * k) word_count (on_words (w_m_steps (w_sw_m_step p) k e))).
Proof.
  intros p mk n q k e. replace (8 * n) with (2 * (4 * n)) by lia.
  splits.
  - intros Hn. apply (order_mean (ordered_in_order (ordered_sw_new p mk n q))). intros rs L.
    destruct (Properties_Sw.C40_new p mk n q rs Hn L) as (x & rs' & E & _). unfold returns. eauto.
  - intros O. apply (order_mean (ordered_in_order (ordered_sw_randomize p e))). intros rs L.
    destruct (Properties_Sw.C40_randomize p n e rs O L) as (x & rs' & E & _). unfold returns. eauto.
  - intros O Hn.
    assert (St : forall (s : sw_ensemble T) rs, sw_ok n 2 (sw_graph s) -> 3 <= length rs ->
      exists r s' rest, sw_m_step p s rs = Done (r, s', rest) /\ sw_ok n 2 (sw_graph s') /\ length rs <= 3 + length rest).
    { intros s rs Os L. destruct (Properties_Sw.C41_step p n s (firstn 3 rs) Os Hn) as (r & s' & rs' & E & O' & _).
      { rewrite firstn_length. lia. }
      destruct (settled_returns (settled_sw_step p s) E) as (used & Eu & Hu).
      exists r, s', (rs' ++ skipn 3 rs). splits; auto.
      - rewrite <- (Hu (rs' ++ skipn 3 rs)), app_assoc, <- Eu, firstn_skipn. reflexivity.
      - rewrite app_length, skipn_length. lia. }
    split.
    + apply (order_mean (B := 3) (ordered_in_order (ordered_sw_m_step p e))). intros rs L.
      destruct (St e rs O L) as (r & s' & rest & E & _). exists (r, s'), rest. exact E.
    + replace (6 * k) with (2 * (k * 3)) by lia. apply (order_mean (proj1 (proj2 (proj2 (Properties_Order.C108_chains p k))) e)).
      intros rs L. exact (steps_return St O L).
Qed.
Print Assumptions C110_small_world.

(** SpacialEnsemble: as ErEnsembleC. *)
Theorem C110_spacial {T : Type} : forall p k n (e : spacial T), simple_graph (sp_graph e) -> vertex_count (sp_graph e) = n ->
  mean_draws_at_most (2 * (n * (n - 1) / 2)) word_count (on_words (w_sp_randomize e)) /\
  (2 <= n -> mean_draws_at_most 6 word_count (on_words (w_sp_m_step p e)) /\
   mean_draws_at_most (6 * k) word_count (on_words (w_m_steps (w_sp_m_step p) k e))).
Proof.
  intros p k n e W V. split.
  - apply (order_mean (ordered_in_order (ordered_sp_randomize e))).
    destruct (Properties_Spacial.C54_randomize (T := T) n) as (pairs & _ & _ & H).
    apply (tight (B := length pairs) (settled_sp_randomize e)).
    + pose proof (@uses_sp_randomize T e) as U. cbv zeta in U. rewrite V in U. exact U.
    + intros rs L. destruct (proj2 (H e rs W V) L) as (e' & E & _). unfold returns. eauto.
  - intros H2.
    assert (St : forall (s : spacial T) rs, (simple_graph (sp_graph s) /\ vertex_count (sp_graph s) = n) -> 3 <= length rs ->
      exists r s' rest, sp_m_step p s rs = Done (r, s', rest) /\ (simple_graph (sp_graph s') /\ vertex_count (sp_graph s') = n) /\
        length rs <= 3 + length rest).
    { intros s [|x [|y [|z rs]]] [Ws Vs] L; try (cbn in L; lia).
      destruct (Properties_Spacial.C54_step p s x y z rs Ws ltac:(lia)) as (a & b & r & e' & _ & E & Ws' & Pl & _).
      exists r, e', rs. split; [exact E|]. split; [|cbn; lia]. split; auto.
      destruct (sp_m_step_cases Ws E) as (_ & _ & C). destruct r as [|[i j]|[i j]|]; subst; auto; try tauto.
      + destruct (add_edge_ok Ws C) as (_ & _ & -> & _). assumption.
      + destruct (remove_edge_ok Ws C) as (_ & _ & -> & _). assumption. }
    split.
    + apply (order_mean (B := 3) (ordered_in_order (ordered_sp_m_step p e))). intros rs L.
      destruct (St e rs (conj W V) L) as (r & s' & rest & E & _). exists (r, s'), rest. exact E.
    + replace (6 * k) with (2 * (k * 3)) by lia.
      apply (order_mean (proj2 (proj2 (proj2 (proj2 (Properties_Order.C108_chains p k)))) e)).
      intros rs L. exact (steps_return St (conj W V) L).
Qed.
Print Assumptions C110_spacial.

(** One word is not enough in the mean: for a number below three, the largest word is thrown away. *)
Example C110_draws_case : mean_draws_at_most 2 word_count (on_words (w_gen_range 3)) /\
  ~ mean_draws_at_most 1 word_count (on_words (w_gen_range 3)).
Proof.
  split; [apply C110_draws; lia|]. intros M.
  assert (Top : exists d, d < word_count /\ unfinished (on_words (w_gen_range 3) [d]) = true).
  { exists (N.to_nat (2 ^ 64 - 1)). split; [unfold word_count; lia|].
    unfold on_words. cbn [map]. rewrite N2Nat.id. reflexivity. }
  assert (Pos : 0 < word_count) by (unfold word_count; lia).
  assert (U0 : unfinished (on_words (w_gen_range 3) []) = true) by reflexivity.
  revert M Top Pos U0. generalize (on_words (w_gen_range 3)) as f. generalize word_count as h.
  intros h f M (d & Hd & U) Pos U0. specialize (M 2).
  assert (W0 : waiting h f 0 = 1). { unfold waiting, count. cbn [repeat rolls filter]. rewrite U0. reflexivity. }
  assert (W1 : 1 <= waiting h f 1).
  { unfold waiting, count. assert (I : In [d] (filter (fun ds => unfinished (f ds)) (rolls (repeat h 1)))).
    { apply filter_In. split; auto. apply UniformFacts.rolls_In. constructor; auto. }
    destruct (filter _ _); [destruct I|cbn; lia]. }
  rewrite !rolls_repeat_length in M. cbn [seq map list_sum fold_right Nat.sub] in M. rewrite !rolls_repeat_length, W0 in M.
  cbn [Nat.pow] in M. nia.
Qed.

(** The ensembles, as their constructors make them. *)
Example C110_case : exists (e : er_m nat) (s : sw_ensemble nat),
  erm_ok 4 3 e /\ mean_draws_at_most 10 word_count (on_words (w_erm_randomize Debug e)) /\
  mean_draws_at_most 40 word_count (on_words (w_m_steps (w_erm_m_step Debug) 10 e)) /\
  sw_ok 5 2 (sw_graph s) /\ mean_draws_at_most 40 word_count (on_words (w_sw_randomize Debug s)) /\
  mean_draws_at_most 6 word_count (on_words (w_sw_m_step Debug s)).
Proof.
  destruct (Properties_ErM.C38_new Debug (fun i : nat => i) 4 3 (repeat 1 6) ltac:(lia)) as [_ H].
  destruct H as (e & rs & _ & O & _); [cbn; lia|cbn; lia|].
  destruct (Properties_Sw.C40_new Debug (fun i : nat => i) 5 (1 # 2)%Q (repeat 1 20)) as (s & rs' & _ & O' & _); [lia|cbn; lia|].
  destruct (C110_er_m Debug (fun i : nat => i) 10 4 3 e) as (_ & A & B).
  destruct (C110_small_world Debug (fun i : nat => i) 5 (1 # 2)%Q 1 s) as (_ & C & D).
  exists e, s. splits; auto.
  - apply B; auto. cbn. lia.
  - apply D; auto. lia.
Qed.

Example C110_case_2 : exists (e : er_c nat) (s : spacial nat),
  mean_draws_at_most 6 word_count (on_words (w_erc_randomize e)) /\
  mean_draws_at_most 12 word_count (on_words (w_m_steps (w_erc_m_step Release) 2 e)) /\
  mean_draws_at_most 6 word_count (on_words (w_sp_m_step Release s)).
Proof.
  destruct (Properties_Spacial.C54_new_returns (fun i : nat => i) 3 (fun _ _ _ => true)) as (k & H).
  destruct (H (repeat 0 k)) as (s & _ & W & V); [now rewrite repeat_length|].
  exists (mk_erc (graph_new (fun i => i) 3) (1 # 2)%Q (1 # 1)%Q), s.
  destruct (C110_er_c Release (fun i : nat => i) 1%Q 2 3 (mk_erc (graph_new (fun i => i) 3) (1 # 2)%Q (1 # 1)%Q)) as (_ & A & B).
  - apply graph_new_spec.
  - reflexivity.
  - splits; [exact A|apply B; lia|]. apply (C110_spacial Release 1 3 s); auto.
Qed.
