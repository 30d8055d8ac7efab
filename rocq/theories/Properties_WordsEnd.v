(** C109: with random words of the generator the calls end. *)
From Verif Require Import Base BaseFacts Prob Containers ContainerSpec ContainerFacts Graph GraphSpec Sums GraphFacts GraphOps
  GraphBuild Rng RngFacts Runs EnsembleFacts DrawsSpec DrawsFacts ErC ErM ErMSpec Sw SwSpec ErMFacts Spacial Ba BaSpec BaFacts Ws WsSpec WsFacts WsRun
  Config ConfigSpec ConfigFacts ConfigRun ConfigStep SurelySpec SurelyFacts SurelyBa SurelyWs SurelyConfig
  Words WordsMore WordsChain WordsSpec WordsFacts WordsMoreFacts BaWords WordsChainFacts WordsEndSpec WordsEndFacts.
From Verif Require Properties_ErC Properties_ErM Properties_Sw Properties_Spacial Properties_Ba Properties_Config Properties_Surely Properties_Words.
From Coq Require Import NArith QArith.
Local Open Scope nat_scope.

(** A draw from a range, a number in the unit interval and a shuffle. *)
Theorem C109_draws :
  (forall h, 0 < h -> (N.of_nat h < 2 ^ 64)%N ->
   ends_on_words (w_gen_range h) /\ ends_on_words (w_gen_index h) /\ ends_on_words (w_uniform h)) /\
  (forall h, 0 < h -> (N.of_nat h < 2 ^ 32)%N -> ends_on_words (w_uniform_u32 h)) /\
  ends_on_words w_gen_f64 /\ ends_on_words w_gen_unit /\
  (forall X (l : list X), (N.of_nat (length l) < 2 ^ 64)%N -> ends_on_words (w_shuffle l)).
Proof.
  assert (R : forall h, 0 < h -> prompt 1 (fun x => x < h) (gen_range h)).
  { intros h H. eapply swift_prompt. apply (@swift_gen_range 1); auto. }
  splits.
  - intros h H L. splits; (eapply words_surely; [|exact (R h H)]); auto using same_gen_range, same_gen_index, same_uniform.
  - intros h H L. eapply words_surely; [|exact (R h H)]. now apply same_uniform_u32.
  - eapply words_surely; [apply same_gen_f64|]. apply (@settled_prompt _ 1); [apply settled_gen_f64|].
    intros [|r rs] H; cbn in H; [lia|]. unfold gen_f64. cbn [draw bind]. eauto.
  - eapply words_surely; [apply same_gen_unit|]. apply (@settled_prompt _ 1); [apply settled_gen_unit|].
    intros [|r rs] H; cbn in H; [lia|]. unfold gen_unit. cbn [draw bind]. eauto.
  - intros X l H. eapply words_surely; [now apply same_shuffle|]. eapply swift_prompt. apply (@swift_shuffle 1); auto.
Qed.
Print Assumptions C109_draws.

(** ErEnsembleC. *)
Theorem C109_er_c {T : Type} : forall p (mk : nat -> T) (e : er_c T) n c, simple_graph (erc_graph e) ->
  (1 <= n -> ends_on_words (w_erc_new p mk n c)) /\
  ends_on_words (w_erc_randomize e) /\
  (2 <= vertex_count (erc_graph e) -> (N.of_nat (vertex_count (erc_graph e)) < 2 ^ 64)%N ->
   ends_on_words (w_erc_m_step p e)).
Proof.
  intros p mk e n c W.
  assert (R : forall e : er_c T, simple_graph (erc_graph e) -> ends_on_words (w_erc_randomize e)).
  { intros s Ws. destruct (Properties_ErC.C34_randomize (T := T) (vertex_count (erc_graph s))) as (pairs & _ & _ & H).
    eapply words_surely; [apply same_erc_randomize|]. apply (@settled_prompt _ (length pairs)); [apply settled_erc_randomize|].
    intros rs L. destruct (H s rs Ws eq_refl L) as (e' & E & _). eauto. }
  splits; auto.
  - intros Hn. unfold w_erc_new. unfold erc_probability, usub.
    destruct (Nat.leb_spec 1 n); [|lia]. cbn [bind]. apply R. apply graph_new_spec.
  - intros H2 H64. eapply words_surely; [now apply same_erc_m_step|]. apply (@settled_prompt _ 3); [apply settled_erc_step|].
    intros [|x [|y [|z rs]]] L; cbn in L; try lia.
    destruct (Properties_ErC.C35_step_returns p e x y z rs W H2) as (r & e' & E). eauto.
Qed.
Print Assumptions C109_er_c.

(** ErEnsembleM. *)
Theorem C109_er_m {T : Type} : forall p (mk : nat -> T) n m (e : er_m T),
  (N.of_nat (n * (n - 1) / 2) < 2 ^ 64)%N ->
  (1 <= n -> m <= n * (n - 1) / 2 -> ends_on_words (w_erm_new p mk n m)) /\
  (erm_ok n m e -> ends_on_words (w_erm_randomize p e)) /\
  (erm_ok n m e -> 0 < m < n * (n - 1) / 2 -> ends_on_words (w_erm_m_step p e)).
Proof.
  intros p mk n m e H. splits.
  - intros Hn Hm. eapply words_surely; [apply same_erm_new; rewrite er_pairs_half; exact H|].
    apply (@settled_prompt _ (n * (n - 1) / 2)).
    + unfold erm_new. settle. apply settled_erm_randomize.
    + intros rs L. destruct (proj2 (Properties_ErM.C38_new p mk n m rs Hn) Hm L) as (x & rs' & E & _). eauto.
  - intros O. destruct (erm_ok_lengths O) as (L1 & L2 & L3).
    eapply words_surely; [apply same_erm_randomize; rewrite L3; exact H|].
    apply (@settled_prompt _ (n * (n - 1) / 2)); [apply settled_erm_randomize|].
    intros rs L. destruct (Properties_ErM.C38_randomize p n m e rs O L) as (x & rs' & E & _). eauto.
  - intros O Hm. destruct (erm_ok_lengths O) as (L1 & L2 & L3).
    eapply words_surely; [apply same_erm_m_step; lia|]. apply (@settled_prompt _ 2); [apply settled_erm_step|].
    intros [|x [|y rs]] L; cbn in L; try lia.
    destruct (Properties_ErM.C39_step_returns p n m e x y rs O Hm) as (s & e' & E & _). eauto.
Qed.
Print Assumptions C109_er_m.

(** SwEnsemble. *)
Theorem C109_small_world {T : Type} : forall p (mk : nat -> T) n q (e : sw_ensemble T),
  (N.of_nat (n * 2) < 2 ^ 64)%N ->
  (5 <= n -> ends_on_words (w_sw_new p mk n q)) /\
  (sw_ok n 2 (sw_graph e) -> ends_on_words (w_sw_randomize p e)) /\
  (sw_ok n 2 (sw_graph e) -> 0 < n -> ends_on_words (w_sw_m_step p e)).
Proof.
  intros p mk n q e H. splits.
  - intros Hn. eapply words_surely; [apply same_sw_new; lia|]. apply (@settled_prompt _ (4 * n)).
    + assert (Hl : (N.of_nat n < 2 ^ 64)%N) by lia. exact (draws_settled (same_sw_new p mk q Hl)).
    + intros rs L. destruct (Properties_Sw.C40_new p mk n q rs Hn L) as (x & rs' & E & _). eauto.
  - intros O. assert (V : vertex_count (sw_graph e) = n) by apply O.
    eapply words_surely; [apply same_sw_randomize; rewrite V; lia|]. apply (@settled_prompt _ (4 * n)); [apply settled_sw_randomize|].
    intros rs L. destruct (Properties_Sw.C40_randomize p n e rs O L) as (x & rs' & E & _). eauto.
  - intros O Hn. assert (V : vertex_count (sw_graph e) = n) by apply O. assert (Ec : edge_count (sw_graph e) = n * 2) by apply O.
    eapply words_surely; [apply same_sw_m_step; rewrite ?V, ?Ec; lia|]. apply (@settled_prompt _ 3); [apply settled_sw_step|].
    intros rs L. destruct (Properties_Sw.C41_step p n e rs O Hn L) as (s & e' & rs' & E & _). eauto.
Qed.
Print Assumptions C109_small_world.

(** SpacialEnsemble. *)
Theorem C109_spacial {T : Type} : forall p (mk : nat -> T) n accept (e : spacial T), simple_graph (sp_graph e) ->
  ends_on_words (w_sp_new mk n accept) /\ ends_on_words (w_sp_randomize e) /\
  (2 <= vertex_count (sp_graph e) -> (N.of_nat (vertex_count (sp_graph e)) < 2 ^ 64)%N ->
   ends_on_words (w_sp_m_step p e)).
Proof.
  intros p mk n accept e W. splits.
  - destruct (Properties_Spacial.C54_new_returns mk n accept) as (k & H).
    eapply words_surely; [apply same_sp_new|]. apply (@settled_prompt _ k).
    + exact (draws_settled (same_sp_new mk n accept)).
    + intros rs L. destruct (H rs L) as (x & E & _). eauto.
  - destruct (Properties_Spacial.C54_randomize (T := T) (vertex_count (sp_graph e))) as (pairs & _ & _ & H).
    eapply words_surely; [apply same_sp_randomize|]. apply (@settled_prompt _ (length pairs)); [apply settled_sp_randomize|].
    intros rs L. destruct (proj2 (H e rs W eq_refl) L) as (e' & E & _). eauto.
  - intros H2 H64. eapply words_surely; [now apply same_sp_m_step|]. apply (@settled_prompt _ 3); [apply settled_sp_step|].
    intros [|x [|y [|z rs]]] L; cbn in L; try lia.
    destruct (Properties_Spacial.C54_step p e x y z rs W H2) as (a & b & r & e' & _ & E & _). eauto.
Qed.
Print Assumptions C109_spacial.

(** BarabasiAlbert: an edge to a vertex that is joined already is drawn again. *)
Theorem C109_barabasi_albert {T : Type} : forall p n m (e : ba T), ba_ok n m e ->
  (N.of_nat n < 2 ^ 64)%N -> (N.of_nat (2 * (edge_count (ba_source e) + m * n)) < 2 ^ 64)%N ->
  m <= vertex_count (ba_source e) -> ends_on_words (w_ba_randomize p e).
Proof.
  intros p n m e O Hn Hm Hs. eapply words_surely; [exact (same_ba_randomize p (BaFacts.ok_ready O) Hn Hm)|].
  eapply swift_prompt. apply (@ba_swift T (1 + 2 * (edge_count (ba_source e) + m * n)) p n m e (BaFacts.ok_ready O) Hs); lia.
Qed.
Print Assumptions C109_barabasi_albert.

(** [new]: with more edges than the start graph has vertices it never ends. *)
Theorem C109_barabasi_albert_new {T : Type} : forall p (mk : nat -> T) n m s,
  2 <= s < n -> (N.of_nat n < 2 ^ 64)%N -> (N.of_nat (2 * (Nat.div (s * (s - 1)) 2 + m * n)) < 2 ^ 64)%N ->
  (m <= s -> ends_on_words (w_ba_new p mk n m s)) /\
  (s < m -> forall ws, w_ba_new p mk n m s ws = NoFuel).
Proof.
  intros p mk n m s Hs Hn Hm. pose proof (same_ba_new p mk Hn Hm) as SR. split.
  - intros Hms. destruct Hs as [H2 Hsn]. destruct (complete_done p mk H2) as (src & Es & Wc & Vc & Ac).
    destruct (BaFacts.new_ready m H2 Hsn Es) as [R V].
    eapply words_surely; [exact SR|]. eapply prompt_ext.
    2:{ eapply swift_prompt. apply (@ba_swift T (1 + 2 * (edge_count src + m * n)) p n m (mk_ba src (graph_new mk n) m (repeat 0 n)));
        auto; cbn [ba_source]; lia. }
    intros ds. unfold ba_new. destruct (Nat.leb_spec 2 s); [|lia]. destruct (Nat.ltb_spec s n); [|lia].
    cbn [negb]. rewrite Es. reflexivity.
  - intros Hms. apply (words_never SR). intros ds. apply Properties_Ba.C53_stuck; auto; lia.
Qed.
Print Assumptions C109_barabasi_albert_new.

(** WattsStrogatz. *)
Theorem C109_watts_strogatz {T : Type} : forall p (e : ws_ensemble T) n d,
  ws_ok n d (ws_graph e) -> ws_distance e = d -> 2 * d + 2 <= n -> (N.of_nat n < 2 ^ 32)%N ->
  ends_on_words (w_ws_randomize p e).
Proof.
  intros p e n d O D Hd Hn. eapply words_surely.
  - apply Properties_Words.C107_watts_strogatz; [apply O|]. rewrite (wo_vertices O). exact Hn.
  - eapply swift_prompt. apply (@ws_swift T n p e n d (wo_simple O) (wo_vertices O) D); lia.
Qed.
Print Assumptions C109_watts_strogatz.

(** [new]: the smallest ring [2 * d + 1] is the only one where it may never return. *)
Theorem C109_watts_strogatz_new {T : Type} : forall p (mk : nat -> T) n d q,
  1 <= d -> 2 * d + 1 <= n -> (0 <= q)%Q -> (N.of_nat n < 2 ^ 32)%N ->
  (ends_on_words (w_ws_new p mk n d q) <-> 2 * d + 2 <= n) /\
  (n = 2 * d + 1 -> may_hang word_count (on_words (w_ws_new p mk n d q))).
Proof.
  intros p mk n d q Hd Hn Hq Hb.
  destruct (new_unfold p mk q [] (n := n) (d := d)) as (g & Eg & W & V & P & _); [lia|].
  assert (Er : forall ws, unfinished (w_ws_new p mk n d q ws) = unfinished (w_ws_randomize p (mk_wse g q d) ws)).
  { intros ws. unfold w_ws_new. destruct (Nat.ltb_spec n (1 + 2 * d)); [lia|]. rewrite Eg. cbn [bind].
    destruct (w_ws_randomize p _ ws); reflexivity. }
  assert (SR : same_runs (w_ws_randomize p (mk_wse g q d)) (ws_randomize p (mk_wse g q d))).
  { apply Properties_Words.C107_watts_strogatz; cbn [ws_graph]; auto. now rewrite V. }
  assert (Hang : n = 2 * d + 1 -> may_hang word_count (on_words (w_ws_new p mk n d q))).
  { intros E. assert (Hh : exists h, (9007199254740992 <= Z.of_nat h)%Z).
    { exists (Z.to_nat 9007199254740992). rewrite Z2Nat.id; apply Z.leb_le; reflexivity. }
    destruct Hh as [h Hh]. destruct (@ring_trap T h p (mk_wse g q d) n d) as (u & Fu & Hu); auto.
    exact (words_hang SR Hu Er). }
  split; auto. split.
  - intros [S _]. destruct (Nat.eq_dec n (2 * d + 1)) as [E|]; [|lia]. exfalso.
    exact (hang_not_surely word_count_pos (Hang E) S).
  - intros Hd2. eapply ends_ext; [exact Er|]. eapply words_surely; [exact SR|]. eapply swift_prompt.
    apply (@ws_swift T n p (mk_wse g q d) n d); auto; lia.
Qed.
Print Assumptions C109_watts_strogatz_new.

(** ConfigurationModel: it shuffles until the half edges fit. *)
Theorem C109_configuration {T : Type} : forall p v (e : config T), cm_ok v e ->
  ((N.of_nat (list_sum v) < 2 ^ 64)%N -> ends_on_words (w_cm_randomize p e)) /\
  ((N.of_nat (list_sum v) < 2 ^ 32)%N -> 0 < edge_count (cm_graph e) -> ends_on_words (w_cm_m_step p e)).
Proof.
  intros p v e O. pose proof (degrees_graphical (co_simple O) (co_degrees O)) as G.
  pose proof (degrees_sum (co_simple O) (co_degrees O)) as Sm. pose proof (backup_length (co_backup O)) as Bl. split.
  - intros H. eapply words_surely; [apply same_cm_randomize; rewrite Bl; exact H|].
    eapply swift_prompt. apply (@cm_swift T (1 + list_sum v) p v e (ConfigRun.ok_ready O)); auto; try lia.
    exists (edge_count (cm_graph e)). lia.
  - intros H He. eapply words_surely; [|exact (cm_step_prompt p O He)]. apply same_cm_m_step; [now rewrite Bl|].
    intros c Hc. apply In_nth_error in Hc as (i & Ei).
    destruct (co_degrees O) as (_ & D). specialize (D i). rewrite (nbrs_nth Ei), <- (co_backup O i) in D.
    cbn in D. rewrite D. pose proof (count_occ_bound Nat.eq_dec i (cm_backup e)).
    change (2 ^ 32)%N with 4294967296%N in H. change (2 ^ 64)%N with 18446744073709551616%N. lia.
Qed.
Print Assumptions C109_configuration.

(** [new]: it ends if a graph with the degrees exists, and never otherwise. *)
Theorem C109_configuration_new {T : Type} : forall p (mk : nat -> T) v,
  valid_degrees v -> (N.of_nat (list_sum v) < 2 ^ 64)%N ->
  (graphical v -> ends_on_words (w_cm_from_vec p mk v)) /\
  (~ graphical v -> forall ws, w_cm_from_vec p mk v ws = NoFuel).
Proof.
  intros p mk v Va H. pose proof Va as (_ & _ & Ev).
  pose proof (same_cm_unchecked p mk H) as SR. split.
  - intros G. apply (@ends_ext _ _ _ (w_cm_from_vec_unchecked p mk v)).
    { intros ws. unfold w_cm_from_vec. rewrite (proj2 (degree_vec_is_valid_spec v) Va).
      destruct (w_cm_from_vec_unchecked p mk v ws); reflexivity. }
    eapply words_surely; [exact SR|]. eapply swift_prompt.
    apply (@cm_swift T (1 + list_sum v) p v _ (ConfigRun.new_ready mk v) Ev G); lia.
  - intros Ng ws. unfold w_cm_from_vec. rewrite (proj2 (degree_vec_is_valid_spec v) Va).
    rewrite (words_never SR); [reflexivity|]. intros ds.
    pose proof (Properties_Config.C51_not_graphical p mk v Va Ng ds) as E. unfold cm_from_vec in E.
    rewrite (proj2 (degree_vec_is_valid_spec v) Va) in E.
    destruct (cm_from_vec_unchecked p mk v ds); try discriminate E; reflexivity.
Qed.
Print Assumptions C109_configuration_new.

(** Rings: with two neighbours each, five vertices are enough; with four they are not. *)
Example C109_rings_case :
  ends_on_words (w_ws_new Debug (fun i : nat => i) 5 1 (1 # 10)%Q) /\
  ~ ends_on_words (w_ws_new Debug (fun i : nat => i) 5 2 (1 # 10)%Q) /\
  may_hang word_count (on_words (w_ws_new Debug (fun i : nat => i) 5 2 (1 # 10)%Q)).
Proof.
  splits.
  - apply (C109_watts_strogatz_new Debug (fun i : nat => i) 5 1 (1 # 10)%Q); auto; try lia. discriminate.
  - intros S. apply (C109_watts_strogatz_new Debug (fun i : nat => i) 5 2 (1 # 10)%Q) in S; auto; try lia. discriminate.
  - apply (C109_watts_strogatz_new Debug (fun i : nat => i) 5 2 (1 # 10)%Q); auto; try lia. discriminate.
Qed.

Example C109_attachment_case :
  ends_on_words (w_ba_new Debug (fun i : nat => i) 5 2 3) /\
  (forall ws, w_ba_new Debug (fun i : nat => i) 5 3 2 ws = NoFuel).
Proof.
  split.
  - apply (C109_barabasi_albert_new Debug (fun i : nat => i) 5 2 3); try reflexivity; lia.
  - apply (C109_barabasi_albert_new Debug (fun i : nat => i) 5 3 2); try reflexivity; lia.
Qed.

(** After [randomize] has returned once, with three zeros for the words, it will again. *)
Example C109_attachment_case_2 : exists e rest,
  w_ba_new Debug (fun i : nat => i) 4 1 3 [0; 0; 0]%N = Done (e, rest) /\ ends_on_words (w_ba_randomize Debug e).
Proof.
  destruct (w_ba_new Debug (fun i : nat => i) 4 1 3 [0; 0; 0]%N) as [[e rest]| | |] eqn:E; try (vm_compute in E; discriminate E).
  exists e, rest. split; auto.
  assert (O : ba_ok 4 1 e /\ edge_count (ba_source e) = 3 /\ vertex_count (ba_source e) = 3).
  { destruct (ba_new Debug (fun i : nat => i) 4 1 3 [0; 0; 0]) as [[e' rest']| | |] eqn:E'; try (vm_compute in E'; discriminate E').
    assert (e' = e) as ->.
    { vm_compute in E, E'. injection E as <- _. injection E' as <- _. reflexivity. }
    split; [exact (proj1 (proj2 (Properties_Ba.C52_new _ _ _ _ _ _ _ _ E')))|].
    vm_compute in E'. injection E' as <- _. vm_compute. auto. }
  destruct O as (O & Ee & Ev). apply (C109_barabasi_albert Debug 4 1 e O); rewrite ?Ee, ?Ev; try reflexivity. lia.
Qed.

Example C109_degrees_case :
  ends_on_words (w_cm_from_vec Debug (fun i : nat => i) [2; 2; 1; 1]) /\
  (forall ws, w_cm_from_vec Debug (fun i : nat => i) [2; 2; 0; 0] ws = NoFuel).
Proof.
  assert (V : forall v, degree_vec_is_valid v = true -> valid_degrees v) by (intros v; apply degree_vec_is_valid_spec).
  split.
  - apply (C109_configuration_new Debug (fun i : nat => i) [2; 2; 1; 1]); [apply V; reflexivity|reflexivity|].
    exists (fun i j => match i, j with 0, 1 | 1, 0 | 0, 2 | 2, 0 | 1, 3 | 3, 1 => true | _, _ => false end). splits.
    + intros [|[|[|[|i]]]]; reflexivity.
    + intros [|[|[|[|i]]]] [|[|[|[|j]]]]; reflexivity.
    + intros [|[|[|[|i]]]] Hi; try reflexivity. cbn in Hi. lia.
  - apply (C109_configuration_new Debug (fun i : nat => i) [2; 2; 0; 0]); [apply V; reflexivity|reflexivity|].
    apply Properties_Config.ex_not_graphical.
Qed.

(** The other calls, on ensembles as their constructors make them. *)
Example C109_fixed_case : exists (e : er_m nat) (s : sw_ensemble nat),
  erm_ok 4 3 e /\ ends_on_words (w_erm_randomize Debug e) /\ ends_on_words (w_erm_m_step Debug e) /\
  sw_ok 5 2 (sw_graph s) /\ ends_on_words (w_sw_randomize Debug s) /\ ends_on_words (w_sw_m_step Debug s).
Proof.
  destruct (Properties_ErM.C38_new Debug (fun i : nat => i) 4 3 (repeat 1 6) ltac:(lia)) as [_ H].
  destruct H as (e & rs & _ & O & _); [cbn; lia|cbn; lia|].
  destruct (Properties_Sw.C40_new Debug (fun i : nat => i) 5 (1 # 2)%Q (repeat 1 20)) as (s & rs' & _ & O' & _); [lia|cbn; lia|].
  destruct (C109_er_m Debug (fun i : nat => i) 4 3 e ltac:(reflexivity)) as (_ & A & B).
  destruct (C109_small_world Debug (fun i : nat => i) 5 (1 # 2)%Q s ltac:(reflexivity)) as (_ & C & D).
  exists e, s. splits; auto. - apply B; auto. cbn. lia. - apply D; auto. lia.
Qed.

Example C109_pairs_case : exists (e : er_c nat) (s : spacial nat),
  ends_on_words (w_erc_m_step Release e) /\ ends_on_words (w_sp_m_step Release s).
Proof.
  destruct (Properties_Spacial.C54_new_returns (fun i : nat => i) 3 (fun _ _ _ => true)) as (k & H).
  destruct (H (repeat 0 k)) as (s & _ & W & V); [now rewrite repeat_length|].
  exists (mk_erc (graph_new (fun i => i) 3) (1 # 2)%Q (1 # 1)%Q), s. split.
  - apply (C109_er_c Release (fun i => i) _ 3 1%Q); cbn [erc_graph].
    + apply graph_new_spec.
    + unfold graph_new, vertex_count. cbn. lia.
    + reflexivity.
  - apply (C109_spacial Release (fun i => i) 3 (fun _ _ _ => true)); auto; rewrite V; [lia|reflexivity].
Qed.
