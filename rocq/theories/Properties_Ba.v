(** Theorems about [BAensemble]. *)
From Verif Require Import Base BaseFacts Containers ContainerSpec ContainerFacts Graph GraphSpec Sums GraphFacts GraphOps
  GraphBuild Rng RngFacts Runs EnsembleFacts ConfigFacts Ba BaSpec BaFacts.

(** ** C52 *)

(** Whatever is drawn: if [new] returns, the graph has grown from the complete graph. *)
Theorem C52_new {T : Type} : forall p (mk : nat -> T) n m s rs e rs',
  ba_new p mk n m s rs = Done (e, rs') ->
  2 <= s < n /\ ba_ok n m e /\ payloads (ba_graph e) = map mk (seq 0 n) /\
  vertex_count (ba_source e) = s /\
  forall i j, i < s -> j < s -> (adj (ba_graph e) i j <-> i <> j).
Proof.
  intros p mk n m s rs e rs' E. unfold ba_new in E.
  destruct (Nat.leb_spec 2 s) as [H2|]; [|discriminate].
  destruct (Nat.ltb_spec s n) as [Hn|]; [|discriminate]. cbn [negb] in E.
  destruct (complete_done p mk H2) as (src & Es & Wc & Vc & Ac). rewrite Es in E. cbn [bind] in E.
  destruct (new_ready m H2 Hn Es) as [R V].
  destruct (runs_done (randomize_runs p R) E) as (O & Eq & P). cbn [ba_source ba_graph] in Eq, P.
  split; [auto|]. split; [auto|]. split; [rewrite P; apply (@graph_new_spec T (node_container T) _ _ mk n)|].
  split; [congruence|]. destruct (bo_grown O) as (order & Gr).
  intros i j Hi Hj. rewrite (gr_source Gr) by (rewrite Eq; lia). rewrite Eq, Ac. tauto.
Qed.
Print Assumptions C52_new.

Theorem C52_rejects {T : Type} : forall p (mk : nat -> T) n m s rs,
  ~ (2 <= s < n) -> ba_new p mk n m s rs = Panic.
Proof.
  intros p mk n m s rs H. unfold ba_new. destruct (Nat.leb_spec 2 s); auto.
  destruct (Nat.ltb_spec s n); auto. lia.
Qed.
Print Assumptions C52_rejects.

(** The same for a source graph of one's own: the vertices keep its data. *)
Theorem C52_from_graph {T : Type} : forall p (mk : nat -> T) n m src rs e rs',
  simple_graph src -> ba_new_from_graph p mk n m src rs = Done (e, rs') ->
  ba_ok n m e /\ ba_source e = src /\
  payloads (ba_graph e) = payloads src ++ map mk (seq (vertex_count src) (n - vertex_count src)).
Proof.
  intros p mk n m src rs e rs' W E. unfold ba_new_from_graph in E.
  destruct (forallb _ (vertices src)) eqn:D; [|discriminate]. rewrite (no_isolated W) in D.
  destruct (Nat.ltb_spec (vertex_count src) n) as [Hn|]; [|discriminate]. cbn [negb] in E.
  apply bind_done in E as (g & Ec & E). destruct (Nat.eq_dec (vertex_count src) 0) as [Z|Z].
  { exfalso. destruct (copy_count W Hn Ec) as [Wg Vg].
    apply (@randomize_empty_done T p src g n m _ rs (e, rs') W Z Wg Vg) in E; auto; [lia|apply repeat_length]. }
  destruct (@copy_ready T mk n m src g W D ltac:(lia) Ec) as [R P].
  destruct (runs_done (randomize_runs p R) E) as (O & Eq & P'). cbn [ba_source ba_graph] in Eq, P'.
  splits; auto. congruence.
Qed.
Print Assumptions C52_from_graph.

Theorem C52_from_generic {T A : Type} {C : AdjContainer T A} {L : AdjLaws C} :
  forall p (mk : nat -> T) n m (src : graph A) rs e rs',
  simple_graph src -> ba_new_from_generic_graph p mk n m src rs = Done (e, rs') ->
  ba_ok n m e /\ vertex_count (ba_source e) = vertex_count src /\
  (forall i, nbrs (ba_source e) i = nbrs src i) /\
  payloads (ba_graph e) = payloads src ++ map mk (seq (vertex_count src) (n - vertex_count src)).
Proof.
  intros p mk n m src rs e rs' W E. unfold ba_new_from_generic_graph in E.
  destruct (forallb _ (vertices src)) eqn:D; [|discriminate]. rewrite (no_isolated W) in D.
  destruct (Nat.ltb_spec (vertex_count src) n) as [Hn|]; [|discriminate]. cbn [negb] in E.
  destruct (graph_from_spec W) as (W' & V' & _ & P' & N').
  apply bind_done in E as (g & Ec & E).
  destruct (Nat.eq_dec (vertex_count src) 0) as [Z|Z].
  { exfalso. rewrite Z in V'. destruct (@copy_count T mk n (graph_from src) g W' ltac:(lia) Ec) as [Wg Vg].
    apply (@randomize_empty_done T p (graph_from src) g n m _ rs (e, rs') W' V' Wg Vg) in E; auto;
      [lia|apply repeat_length]. }
  destruct (@copy_ready T mk n m (graph_from src) g W') as [R P]; auto; [|lia|].
  { intros i Hi. rewrite N'. apply D. lia. }
  destruct (runs_done (randomize_runs p R) E) as (O & Eq & P2). cbn [ba_source ba_graph] in Eq, P2.
  rewrite Eq. splits; auto. rewrite P2, P, P', V'. auto.
Qed.
Print Assumptions C52_from_generic.

Theorem C52_randomize {T : Type} : forall p n m (e : ba T) rs e' rs',
  ba_ok n m e -> ba_randomize p e rs = Done (e', rs') ->
  ba_ok n m e' /\ ba_source e' = ba_source e /\ payloads (ba_graph e') = payloads (ba_graph e).
Proof. intros p n m e rs e' rs' O E. apply (runs_done (randomize_runs p (ok_ready O)) E). Qed.
Print Assumptions C52_randomize.

(** After any sequence of calls. *)
Theorem C52_history {T : Type} : forall p n m (e : ba T),
  ba_history p n m e -> ba_ok n m e /\ m <= vertex_count (ba_source e) /\
    forall i, nth i (ba_weights e) 0 = length (nbrs (ba_graph e) i).
Proof.
  intros p n m e H. assert (O : ba_ok n m e).
  { induction H.
    - eapply C52_new; eauto.
    - eapply C52_from_graph; eauto.
    - eapply C52_from_generic; eauto.
    - eapply C52_randomize; eauto.
    - eapply sort_ok; eauto. }
  split; auto. split; [|apply O]. destruct (bo_grown O) as (order & Gr). apply (grown_le Gr).
  rewrite (bo_count O). apply O.
Qed.
Print Assumptions C52_history.

(** Every new vertex has at least [m] neighbours, the last one exactly [m]. *)
Theorem C52_degrees {T : Type} : forall p n m (e : ba T),
  ba_history p n m e ->
  (forall x, vertex_count (ba_source e) <= x < n -> m <= length (nbrs (ba_graph e) x)) /\
  exists x, vertex_count (ba_source e) <= x < n /\ length (nbrs (ba_graph e) x) = m.
Proof.
  intros p n m e H. destruct (C52_history p n m e H) as (O & _). destruct (bo_grown O) as (order & Gr).
  pose proof (gr_order Gr) as Po. rewrite (bo_count O) in Po. pose proof (bo_nonempty O) as Hn. split.
  - intros x Hx. assert (I : In x order) by (apply (Permutation_in _ (Permutation_sym Po)), in_seq; lia).
    apply in_split in I as (l1 & l2 & E). rewrite <- (gr_attach Gr l1 x l2 E).
    apply count_le.
  - destruct (@exists_last _ order) as (l1 & x & E).
    { intros ->. apply Permutation_length in Po. rewrite seq_length in Po. cbn in Po. lia. }
    exists x. assert (Hx : vertex_count (ba_source e) <= x < n).
    { assert (I : In x order) by (rewrite E; apply in_app_iff; simpl; auto).
      apply (Permutation_in _ Po), in_seq in I. lia. }
    split; auto. rewrite <- (gr_attach Gr l1 x [] E). symmetry. apply count_all. intros y Hy.
    apply earlier_spec. destruct (Nat.lt_ge_cases y (vertex_count (ba_source e))); auto. right.
    assert (Hyn : y < n) by (rewrite <- (bo_count O); eapply (sg_range (gr_simple Gr)); eauto).
    assert (I : In y order) by (apply (Permutation_in _ (Permutation_sym Po)), in_seq; lia).
    rewrite E in I. apply in_app_iff in I as [I|[->|[]]]; auto. exfalso. apply (sg_irrefl (gr_simple Gr) _ Hy).
Qed.
Print Assumptions C52_degrees.

Example C52_case :
  match ba_new Debug (fun i : nat => i) 5 2 3 [1; 0; 3; 5; 2; 7; 4] with
  | Done (e, rs) => ba_history Debug 5 2 e /\ rs = [7; 4] /\ edge_count (ba_graph e) = 7 /\
      map (nbrs (ba_graph e)) (seq 0 5) = [[1; 2; 3; 4]; [0; 2; 3; 4]; [0; 1]; [0; 1]; [1; 0]]
  | _ => False
  end.
Proof.
  destruct (ba_new _ _ _ _ _ _) as [[e rs]| | |] eqn:E; try (vm_compute in E; discriminate).
  split; [eapply bah_new; eauto|]. vm_compute in E. injection E as <- <-. vm_compute. auto.
Qed.

(** ** C53 *)

(** With [m] at most the size of the source every run can be completed: no panic, and a run
    that has used up its draws returns after further draws. *)
Theorem C53_returns {T : Type} : forall p (mk : nat -> T) n m s rs,
  2 <= s < n -> m <= s ->
  match ba_new p mk n m s rs with
  | Done (e, rs') => ba_ok n m e /\ exists used, rs = used ++ rs'
  | NoFuel => exists more e, ba_ok n m e /\ forall rest, ba_new p mk n m s (rs ++ more ++ rest) = Done (e, rest)
  | _ => False
  end.
Proof.
  intros p mk n m s rs [H2 Hn] Hm. unfold ba_new.
  destruct (Nat.leb_spec 2 s); [|lia]. destruct (Nat.ltb_spec s n); [|lia]. cbn [negb].
  destruct (complete_done p mk H2) as (src & Es & Wc & Vc & Ac). rewrite Es. cbn [bind].
  destruct (new_ready m H2 Hn Es) as [R V].
  pose proof (randomize_runs p R rs) as X. cbv beta in X. cbn [ba_source] in X.
  destruct (ba_randomize p _ rs) as [[e rs']| | |]; try tauto.
  - destruct X as ((O & _) & u & Eu & _). eauto.
  - destruct X as (more & e & E & O & _); [lia|]. exists more, e. auto.
Qed.
Print Assumptions C53_returns.

(** The same for another randomization of an ensemble. *)
Theorem C53_randomize_returns {T : Type} : forall p n m (e : ba T) rs,
  ba_history p n m e ->
  match ba_randomize p e rs with
  | Done (e', rs') => ba_ok n m e' /\ exists used, rs = used ++ rs'
  | NoFuel => exists more e', ba_ok n m e' /\ forall rest, ba_randomize p e (rs ++ more ++ rest) = Done (e', rest)
  | _ => False
  end.
Proof.
  intros p n m e rs H. destruct (C52_history p n m e H) as (O & Hm & _).
  pose proof (randomize_runs p (ok_ready O) rs) as X. cbv beta in X.
  destruct (ba_randomize p e rs) as [[e' rs']| | |]; try tauto.
  - destruct X as ((O' & _) & u & Eu & _). eauto.
  - destruct (X Hm) as (more & e' & E & O' & _). exists more, e'. auto.
Qed.
Print Assumptions C53_randomize_returns.

(** Three draws are not enough; two more complete the run, and those after them are left. *)
Example C53_case :
  ba_new Debug (fun i : nat => i) 5 2 3 [1; 0; 3] = NoFuel /\
  exists e, ba_history Debug 5 2 e /\
    ba_new Debug (fun i : nat => i) 5 2 3 ([1; 0; 3] ++ [5; 2] ++ [7; 4]) = Done (e, [7; 4]).
Proof.
  split; [vm_compute; reflexivity|].
  destruct (ba_new Debug (fun i : nat => i) 5 2 3 ([1; 0; 3] ++ [5; 2] ++ [7; 4])) as [[e rs]| | |] eqn:E;
    try (vm_compute in E; discriminate).
  exists e. split; [eapply bah_new; eauto|]. vm_compute in E. injection E as <- <-. reflexivity.
Qed.

(** With a larger [m] the first new vertex never gets its edges: for every sequence of
    draws the model is still asking for more. *)
Theorem C53_stuck {T : Type} : forall p (mk : nat -> T) n m s rs,
  2 <= s < n -> s < m -> ba_new p mk n m s rs = NoFuel.
Proof.
  intros p mk n m s rs [H2 Hn] Hm. unfold ba_new.
  destruct (Nat.leb_spec 2 s); [|lia]. destruct (Nat.ltb_spec s n); [|lia]. cbn [negb].
  destruct (complete_done p mk H2) as (src & Es & Wc & Vc & Ac). rewrite Es. cbn [bind].
  destruct (new_ready m H2 Hn Es) as [R V]. apply (randomize_stuck p rs R). cbn. lia.
Qed.
Print Assumptions C53_stuck.

(** The checks of [new] accept such arguments. *)
Theorem C53_terminates_refuted : exists n m s, 2 <= s < n /\
  forall (T : Type) p (mk : nat -> T) rs, ba_new p mk n m s rs = NoFuel.
Proof. exists 10, 3, 2. split; [lia|]. intros. apply C53_stuck; lia. Qed.
Print Assumptions C53_terminates_refuted.

(** [new_from_graph] accepts a source without vertices and then panics, which is not among
    the documented reasons: no vertex has degree 0 and [n > 0]. *)
Theorem C53_empty_source_refuted {T : Type} : forall p (mk : nat -> T) n m, 0 < n ->
  let src := graph_new mk 0 in
  simple_graph src /\ (forall i, i < vertex_count src -> nbrs src i <> []) /\ vertex_count src < n /\
  forall rs, n - 1 <= length rs -> ba_new_from_graph p mk n m src rs = Panic.
Proof.
  intros p mk n m Hn src. pose proof (@graph_new_spec T (node_container T) _ _ mk 0) as (W & V & _).
  cbv zeta in *. fold src in W, V. splits; auto.
  - intros i Hi. rewrite V in Hi. lia.
  - intros rs Hr. unfold ba_new_from_graph. cbn [forallb src graph_new seq map vertices negb].
    change (mk_graph 0 0 []) with src. rewrite V.
    destruct (Nat.ltb_spec 0 n); [|lia]. cbn [negb].
    pose proof (@graph_new_spec T (node_container T) _ _ mk n) as (Wn & Vn & _).
    destruct (@copy_spec T (graph_new mk n) src Wn W) as (g & E & Wg & Vg & _); [lia|].
    rewrite E. cbn [bind]. destruct (@shuffle_spec _ (seq 0 n) rs) as (o & Eo & _); [rewrite seq_length; auto|].
    eapply randomize_empty_panic; eauto; try congruence; apply repeat_length.
Qed.
Print Assumptions C53_empty_source_refuted.

(** ** C67 *)

(** Drawing by weight: of the numbers below the sum exactly [nth i ws 0] give [i]. *)
Theorem C67_weighted : forall ws i,
  count (fun r => weighted_pick ws r =? i) (seq 0 (list_sum ws)) = nth i ws 0.
Proof. apply pick_count. Qed.
Print Assumptions C67_weighted.

(** One round for vertex [i]: of the equally likely numbers, as many as [k] has weight join
    [i] to [k]. *)
Theorem C67_attach {T : Type} : forall p m (g : graph (node_container T)) ws i k,
  simple_graph g -> i < vertex_count g -> length ws = vertex_count g -> nth i ws 0 = 0 ->
  length (nbrs g i) < m -> ~ adj g i k ->
  count (fun r => match ba_attach p m ws (list_sum ws) i g [r] with
                  | Done (inl g', []) => adjb g' i k
                  | _ => false
                  end) (seq 0 (list_sum ws)) = nth k ws 0.
Proof.
  intros p m g ws i k W Hi Lw Zi Lt Na. rewrite <- pick_count. unfold count. f_equal.
  apply filter_ext_in. intros r Hr. apply in_seq in Hr as [_ Hr]. cbn in Hr.
  destruct (pick_lt Hr) as [Hp Pp]. set (y := weighted_pick ws r) in *.
  destruct (container_lt W Hi) as (c & Ec & _ & _ & Nc).
  unfold ba_attach, container, vget. rewrite Ec. cbn [bind]. rewrite law_degree, Nc.
  destruct (Nat.ltb_spec (length (nbrs g i)) m); [|lia]. rewrite gen_range_small by auto. cbn [bind]. fold y.
  assert (Ny : i <> y) by (intros Eq; rewrite <- Eq in Pp; lia).
  destruct (adj_dec g i y) as [A|A].
  - rewrite (add_edge_present p W A). cbn [bind]. apply eq_true_iff_eq. rewrite adjb_spec, Nat.eqb_eq.
    split; [tauto|]. intros <-. tauto.
  - destruct (@add_edge_absent _ _ _ _ p g i y W) as (g' & -> & _ & _ & _ & _ & Nb); auto; try lia.
    cbn [bind]. apply eq_true_iff_eq. rewrite adjb_spec, Nat.eqb_eq. unfold adj in *.
    rewrite Nb, Nat.eqb_refl, in_app_iff. cbn. tauto.
Qed.
Print Assumptions C67_attach.

(** The weights are the degrees before vertex [i] is added, their sum is twice the number of
    edges, and they are the degrees again afterwards. *)
Theorem C67_weights {T : Type} : forall p m (g : graph (node_container T)) ws i rs g' ws' rs',
  simple_graph g -> i < vertex_count g -> nbrs g i = [] ->
  length ws = vertex_count g -> (forall k, nth k ws 0 = length (nbrs g k)) ->
  ba_insert p m ((g, ws), rs) i = Done ((g', ws'), rs') ->
  list_sum ws = 2 * edge_count g /\
  simple_graph g' /\ length (nbrs g' i) = m /\ edge_count g' = edge_count g + m /\
  (forall k, In k (nbrs g' i) -> nbrs g k <> []) /\
  length ws' = vertex_count g' /\ (forall k, nth k ws' 0 = length (nbrs g' k)) /\
  (forall j k, j <> i -> k <> i -> (adj g' j k <-> adj g j k)).
Proof.
  intros p m g ws i rs g' ws' rs' W Hi Ni Lw Hw E. unfold ba_insert, weighted_new in E.
  destruct (Nat.eqb_spec (list_sum ws) 0) as [|Sw]; [discriminate|]. cbn [bind] in E.
  apply bind_done in E as ([g1 rs1] & E1 & E). apply bind_done in E as (ws1 & E2 & E). injection E as -> -> <-.
  pose proof (runs_done (attach_loop_runs p m W eq_refl Hi Ni Lw Hw Sw) E1) as At.
  destruct (update_spec p W eq_refl Hi Ni Lw Hw At) as (ws2 & E3 & L3 & H3).
  rewrite E2 in E3. injection E3 as <-. destruct At as [(W' & V' & _ & _ & Pk & Nb & Ec') Em].
  split; [apply degrees_total; auto|]. split; [auto|]. split; [auto|]. split; [lia|].
  split; [|split; [congruence|split; [auto|]]].
  - intros k Hk K. specialize (Pk k Hk). rewrite Hw, K in Pk. cbn in Pk. lia.
  - intros j k Nj Nk. unfold adj. rewrite (Nb j Nj), in_app_iff. split; auto.
    intros [I|I]; auto. apply repeat_spec in I. congruence.
Qed.
Print Assumptions C67_weights.

(** [randomize] is made of such rounds: it starts with the edges of the source, adds the
    other vertices in the order drawn, and before each of them the weights are the degrees
    and the vertex to be added has no neighbour. *)
Theorem C67_rounds {T : Type} : forall p n m (e e' : ba T) rs rs',
  ba_ok n m e -> ba_randomize p e rs = Done (e', rs') ->
  let s := vertex_count (ba_source e) in
  exists g0 ws0 order rs0, shuffle (seq s (n - s)) rs = Done (order, rs0) /\
    Permutation order (seq s (n - s)) /\
    (forall i, nbrs g0 i = nbrs (ba_source e) i) /\
    foldM (ba_insert p m) ((g0, ws0), rs0) order = Done ((ba_graph e', ba_weights e'), rs') /\
    forall before i after, order = before ++ i :: after ->
    exists g ws r st, foldM (ba_insert p m) ((g0, ws0), rs0) before = Done ((g, ws), r) /\
      ba_insert p m ((g, ws), r) i = Done st /\
      simple_graph g /\ vertex_count g = n /\ nbrs g i = [] /\
      length ws = n /\ (forall k, nth k ws 0 = length (nbrs g k)).
Proof.
  intros p n m e e' rs rs' O E s. pose proof (ok_ready O) as R.
  destruct (randomize_rounds R E) as (g0 & ws0 & order & rs0 & Po & Es & Gr & Nb & Ef). fold s in Po, Es.
  exists g0, ws0, order, rs0. split; [auto|]. split; [auto|]. split; [auto|]. split; [auto|].
  intros before i after Eo. rewrite Eo, foldM_app in Ef.
  apply bind_done in Ef as ([[g ws] r] & E1 & Ef). cbn [foldM] in Ef.
  apply bind_done in Ef as (st & E2 & _). exists g, ws, r, st.
  assert (G1 : growing m n (ba_source e) (payloads g0) before (g, ws) (i :: after)).
  { apply (grow_prefix (p := p) (br_source R) (br_nonempty R) (br_degrees R) Po Gr Eo E1). }
  destruct G1 as (W & V & _ & Lw & Hw & N2 & _).
  split; [auto|]. split; [auto|]. split; [auto|]. split; [auto|]. split; [apply N2; simpl; auto|]. auto.
Qed.
Print Assumptions C67_rounds.

(** The path 0 - 1 - 2 and a vertex to be added: vertex 1 has twice the weight. *)
Definition ex_path : graph (node_container nat) :=
  mk_graph 4 2 [mk_nc 0 [1] 0; mk_nc 1 [0; 2] 1; mk_nc 2 [1] 2; mk_nc 3 [] 3].

Example C67_case :
  length (nbrs ex_path 3) < 1 /\ ~ adj ex_path 3 1 /\ map (weighted_pick [1; 2; 1; 0]) (seq 0 4) = [0; 1; 1; 2] /\
  match ba_insert Debug 1 ((ex_path, [1; 2; 1; 0]), [2]) 3 with
  | Done ((g', ws'), []) => nbrs g' 3 = [1] /\ ws' = [1; 3; 1; 1]
  | _ => False
  end.
Proof. vm_compute. intuition lia. Qed.
