(** Theorems about the graphs after many Markov steps, from any start. *)
From Verif Require Import Base BaseFacts Containers ContainerSpec ContainerFacts Graph GraphSpec Sums GraphFacts GraphOps
  GraphBuild Rng RngFacts Runs Markov ErC ErCFacts ErM ErMSpec ErMFacts MeasureFacts Spacial SpacialSpec SpacialFacts
  UniformSpec UniformFacts BalanceSpec BalanceFacts BalanceFixed Config ConfigSpec ConfigFacts ConfigRun ConfigStep
  SwitchSpec SwitchFacts SwitchStep Sw SwSpec SwFacts SwChain PlaceSpec PlaceFacts SwReach FairSpec
  Properties_Config Properties_Uniform Properties_Balance Properties_Switch Properties_Sw Properties_Fresh Properties_Place
  ConvergeSpec ConvergeFacts ConvergePairs ConvergeErM ConvergeBack ConvergePlace ConvergeSwitch.
From Coq Require Import Factorial QArith.
Local Open Scope nat_scope.

(** ** C99: from every start, many steps lead to the distribution that sampling gives *)

(** [ErEnsembleC]: of [a + b] equally likely values of a draw, [a] are at most the
    probability.  From every graph, the probability of the graph with exactly the pairs in [t],
    [m] of [N], tends to [a^m * b^(N - m) / (a + b)^N], which is what [randomize] gives. *)
Theorem C99_er_c {T : Type} : forall p n coins (e : er_c T) (t : nat -> nat -> bool),
  simple_graph (erc_graph e) -> vertex_count (erc_graph e) = n -> 2 <= n -> coins <> [] ->
  let a := count (fun z => Qle_bool (unit_float z) (erc_prob e)) coins in
  let b := count (fun z => negb (Qle_bool (unit_float z) (erc_prob e))) coins in
  let m := count (fun ij => t (fst ij) (snd ij)) (pairs_below n) in
  tends_to (a ^ m * b ^ (n * (n - 1) / 2 - m)) ((a + b) ^ (n * (n - 1) / 2))
    (erc_m_step p) (pair_draws n coins) e (fun s => BalanceSpec.joins n t (erc_graph s)).
Proof.
  intros p n coins e t W V Hn Hc a b m.
  pose proof (erc_limit p (n := n) (coins := coins) (e := e) t W V Hn Hc) as L.
  assert (Ab : a + b = length coins).
  { unfold a, b, count. clear. induction coins as [|z l IH]; auto. cbn [filter]. destruct (Qle_bool _ _); cbn [negb length]; lia. }
  rewrite Ab. rewrite <- pairs_below_half.
  replace (a ^ m * b ^ (length (pairs_below n) - m))
    with (wt (fun _ _ z => Qle_bool (unit_float z) (erc_prob e)) coins n t); auto.
  unfold m, wt. generalize (pairs_below n) as l. intros l.
  assert (Va : verdicts (fun z => Qle_bool (unit_float z) (erc_prob e)) coins true = a).
  { unfold verdicts, a. apply count_ext_in. intros z _. destruct (Qle_bool _ _); auto. }
  assert (Vb : verdicts (fun z => Qle_bool (unit_float z) (erc_prob e)) coins false = b).
  { unfold verdicts, b. apply count_ext_in. intros z _. destruct (Qle_bool _ _); auto. }
  induction l as [|[i j] l IH]; auto. cbn [prod_over fold_right fst snd length].
  match goal with |- _ * ?x = _ => change x with (prod_over (fun ij => verdicts (fun z => Qle_bool (unit_float z) (erc_prob e)) coins (t (fst ij) (snd ij))) l) end.
  rewrite IH. unfold count. cbn [filter fst snd].
  pose proof (filter_length (fun ij : nat * nat => t (fst ij) (snd ij)) l) as F.
  destruct (t i j); cbn [length].
  - rewrite Va. cbn [Nat.pow Nat.sub]. ring.
  - rewrite Vb. rewrite Nat.sub_succ_l by (unfold count in F; lia). cbn [Nat.pow]. ring.
Qed.
Print Assumptions C99_er_c.

(** [SpacialEnsemble]: a product over the pairs, if the two ends are treated alike. *)
Theorem C99_spacial {T : Type} : forall p n coins (e : spacial T) (t : nat -> nat -> bool),
  simple_graph (sp_graph e) -> vertex_count (sp_graph e) = n -> 2 <= n -> coins <> [] ->
  (forall x y u, sp_accept e x y u = sp_accept e y x u) ->
  tends_to
    (prod_over (fun ij => count (fun z => Bool.eqb (sp_accepts e (fst ij) (snd ij) z) (t (fst ij) (snd ij))) coins)
       (pairs_below n))
    (length coins ^ (n * (n - 1) / 2))
    (sp_m_step p) (pair_draws n coins) e (fun s => BalanceSpec.joins n t (sp_graph s)).
Proof.
  intros p n coins e t W V Hn Hc Sy. rewrite <- pairs_below_half. apply (sp_limit p t W V Hn Hc Sy).
Qed.
Print Assumptions C99_spacial.

(** [ErEnsembleM]: each graph with [m] of the [N] pairs gets the same share, one over the
    number of ways to choose [m] of [N].  There has to be an edge to move and a place to move it to. *)
Theorem C99_er_m {T : Type} : forall p n m (e : er_m T) (t : nat -> nat -> bool),
  erm_ok n m e -> 0 < m -> m < n * (n - 1) / 2 ->
  count (fun ij => t (fst ij) (snd ij)) (pairs_below n) = m ->
  tends_to (fact m * fact (n * (n - 1) / 2 - m)) (fact (n * (n - 1) / 2))
    (erm_m_step p) (rolls [m; n * (n - 1) / 2 - m]) e (fun s => BalanceSpec.joins n t (erm_graph s)).
Proof. intros p n m e t O Hm HN Ht. apply erm_limit; auto. Qed.
Print Assumptions C99_er_m.

(** [ConfigurationModel]: the draws with which a step is made are the same from all states
    with the same list of stubs, and a step keeps that list ... *)
Theorem C99_config_draws {T : Type} : forall p v (e f : config T) D, cm_ok v e -> cm_ok v f -> cm_backup f = cm_backup e ->
  taken (cm_m_step p) f (rolls [list_sum v - 1; list_sum v; D; D]) =
  taken (cm_m_step p) e (rolls [list_sum v - 1; list_sum v; D; D]) /\
  forall d, In d (taken (cm_m_step p) e (rolls [list_sum v - 1; list_sum v; D; D])) ->
    exists s e', cm_m_step p e d = Done (s, e', []) /\ cm_ok v e' /\ cm_backup e' = cm_backup e.
Proof.
  intros p v e f D K K' B.
  assert (I : cmi v (cm_backup e) e) by (split; auto). assert (I' : cmi v (cm_backup e) f) by (split; auto).
  rewrite <- (D_taken p D I), <- (D_taken p D I'). split; auto. intros d Hd.
  destruct (cm_step_D p I Hd) as (s & e' & E & K2 & B2). exists s, e'. auto.
Qed.
Print Assumptions C99_config_draws.

(** ... and from every graph, every graph with the degrees gets the same share.  [D] is a multiple
    of all degrees, so that a draw below [D] picks each neighbour equally often. *)
Theorem C99_config {T T' A' : Type} {C' : AdjContainer T' A'} {L' : AdjLaws C'} :
  forall p v (e : config T) (h : graph A') D, cm_ok v e -> simple_graph h -> has_degrees v h ->
  0 < list_sum v -> 0 < D -> (forall d, In d v -> d <> 0 -> exists q, D = q * d) ->
  tends_to 1 (length (realizations v)) (cm_m_step p)
    (taken (cm_m_step p) e (rolls [list_sum v - 1; list_sum v; D; D])) e (fun s => same_edges (cm_graph s) h).
Proof.
  intros p v e h D K W [Vh Dh] HS HD DD.
  assert (I : cmi v (cm_backup e) e) by (split; auto).
  rewrite <- (D_taken p D I).
  destruct (@walk_rel _ p v (cm_backup e) D HS HD DD e (adjb h) I) as (w & Fw & Aw).
  - rewrite <- Vh. apply adjb_proper; auto.
  - intros x. rewrite <- Vh at 1. rewrite adjb_degree, Dh; auto.
  - assert (Ig : cmi v (cm_backup e) (walk (cm_m_step p) e w)) by (apply (cm_walk_inv p I Fw)).
    apply (@tends_to_same _ _ (cm_m_step p) _ (cmi v (cm_backup e)) (@cm_m_step_local T p) (@cm_step_D T p _ _ D)
      _ _ e (cmeqv (walk (cm_m_step p) e w))).
    + intros x Ix. apply eq_true_iff_eq. rewrite (cm_adjb Ig Ix).
      assert (Kx : cm_ok v x) by apply Ix.
      pose proof (co_simple Kx) as Wx. pose proof (proj1 (co_degrees Kx)) as Vx.
      rewrite (same_adjb Wx W) by congruence.
      split; intros H i j; [rewrite <- Aw; auto | rewrite Aw; auto].
    + exact I.
    + apply cm_limit; auto.
Qed.
Print Assumptions C99_config.

(** [SwEnsemble]: with six or more vertices and if some draw decides for rewiring, the
    probabilities of any two states get, from every start, into the ratio of the weights of
    C85: a product over the edges of [a + b (n - 1)] for an edge at its first place and of [a]
    for another one. *)
Theorem C99_small_world {T : Type} : forall p n (e : sw_ensemble T) g h coins, 6 <= n ->
  sw_ok n 2 (sw_graph e) -> sw_ok n 2 g -> sw_ok n 2 h ->
  payloads g = payloads (sw_graph e) -> payloads h = payloads (sw_graph e) ->
  let a := for_rewiring (sw_r_prob e) coins in
  let b := against_rewiring (sw_r_prob e) coins in
  let w := fun g : graph (sw_container T) => (a + b * (n - 1)) ^ at_origin n g * a ^ (2 * n - at_origin n g) in
  (0 <= sw_r_prob e)%Q -> 0 < a ->
  tends_to_ratio (w g) (w h) (sw_m_step p) (rewiring_draws (sw_r_prob e) n coins) e
    (fun s => same_places n g (sw_graph s)) (fun s => same_places n h (sw_graph s)).
Proof.
  intros p n e g h coins Hn O Og Oh Pg Ph a b w Hq Ha.
  apply sw_ok_inv in O, Og, Oh.
  apply (@sw_ratio T p n (sw_r_prob e) coins (payloads (sw_graph e)) Hn Ha Hq e (sw_set e g) (sw_set e h)); split; auto.
Qed.
Print Assumptions C99_small_world.

(** Three vertices and the graph with the edges [{0, 1}] and [{0, 2}]: of all outcomes of the draws for two
    or three steps, a share that approaches one eighth, two thirds and one third.  Four vertices with the degrees 1, 2, 2,
    1: two paths, each of which gets one half. *)
Example C99_case :
  let near := fun s : er_c nat => BalanceSpec.joins 3 ex_vee (erc_graph s) in
  let D := pair_draws 3 [0; 1] in
  simple_graph (erc_graph ex_empty3) /\ erc_prob ex_empty3 = 0%Q /\ length D = 12 /\
  arrivals (erc_m_step Debug) D ex_empty3 near 0 = 0 /\ arrivals (erc_m_step Debug) D ex_empty3 near 2 = 8 /\
  arrivals (erc_m_step Debug) D ex_empty3 near 3 = 144 /\ length (powers 3 D) = 1728.
Proof. cbv zeta. split; [apply graph_new_spec|]. vm_compute. auto 8. Qed.

Example C99_spacial_case :
  let near := fun s : spacial nat => BalanceSpec.joins 3 ex_vee (sp_graph s) in
  let D := pair_draws 3 [0; 1; 2] in
  simple_graph (sp_graph ex_spots) /\ (forall x y u, sp_accept ex_spots x y u = sp_accept ex_spots y x u) /\ length D = 18 /\
  arrivals (sp_m_step Debug) D ex_spots near 0 = 1 /\ arrivals (sp_m_step Debug) D ex_spots near 1 = 16 /\
  arrivals (sp_m_step Debug) D ex_spots near 2 = 264.
Proof.
  cbv zeta. split; [apply C87_case|]. split; [apply C87_case|]. vm_compute. auto 8.
Qed.

Example C99_er_m_case :
  let near := fun s : er_m nat => BalanceSpec.joins 3 ex_vee (erm_graph s) in
  erm_ok 3 2 ex_three_ens /\ count (fun ij => ex_vee (fst ij) (snd ij)) (pairs_below 3) = 2 /\
  map (arrivals (erm_m_step Debug) (rolls [2; 1]) ex_three_ens near) [0; 1; 2; 3; 4; 5; 6] = [1; 0; 2; 2; 6; 10; 22] /\
  length (powers 6 (rolls [2; 1])) = 64.
Proof. cbv zeta. split; [apply C87_case|]. vm_compute. auto. Qed.

Example C99_config_case :
  let g := ex_graph 4 [(0, 1); (1, 2); (2, 3)] in
  let h := ex_graph 4 [(0, 2); (2, 1); (1, 3)] in
  let e := cm_clone_from_generic_graph g in
  let D := taken (cm_m_step Debug) e (rolls [5; 6; 2; 2]) in
  cm_ok [1; 2; 2; 1] e /\ simple_graph h /\ has_degrees [1; 2; 2; 1] h /\
  realizations [1; 2; 2; 1] = [[(0, 1); (1, 2); (2, 3)]; [(0, 2); (1, 2); (1, 3)]] /\
  length D = 104 /\ arrivals (cm_m_step Debug) D e (fun s => same_edges (cm_graph s) h) 1 = 16 /\
  N.of_nat (arrivals (cm_m_step Debug) D e (fun s => same_edges (cm_graph s) h) 2) = 2816%N.
Proof.
  pose proof C82_case as H. cbv zeta in H |- *. splits; try apply H; vm_compute; reflexivity.
Qed.

(** The ring of six vertices, and one edge of it at another place.  The weights have the ratio 6 to 1. *)
Example C99_small_world_case :
  let D := rewiring_draws 0 6 [0; 1] in
  let w := fun g : graph (sw_container nat) => (1 + 1 * 5) ^ (at_origin 6 g - 11) * 1 ^ (12 - at_origin 6 g) in
  sw_ok 6 2 (sw_graph ex_ring) /\ sw_ok 6 2 (sw_graph ex_away) /\ payloads (sw_graph ex_away) = payloads (sw_graph ex_ring) /\
  sw_r_prob ex_ring = 0%Q /\ for_rewiring 0 [0; 1] = 1 /\ against_rewiring 0 [0; 1] = 1 /\
  w (sw_graph ex_ring) = 6 /\ w (sw_graph ex_away) = 1 /\ length D = 120 /\
  arrivals (sw_m_step Debug) D ex_ring (fun s => same_places 6 (sw_graph ex_ring) (sw_graph s)) 1 = 108 /\
  arrivals (sw_m_step Debug) D ex_ring (fun s => same_places 6 (sw_graph ex_away) (sw_graph s)) 1 = 1.
Proof.
  cbv zeta.
  split; [apply (C40_history Debug 6); [lia|apply C85_case]|].
  split; [apply (C40_history Debug 6); [lia|apply C85_case]|].
  splits; vm_compute; reflexivity.
Qed.
