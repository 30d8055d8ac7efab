(** Theorems about how many edges and neighbours there are in sampled graphs. *)
From Verif Require Import Base BaseFacts Containers ContainerSpec ContainerFacts Graph GraphSpec Sums GraphFacts GraphOps
  GraphBuild Rng RngFacts Markov ErC ErCFacts ErM ErMSpec ErMFacts Spacial SpacialSpec SpacialFacts
  UniformSpec UniformFacts BalanceSpec BalanceFacts BalanceFixed FairSpec
  Properties_Uniform Properties_Balance ConvergeSpec RateSpec DegreeSpec DegreeFacts.
From Coq Require Import Factorial QArith Lqa.
Local Open Scope nat_scope.

(** ** C101: the distribution of degrees and numbers of edges *)

(** What [choose] means. *)
Theorem C101_choose : forall n k,
  (k <= n -> choose n k * (fact k * fact (n - k)) = fact n) /\ (n < k -> choose n k = 0).
Proof. intros n k. split; [apply choose_fact|apply choose_above]. Qed.
Print Assumptions C101_choose.

(** [ErEnsembleC]: of the values of a draw, [a] are at most the probability and [b] are not.  The number of
    edges has the binomial distribution. *)
Theorem C101_er_c_edges {T : Type} : forall n coins k (e : er_c T),
  simple_graph (erc_graph e) -> vertex_count (erc_graph e) = n ->
  let N := n * (n - 1) / 2 in
  let a := count (fun z => Qle_bool (unit_float z) (erc_prob e)) coins in
  let b := count (fun z => negb (Qle_bool (unit_float z) (erc_prob e))) coins in
  length (words N coins) = (a + b) ^ N /\
  count (fun d => ends (fun s => edge_count (erc_graph s) =? k) (erc_randomize e d)) (words N coins) =
  choose N k * (a ^ k * b ^ (N - k)).
Proof.
  intros n coins k e W V N a b. split.
  { unfold a, b. rewrite (coins_split (fun z => Qle_bool (unit_float z) (erc_prob e))). apply words_size. }
  pose proof (@erc_binomial T n e coins W V (fun s => edge_count (erc_graph s) =? k) (fun _ => true) k) as H.
  rewrite er_pairs_half, count_all, pairs_below_half in H. fold N a b in H. rewrite H.
  - rewrite Nat.sub_diag. cbn [Nat.pow]. ring.
  - intros s Ws Vs. cbn [andb]. rewrite (sg_count Ws). unfold number_of_edges. rewrite Vs. auto.
Qed.
Print Assumptions C101_er_c_edges.

(** So has the degree of each vertex. *)
Theorem C101_er_c_degrees {T : Type} : forall n coins v k (e : er_c T),
  simple_graph (erc_graph e) -> vertex_count (erc_graph e) = n -> v < n ->
  let N := n * (n - 1) / 2 in
  let a := count (fun z => Qle_bool (unit_float z) (erc_prob e)) coins in
  let b := count (fun z => negb (Qle_bool (unit_float z) (erc_prob e))) coins in
  count (fun d => ends (fun s => degree_is k v (erc_graph s)) (erc_randomize e d)) (words N coins) =
  choose (n - 1) k * (a ^ k * b ^ (n - 1 - k)) * (a + b) ^ (N - (n - 1)).
Proof.
  intros n coins v k e W V Hv N a b.
  pose proof (@erc_binomial T n e coins W V (fun s => degree_is k v (erc_graph s)) (touches v) k) as H.
  rewrite er_pairs_half, touching in H by auto. unfold a, b.
  rewrite (coins_split (fun z => Qle_bool (unit_float z) (erc_prob e))). apply H.
  intros s Ws Vs. unfold degree_is. rewrite degree_spec, Vs by auto. rewrite (proj2 (Nat.ltb_lt v n)) by auto.
  rewrite (degree_touch v Ws Vs). auto.
Qed.
Print Assumptions C101_er_c_degrees.

(** With the [2^53] equally likely values that the crate [rand] draws, the mean degree of each vertex is the target
    connectivity [c] from which the probability was computed, except for less than [(n - 1) / 2^53]. *)
Theorem C101_mean {T : Type} : forall M n v c (e : er_c T),
  Z.of_nat M = (2 ^ 53)%Z -> simple_graph (erc_graph e) -> vertex_count (erc_graph e) = n -> v < n -> 2 <= n ->
  (erc_prob e * inject_Z (Z.of_nat (n - 1)) == c)%Q -> (0 <= c)%Q ->
  let draws := words (n * (n - 1) / 2) (seq 0 M) in
  let total := degrees_total (fun s => erc_graph s) v (erc_randomize e) draws in
  ((c < inject_Z (Z.of_nat (n - 1)))%Q ->
     (c * inject_Z (Z.of_nat (length draws)) < inject_Z (Z.of_nat total))%Q /\
     (inject_Z (Z.of_nat total) <= (c + inject_Z (Z.of_nat (n - 1)) / inject_Z (2 ^ 53)) * inject_Z (Z.of_nat (length draws)))%Q) /\
  ((inject_Z (Z.of_nat (n - 1)) <= c)%Q -> total = (n - 1) * length draws).
Proof.
  intros M n v c e HM W V Hv Hn Hc C0 draws total. change (2 ^ 53)%Z with 9007199254740992%Z in *.
  assert (Et : total = (n - 1) * (count (fun z => Qle_bool (unit_float z) (erc_prob e)) (seq 0 M) * M ^ (n * (n - 1) / 2 - 1))).
  { unfold total, draws. pose proof (erc_mean (seq 0 M) W V Hv) as H. rewrite er_pairs_half, seq_length in H. auto. }
  assert (Ed : length draws = M * M ^ (n * (n - 1) / 2 - 1)).
  { unfold draws. rewrite words_size, seq_length. rewrite <- Nat.pow_succ_r'. f_equal.
    assert (0 < n * (n - 1) / 2) by (apply Nat.div_str_pos; nia). lia. }
  clearbody draws total. set (L := M ^ (n * (n - 1) / 2 - 1)) in *.
  assert (L0 : 0 < L) by (apply Nat.neq_0_lt_0, Nat.pow_nonzero; lia). clearbody L.
  set (q := erc_prob e) in *. clearbody q.
  assert (D0 : (0 < inject_Z (Z.of_nat (n - 1)))%Q) by (change 0%Q with (inject_Z 0); rewrite <- Zlt_Qlt; lia).
  assert (LQ : (0 < inject_Z (Z.of_nat L))%Q) by (change 0%Q with (inject_Z 0); rewrite <- Zlt_Qlt; lia).
  set (d := inject_Z (Z.of_nat (n - 1))) in *. split.
  - intros Cn.
    assert (Q0 : (0 <= q)%Q) by (apply Qmult_le_r with d; auto; lra).
    assert (Q1 : (q < 1)%Q) by (apply Qmult_lt_r with d; auto; lra).
    destruct (count_below HM Q0 Q1) as [A1 A2]. set (a := count _ _) in *. clearbody a.
    rewrite Et, Ed, !Nat2Z.inj_mul, !inject_Z_mult. fold d. rewrite HM in *.
    set (l := inject_Z (Z.of_nat L)) in *. set (x := inject_Z (Z.of_nat a)) in *. clearbody x l d.
    change (inject_Z 9007199254740992) with (9007199254740992 # 1) in *.
    assert (B1 : (q * (9007199254740992 # 1) * (d * l) < x * (d * l))%Q).
    { apply Qmult_lt_r; auto. setoid_replace 0%Q with (0 * l)%Q by ring. apply Qmult_lt_r; auto. }
    assert (B2 : (x * (d * l) <= (q * (9007199254740992 # 1) + 1) * (d * l))%Q).
    { apply Qmult_le_compat_r; auto. apply Qmult_le_0_compat; lra. }
    rewrite <- Hc. split.
    + setoid_replace (q * d * ((9007199254740992 # 1) * l))%Q with (q * (9007199254740992 # 1) * (d * l))%Q by ring.
      setoid_replace (d * (x * l))%Q with (x * (d * l))%Q by ring. auto.
    + setoid_replace ((q * d + d / (9007199254740992 # 1)) * ((9007199254740992 # 1) * l))%Q
        with ((q * (9007199254740992 # 1) + 1) * (d * l))%Q by (field).
      setoid_replace (d * (x * l))%Q with (x * (d * l))%Q by ring. auto.
  - intros Cn. assert (Q1 : (1 <= q)%Q) by (apply Qmult_le_r with d; auto; lra).
    rewrite (count_everything M Q1) in Et. rewrite Et, Ed. auto.
Qed.
Print Assumptions C101_mean.

(** The same for the two functions that are given a target: [new], and [set_target_connectivity] with [randomize]. *)
Theorem C101_target {T : Type} : forall M p n v c (mk : nat -> T),
  Z.of_nat M = (2 ^ 53)%Z -> v < n -> 2 <= n -> (0 <= c)%Q ->
  let draws := words (n * (n - 1) / 2) (seq 0 M) in
  let promised total :=
    ((c < inject_Z (Z.of_nat (n - 1)))%Q ->
       (c * inject_Z (Z.of_nat (length draws)) < inject_Z (Z.of_nat total))%Q /\
       (inject_Z (Z.of_nat total) <= (c + inject_Z (Z.of_nat (n - 1)) / inject_Z (2 ^ 53)) * inject_Z (Z.of_nat (length draws)))%Q) /\
    ((inject_Z (Z.of_nat (n - 1)) <= c)%Q -> total = (n - 1) * length draws) in
  promised (degrees_total (fun s => erc_graph s) v (erc_new p mk n c) draws) /\
  (forall e : er_c T, simple_graph (erc_graph e) -> vertex_count (erc_graph e) = n ->
     promised (degrees_total (fun s => erc_graph s) v
       (fun rs => do e' <- erc_set_target_connectivity p e c; erc_randomize e' rs) draws)).
Proof.
  intros M p n v c mk HM Hv Hn C0 draws promised.
  assert (D0 : ~ (inject_Z (Z.of_nat (n - 1)) == 0)%Q).
  { intros K. unfold Qeq in K. cbn in K. lia. }
  assert (P : (c / inject_Z (Z.of_nat (n - 1)) * inject_Z (Z.of_nat (n - 1)) == c)%Q) by (field; auto).
  assert (U : usub p n 1 = Done (n - 1)).
  { unfold usub. destruct (Nat.leb_spec 1 n); [reflexivity|lia]. }
  split; [|intros e W V]; unfold promised.
  - pose proof (C101_mean M n v c (mk_erc (graph_new mk n) (c / inject_Z (Z.of_nat (n - 1)))%Q c) HM
      (proj1 (graph_new_spec mk n)) eq_refl Hv Hn P C0) as H. cbv zeta in H.
    unfold erc_new, erc_probability. rewrite U. exact H.
  - pose proof (C101_mean M n v c (mk_erc (erc_graph e) (c / inject_Z (Z.of_nat (n - 1)))%Q c) HM
      W V Hv Hn P C0) as H. cbv zeta in H.
    unfold erc_set_target_connectivity, erc_probability. rewrite V, U. exact H.
Qed.
Print Assumptions C101_target.

(** [ErEnsembleM]: the degree has the hypergeometric distribution.  Of the [fact N] orders of the
    pairs, [fact m * fact (N - m)] give the same graph. *)
Theorem C101_er_m_degrees {T : Type} : forall p n m v k (e : er_m T),
  erm_ok n m e -> v < n -> k <= m ->
  let N := n * (n - 1) / 2 in
  length (fixed_draws n m 0) = fact N /\
  count (fun d => ends (fun s => degree_is k v (erm_graph s)) (erm_randomize p e d)) (fixed_draws n m 0) =
  choose (n - 1) k * choose (N - (n - 1)) (m - k) * (fact m * fact (N - m)).
Proof.
  intros p n m v k e O Hv Hk N. split; [rewrite fixed_length; cbn; lia|].
  apply erm_degree; auto. lia.
Qed.
Print Assumptions C101_er_m_degrees.

(** [SpacialEnsemble]: the mean degree of [v] is the sum of the shares of draws with which it is joined to the others. *)
Theorem C101_spacial_mean {T : Type} : forall n coins v (e : spacial T),
  simple_graph (sp_graph e) -> vertex_count (sp_graph e) = n -> v < n ->
  let N := n * (n - 1) / 2 in
  degrees_total (fun s => sp_graph s) v (sp_randomize e) (words N coins) =
  list_sum (map (fun j => count (sp_accepts e (Nat.min v j) (Nat.max v j)) coins) (filter (fun j => negb (j =? v)) (seq 0 n))) *
    length coins ^ (N - 1).
Proof.
  intros n coins v e W V Hv N. pose proof (sp_mean coins W V Hv) as H. rewrite er_pairs_half in H. apply H.
Qed.
Print Assumptions C101_spacial_mean.

Example C101_case :
  simple_graph (erc_graph ex_empty3) /\ vertex_count (erc_graph ex_empty3) = 3 /\
  let D := words 3 [0; 1; 2] in
  map (fun k => count (fun d => ends (fun s => edge_count (erc_graph s) =? k) (erc_randomize ex_empty3 d)) D) [0; 1; 2; 3; 4] =
    [8; 12; 6; 1; 0] /\
  map (fun k => count (fun d => ends (fun s => degree_is k 1 (erc_graph s)) (erc_randomize ex_empty3 d)) D) [0; 1; 2; 3] =
    [12; 12; 3; 0] /\
  degrees_total (fun s => erc_graph s) 1 (erc_randomize ex_empty3) D = 18.
Proof. split; [apply graph_new_spec|]. split; [apply graph_new_spec|]. cbv zeta. splits; vm_compute; reflexivity. Qed.

(** The mean degree is a little above the target. *)
Example C101_target_case : forall M, Z.of_nat M = (2 ^ 53)%Z ->
  exists e, erc_set_target_connectivity Debug ex_empty3 (3 # 2) = Done e /\ erc_prob e == 3 # 4 /\
    let draws := words 3 (seq 0 M) in
    ((3 # 2) * inject_Z (Z.of_nat (length draws)) <
       inject_Z (Z.of_nat (degrees_total (fun s => erc_graph s) 1 (erc_randomize e) draws)))%Q /\
    ((3 # 2) * inject_Z (Z.of_nat (length draws)) <
       inject_Z (Z.of_nat (degrees_total (fun s => erc_graph s) 1 (erc_new Debug (fun i => i) 3 (3 # 2)) draws)))%Q.
Proof.
  intros M HM. eexists. split; [reflexivity|]. split; [reflexivity|]. cbv zeta. split.
  - refine (proj1 (proj1 (C101_mean M 3 1 (3 # 2) _ HM _ _ _ _ _ _) _)); try lia; try reflexivity; try apply graph_new_spec.
    intros K. discriminate K.
  - refine (proj1 (proj1 (proj1 (C101_target M Debug 3 1 (3 # 2) (fun i => i) HM _ _ _)) _)); try lia; try reflexivity.
    intros K. discriminate K.
Qed.

Example C101_er_m_case :
  erm_ok 3 2 ex_three_ens /\
  map (fun k => count (fun d => ends (fun s => degree_is k 1 (erm_graph s)) (erm_randomize Debug ex_three_ens d)) (fixed_draws 3 2 0)) [0; 1; 2] =
    [0; 4; 2].
Proof. split; [apply C87_case|]. vm_compute. auto. Qed.

Example C101_spacial_case :
  simple_graph (sp_graph ex_spots) /\ vertex_count (sp_graph ex_spots) = 3 /\
  degrees_total (fun s => sp_graph s) 1 (sp_randomize ex_spots) (words 3 [0; 1; 2]) = 36 /\
  map (fun j => count (sp_accepts ex_spots (Nat.min 1 j) (Nat.max 1 j)) [0; 1; 2]) [0; 2] = [3; 1].
Proof. split; [apply C87_case|]. splits; vm_compute; reflexivity. Qed.
