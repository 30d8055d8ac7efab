(** Theorems about the graphs after sampling and any number of steps. *)
From Verif Require Import Base BaseFacts Containers ContainerSpec ContainerFacts Graph GraphSpec Sums GraphFacts
  GraphOps Rng RngFacts Markov ErC ErCFacts ErM ErMSpec ErMFacts MeasureFacts Spacial SpacialSpec SpacialFacts UniformSpec
  UniformFacts BalanceSpec BalanceFacts BalanceFixed Properties_Graph Properties_ErC Properties_Spacial Properties_Uniform.
From Coq Require Import Factorial QArith.
Local Open Scope nat_scope.

(** ** C87: steps keep the distribution of the samples *)

(** The number of outcomes of all draws, for a sample and [k] steps. *)
Theorem C87_draws : forall n m k coins,
  length (chain_draws n k coins) = length coins ^ (n * (n - 1) / 2) * (n * (n - 1) * length coins) ^ k /\
  length (fixed_draws n m k) = fact (n * (n - 1) / 2) * (m * (n * (n - 1) / 2 - m)) ^ k.
Proof.
  intros n m k coins. split; [|apply fixed_length]. induction k as [|k IH]; cbn [chain_draws Nat.pow].
  - rewrite Nat.mul_1_r, pairs_below_half. generalize (n * (n - 1) / 2) as N.
    induction N as [|N IHN]; auto. cbn [words Nat.pow]. rewrite <- IHN.
    rewrite <- (Nat.mul_1_r (length (flat_map _ _))), <- sum_over_const, sum_over_flat_map.
    rewrite (@sum_over_ext _ _ (fun _ => length (words N coins))); [apply sum_over_const|].
    intros c _. rewrite sum_over_map, sum_over_const. lia.
  - rewrite <- (Nat.mul_1_r (length _)), <- sum_over_const, sum_over_flat_map.
    rewrite (@sum_over_ext _ _ (fun _ => n * (n - 1) * length coins)).
    + rewrite sum_over_const, IH. ring.
    + intros d _. rewrite sum_over_map, sum_over_const, pair_draws_length. ring.
Qed.
Print Assumptions C87_draws.

(** [ErEnsembleC]: of [a + b] equally likely values of a draw, [a] are at most the
    probability.  Whatever the start and the number of steps, the graph with exactly the
    pairs in [t], [m] of [N], has the share [a^m * b^(N - m)] of the outcomes. *)
Theorem C87_er_c {T : Type} : forall p k n coins (e : er_c T) (t : nat -> nat -> bool),
  simple_graph (erc_graph e) -> vertex_count (erc_graph e) = n -> 2 <= n ->
  let a := count (fun z => Qle_bool (unit_float z) (erc_prob e)) coins in
  let b := count (fun z => negb (Qle_bool (unit_float z) (erc_prob e))) coins in
  let m := count (fun ij => t (fst ij) (snd ij)) (pairs_below n) in
  count (fun ds => ends (fun s => joins n t (erc_graph s)) (sample_and_steps erc_randomize (erc_m_step p) k e ds))
    (chain_draws n k coins) =
  (n * (n - 1) * length coins) ^ k * (a ^ m * b ^ (n * (n - 1) / 2 - m)).
Proof.
  intros p k n coins e t W V Hn a b m. rewrite erc_chain, pair_draws_length, Nat.mul_assoc by auto. f_equal.
  rewrite <- pairs_below_half. unfold m, wt. generalize (pairs_below n) as l. intros l.
  assert (Va : verdicts (fun z => Qle_bool (unit_float z) (erc_prob e)) coins true = a).
  { unfold verdicts, a. apply count_ext_in. intros z _. destruct (Qle_bool _ _); auto. }
  assert (Vb : verdicts (fun z => Qle_bool (unit_float z) (erc_prob e)) coins false = b).
  { unfold verdicts, b. apply count_ext_in. intros z _. destruct (Qle_bool _ _); auto. }
  induction l as [|[i j] l IH]; auto. cbn [prod_over fold_right fst snd length].
  match goal with |- _ * ?x = _ => change x with (prod_over (fun ij => verdicts (fun z => Qle_bool (unit_float z) (erc_prob e)) coins (t (fst ij) (snd ij))) l) end.
  rewrite IH. unfold count. cbn [filter fst snd].
  pose proof (filter_length (fun ij : nat * nat => t (fst ij) (snd ij)) l) as F.
  destruct (t i j); cbn [length].
  - rewrite Va. cbn [Nat.pow Nat.sub]. ring.
  - rewrite Vb. rewrite Nat.sub_succ_l by (unfold count in F; lia). cbn [Nat.pow]. ring.
Qed.
Print Assumptions C87_er_c.

(** [SpacialEnsemble]: a product over the pairs, if the two ends are treated alike. *)
Theorem C87_spacial {T : Type} : forall p k n coins (e : spacial T) (t : nat -> nat -> bool),
  simple_graph (sp_graph e) -> vertex_count (sp_graph e) = n -> 2 <= n ->
  (forall x y u, sp_accept e x y u = sp_accept e y x u) ->
  count (fun ds => ends (fun s => joins n t (sp_graph s)) (sample_and_steps sp_randomize (sp_m_step p) k e ds))
    (chain_draws n k coins) =
  (n * (n - 1) * length coins) ^ k *
  prod_over (fun ij => count (fun z => Bool.eqb (sp_accepts e (fst ij) (snd ij) z) (t (fst ij) (snd ij))) coins)
    (pairs_below n).
Proof.
  intros p k n coins e t W V Hn Sy. rewrite sp_chain, pair_draws_length, Nat.mul_assoc by auto. reflexivity.
Qed.
Print Assumptions C87_spacial.

(** [ErEnsembleM]: each graph with [m] of the [N] pairs has the same share. *)
Theorem C87_er_m {T : Type} : forall p k n m (e : er_m T) (t : nat -> nat -> bool),
  erm_ok n m e -> count (fun ij => t (fst ij) (snd ij)) (pairs_below n) = m ->
  count (fun ds => ends (fun s => joins n t (erm_graph s))
                     (sample_and_steps (erm_randomize p) (erm_m_step p) k e ds)) (fixed_draws n m k) =
  fact m * fact (n * (n - 1) / 2 - m) * (m * (n * (n - 1) / 2 - m)) ^ k.
Proof. intros p k n m e t O M. apply erm_chain; auto. Qed.
Print Assumptions C87_er_m.

(** Three vertices, one step, and the graphs with the edges [{0, 1}] and [{0, 2}]. *)
Definition ex_vee (i j : nat) : bool := i =? 0.

Definition ex_near (a b : option pos) (u : Q) : bool :=
  match a, b with
  | Some (xa, _), Some (xb, _) => Qle_bool u 0 || Qle_bool (xa * xb) 0
  | _, _ => false
  end.

Definition ex_spots : spacial nat := Eval vm_compute in
  match sp_new (fun i : nat => i) 3 ex_near [0; 0; 1; 0; 1; 1; 1; 1; 1] with
  | Done (e, _) => e
  | _ => mk_sp (graph_new (fun i => i) 0) ex_near
  end.

Definition ex_empty3 : er_c nat := mk_erc (graph_new (fun i => i) 3) 0 0.

Example C87_case :
  simple_graph (erc_graph ex_empty3) /\ simple_graph (sp_graph ex_spots) /\ erm_ok 3 2 ex_three_ens /\
  (forall x y u, ex_near x y u = ex_near y x u) /\
  count (fun ij => ex_vee (fst ij) (snd ij)) (pairs_below 3) = 2 /\
  count (fun ds => ends (fun s => joins 3 ex_vee (erc_graph s))
                     (sample_and_steps erc_randomize (erc_m_step Debug) 1 ex_empty3 ds)) (chain_draws 3 1 [0; 1; 2]) =
    18 * (1 * 1 * 2) /\
  count (fun ds => ends (fun s => joins 3 ex_vee (sp_graph s))
                     (sample_and_steps sp_randomize (sp_m_step Debug) 1 ex_spots ds)) (chain_draws 3 1 [0; 1; 2]) =
    18 * (3 * 3 * 2) /\
  count (fun ds => ends (fun s => joins 3 ex_vee (erm_graph s))
                     (sample_and_steps (erm_randomize Debug) (erm_m_step Debug) 2 ex_three_ens ds)) (fixed_draws 3 2 2) =
    2 * 1 * (2 * 1) ^ 2.
Proof.
  split; [apply graph_new_spec|].
  split.
  { destruct (sp_new (fun i : nat => i) 3 ex_near [0; 0; 1; 0; 1; 1; 1; 1; 1]) as [[e rs]| | |] eqn:E;
      try (vm_compute in E; discriminate).
    assert (Eq : e = ex_spots) by (vm_compute in E; injection E as <- <-; reflexivity).
    rewrite <- Eq. apply (C54_new _ _ _ _ _ _ E). cbn. lia. }
  split.
  { destruct (erm_new Debug (fun i => i) 3 2 [2; 1]) as [[e rs]| | |] eqn:E; try (vm_compute in E; discriminate).
    assert (Eq : e = ex_three_ens) by (vm_compute in E; injection E as <- <-; reflexivity).
    rewrite <- Eq. apply (erm_new_done (n := 3) ltac:(lia) E). }
  split.
  { intros [[x x']|] [[y y']|] u; cbn; auto. f_equal. apply eq_true_iff_eq. rewrite !Qle_bool_iff.
    split; intros H; [setoid_replace (y * x)%Q with (x * y)%Q by ring|setoid_replace (x * y)%Q with (y * x)%Q by ring]; auto. }
  vm_compute. auto 10.
Qed.
