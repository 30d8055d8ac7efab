(** Theorems about how many Markov steps are enough. *)
From Verif Require Import Base BaseFacts Containers ContainerSpec ContainerFacts Graph GraphSpec Sums GraphFacts GraphOps
  GraphBuild Rng RngFacts Runs Markov ErC ErCFacts ErM ErMSpec ErMFacts MeasureFacts Spacial SpacialSpec SpacialFacts
  UniformSpec UniformFacts BalanceSpec BalanceFacts BalanceFixed FairSpec
  Properties_Uniform Properties_Balance ConvergeSpec ConvergeFacts ConvergeRate ConvergeRateM RateSpec RateFacts.
From Coq Require Import Factorial QArith.
Local Open Scope nat_scope.

(** ** C100: how many steps are enough *)

(** [ErEnsembleC] with [N] pairs of vertices: the probability of everything that can be said about which
    vertices are joined differs, after [k] steps from any graph, by at most [N * (1 - 1/N)^k]
    from the one after [randomize] of any graph. *)
Theorem C100_er_c {T : Type} : forall p n coins k (e s : er_c T) f,
  simple_graph (erc_graph e) -> vertex_count (erc_graph e) = n -> 2 <= n -> looks_at n f ->
  simple_graph (erc_graph s) -> vertex_count (erc_graph s) = n -> erc_prob s = erc_prob e ->
  let N := n * (n - 1) / 2 in
  differs_by (N * (N - 1) ^ k) (N ^ k) (erc_m_step p) (pair_draws n coins) k s
    (erc_randomize e) (words N coins) (fun s => f (adjb (erc_graph s))).
Proof.
  intros p n coins k e s f W V Hn Hf Ws Vs Ps N. subst N. rewrite <- pairs_below_half.
  pose proof (@erc_rate T p n coins k e s f W V Hn Ws Vs Ps Hf) as H.
  unfold differs_by. set (N := length (pairs_below n)) in *.
  apply (Nat.mul_le_mono_l _ _ (N ^ k)) in H. eapply Nat.le_trans; [exact H|]. apply Nat.eq_le_incl.
  rewrite powers_length, pair_draws_length.
  assert (E : n * ((n - 1) * length coins) = N * (2 * length coins)).
  { pose proof (er_pairs_length n) as L. rewrite (Permutation_length (pairs_perm n)) in L. fold N in L. nia. }
  rewrite E, !Nat.pow_mul_l. ring.
Qed.
Print Assumptions C100_er_c.

(** After [N * j] steps it is at most [N / 2^j]. *)
Theorem C100_er_c_enough {T : Type} : forall p n coins j (e s : er_c T) f,
  simple_graph (erc_graph e) -> vertex_count (erc_graph e) = n -> 2 <= n -> looks_at n f ->
  simple_graph (erc_graph s) -> vertex_count (erc_graph s) = n -> erc_prob s = erc_prob e ->
  let N := n * (n - 1) / 2 in
  differs_by N (2 ^ j) (erc_m_step p) (pair_draws n coins) (N * j) s
    (erc_randomize e) (words N coins) (fun s => f (adjb (erc_graph s))).
Proof.
  intros p n coins j e s f W V Hn Hf Ws Vs Ps N.
  assert (H0 : 0 < N) by (apply some_pair; auto).
  eapply differs_weaken; [| |apply (C100_er_c p n coins (N * j) e s f); auto].
  - apply Nat.neq_0_lt_0, Nat.pow_nonzero. lia.
  - fold N. pose proof (@halves_often (N - 1) N N j) as H. rewrite <- !Nat.mul_assoc, (Nat.mul_comm (_ ^ _) (2 ^ j)).
    apply Nat.mul_le_mono_l, H; auto; [lia|]. replace (N - (N - 1)) with 1 by lia. lia.
Qed.
Print Assumptions C100_er_c_enough.

(** The same holds for the spacial ensemble, for every symmetric rule by which pairs are joined. *)
Theorem C100_spacial {T : Type} : forall p n coins k (e s : spacial T) f,
  simple_graph (sp_graph e) -> vertex_count (sp_graph e) = n -> 2 <= n -> looks_at n f ->
  simple_graph (sp_graph s) -> vertex_count (sp_graph s) = n -> sp_accept s = sp_accept e ->
  positions (sp_graph s) = positions (sp_graph e) -> (forall a b u, sp_accept e a b u = sp_accept e b a u) ->
  let N := n * (n - 1) / 2 in
  differs_by (N * (N - 1) ^ k) (N ^ k) (sp_m_step p) (pair_draws n coins) k s
    (sp_randomize e) (words N coins) (fun s => f (adjb (sp_graph s))).
Proof.
  intros p n coins k e s f W V Hn Hf Ws Vs As Ps Sy N. subst N. rewrite <- pairs_below_half.
  pose proof (@sp_rate T p n coins k e s f W V Hn Ws Vs As Ps Sy Hf) as H.
  unfold differs_by. set (N := length (pairs_below n)) in *.
  apply (Nat.mul_le_mono_l _ _ (N ^ k)) in H. eapply Nat.le_trans; [exact H|]. apply Nat.eq_le_incl.
  rewrite powers_length, pair_draws_length.
  assert (E : n * ((n - 1) * length coins) = N * (2 * length coins)).
  { pose proof (er_pairs_length n) as L. rewrite (Permutation_length (pairs_perm n)) in L. fold N in L. nia. }
  rewrite E, !Nat.pow_mul_l. ring.
Qed.
Print Assumptions C100_spacial.

Theorem C100_spacial_enough {T : Type} : forall p n coins j (e s : spacial T) f,
  simple_graph (sp_graph e) -> vertex_count (sp_graph e) = n -> 2 <= n -> looks_at n f ->
  simple_graph (sp_graph s) -> vertex_count (sp_graph s) = n -> sp_accept s = sp_accept e ->
  positions (sp_graph s) = positions (sp_graph e) -> (forall a b u, sp_accept e a b u = sp_accept e b a u) ->
  let N := n * (n - 1) / 2 in
  differs_by N (2 ^ j) (sp_m_step p) (pair_draws n coins) (N * j) s
    (sp_randomize e) (words N coins) (fun s => f (adjb (sp_graph s))).
Proof.
  intros p n coins j e s f W V Hn Hf Ws Vs As Ps Sy N.
  assert (H0 : 0 < N) by (apply some_pair; auto).
  eapply differs_weaken; [| |apply (C100_spacial p n coins (N * j) e s f); auto].
  - apply Nat.neq_0_lt_0, Nat.pow_nonzero. lia.
  - fold N. pose proof (@halves_often (N - 1) N N j) as H. rewrite <- !Nat.mul_assoc, (Nat.mul_comm (_ ^ _) (2 ^ j)).
    apply Nat.mul_le_mono_l, H; auto; [lia|]. replace (N - (N - 1)) with 1 by lia. lia.
Qed.
Print Assumptions C100_spacial_enough.

(** [ErEnsembleM] with [m] edges, neither none nor all: the difference is at most
    [m * (1 - (N - 2) / (m * (N - m)))^k]. *)
Theorem C100_er_m {T : Type} : forall p n m k (e s : er_m T) f,
  erm_ok n m e -> erm_ok n m s -> looks_at n f -> 0 < m -> m < n * (n - 1) / 2 ->
  let N := n * (n - 1) / 2 in
  differs_by (m * (m * (N - m) - (N - 2)) ^ k) ((m * (N - m)) ^ k) (erm_m_step p) (rolls [m; N - m]) k s
    (erm_randomize p e) (fixed_draws n m 0) (fun s => f (adjb (erm_graph s))).
Proof.
  intros p n m k e s f Oe Os Hf Hm HN N.
  pose proof (@erm_rate T p n m f Hf Hm HN e s k Oe Os) as H. fold N in H, HN.
  assert (Lf : length (fixed_draws n m 0) = fact N) by (rewrite fixed_length; cbn; lia).
  unfold differs_by. rewrite Lf. apply (Nat.mul_le_mono_l _ _ ((m * (N - m)) ^ k)) in H.
  eapply Nat.le_trans; [exact H|]. apply Nat.eq_le_incl. rewrite powers_length.
  replace (length (rolls [m; N - m])) with (m * (N - m)) by (rewrite rolls_length; cbn [fold_right]; ring).
  replace (1 + (m - 1) * (N - m - 1)) with (m * (N - m) - (N - 2)); [ring|]. clear - Hm HN. clearbody N. nia.
Qed.
Print Assumptions C100_er_m.

(** With [q] steps for which [m * (N - m) <= q * (N - 2)], such as [m] of them if [2 <= m], the bound halves. *)
Theorem C100_er_m_enough {T : Type} : forall p n m q j (e s : er_m T) f,
  erm_ok n m e -> erm_ok n m s -> looks_at n f -> 0 < m -> m < n * (n - 1) / 2 ->
  let N := n * (n - 1) / 2 in
  m * (N - m) <= q * (N - 2) ->
  differs_by m (2 ^ j) (erm_m_step p) (rolls [m; N - m]) (q * j) s
    (erm_randomize p e) (fixed_draws n m 0) (fun s => f (adjb (erm_graph s))).
Proof.
  intros p n m q j e s f Oe Os Hf Hm HN N Hq. fold N in HN.
  eapply differs_weaken; [| |apply (C100_er_m p n m (q * j) e s f); auto]; fold N; set (A := m * (N - m)) in *.
  - apply Nat.neq_0_lt_0, Nat.pow_nonzero. unfold A. clear - Hm HN. clearbody N. nia.
  - assert (HA : N - 2 <= A) by (unfold A; clear - Hm HN; clearbody N; nia).
    assert (HA0 : 0 < A) by (unfold A; clear - Hm HN; clearbody N; nia).
    pose proof (@halves_often (A - (N - 2)) A q j) as H. rewrite <- !Nat.mul_assoc, (Nat.mul_comm (_ ^ _) (2 ^ j)).
    apply Nat.mul_le_mono_l, H; clear H; clearbody A; clearbody N.
    + lia.
    + destruct q; [cbn in Hq; lia|lia].
    + replace (A - (A - (N - 2))) with (N - 2) by lia. lia.
Qed.
Print Assumptions C100_er_m_enough.

(** The vertices [0] and [1], and [1] and [2], are joined. *)
Definition ex_path (A : nat -> nat -> bool) : bool := A 0 1 && A 1 2.

Example C100_case :
  looks_at 3 ex_path /\ simple_graph (erc_graph ex_empty3) /\ vertex_count (erc_graph ex_empty3) = 3 /\
  let P := fun s : er_c nat => ex_path (adjb (erc_graph s)) in
  let D := pair_draws 3 [0; 1] in
  map (arrivals (erc_m_step Debug) D ex_empty3 P) [0; 1; 2; 3] = [0; 0; 8; 192] /\
  count (fun d => ends P (erc_randomize ex_empty3 d)) (words 3 [0; 1]) = 2 /\ length (words 3 [0; 1]) = 8 /\
  length (powers 3 D) = 1728.
Proof.
  split; [intros A B H; unfold ex_path; rewrite !H by lia; auto|].
  split; [apply graph_new_spec|]. split; [apply graph_new_spec|]. cbv zeta. splits; vm_compute; reflexivity.
Qed.

Example C100_spacial_case :
  simple_graph (sp_graph ex_spots) /\ vertex_count (sp_graph ex_spots) = 3 /\
  (forall x y u, sp_accept ex_spots x y u = sp_accept ex_spots y x u) /\
  let P := fun s : spacial nat => ex_path (adjb (sp_graph s)) in
  let D := pair_draws 3 [0; 1; 2] in
  map (arrivals (sp_m_step Debug) D ex_spots P) [0; 1; 2] = [0; 2; 60] /\
  count (fun d => ends P (sp_randomize ex_spots d)) (words 3 [0; 1; 2]) = 9 /\ length (powers 2 D) = 324.
Proof.
  split; [apply C87_case|]. split; [vm_compute; reflexivity|]. split; [apply C87_case|]. cbv zeta. splits; vm_compute; reflexivity.
Qed.

Example C100_er_m_case :
  erm_ok 3 2 ex_three_ens /\ 2 * (3 - 2) <= 2 * (3 - 2) /\
  let P := fun s : er_m nat => ex_path (adjb (erm_graph s)) in
  map (arrivals (erm_m_step Debug) (rolls [2; 1]) ex_three_ens P) [0; 1; 2; 3; 4] = [0; 1; 1; 3; 5] /\
  count (fun d => ends P (erm_randomize Debug ex_three_ens d)) (fixed_draws 3 2 0) = 2 /\ length (fixed_draws 3 2 0) = 6.
Proof. split; [apply C87_case|]. split; [lia|]. cbv zeta. splits; vm_compute; reflexivity. Qed.
