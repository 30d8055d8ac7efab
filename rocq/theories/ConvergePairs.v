(** Chains that resample one pair per step. *)
From Verif Require Import Base BaseFacts Sums Containers ContainerSpec ContainerFacts Graph GraphSpec GraphFacts GraphOps
  Rng RngFacts Markov ErC ErCFacts ErMFacts Spacial SpacialSpec SpacialFacts UniformSpec UniformFacts BalanceSpec BalanceFacts
  SurelyFacts FairSpec ConvergeSpec ConvergeFacts.
From Coq Require Import QArith.
Set Implicit Arguments.
Unset Strict Implicit.
Local Open Scope nat_scope.

Section Pairs.
Variables (E R : Type) (jn : E -> nat -> nat -> bool).
Variables (randomize : E -> rng -> outcome (E * rng)) (m_step : E -> rng -> outcome (R * E * rng)).
Variables (ok : E -> Prop) (n : nat) (acc : nat -> nat -> nat -> bool).
Hypothesis acc_sym : forall a b z, acc a b z = acc b a z.
Hypothesis rnd_local : forall e, local (randomize e).
Hypothesis stp_local : forall e, local (m_step e).
Hypothesis rnd_ok : forall e ws, ok e -> length ws = length (er_pairs n) ->
  exists e', randomize e ws = Done (e', []) /\ ok e' /\
    forall k i j r, nth_error (er_pairs n) k = Some (i, j) -> nth_error ws k = Some r -> jn e' i j = acc i j r.
Hypothesis stp_ok : forall e x y z, ok e -> x < n -> y < n - 1 ->
  exists r e', m_step e [x; y; z] = Done (r, e', []) /\ ok e' /\
    forall i j, i < n -> j < n -> jn e' i j =
      if pairb (fst (two_drawn x y)) (snd (two_drawn x y)) i j
      then acc (fst (two_drawn x y)) (snd (two_drawn x y)) z else jn e i j.
Variable coins : list nat.
Hypothesis Hn : 2 <= n.
Hypothesis Hc : coins <> [].

Let D := pair_draws n coins.
Let eqv (x y : E) := joinsb (jn x) (jn y) n.
Let go := nxt m_step.

Lemma pstep s d : ok s -> In d D -> exists r s', m_step s d = Done (r, s', []) /\ ok s'.
Proof using stp_ok Hn.
  intros O Hd. apply pair_draws_In in Hd as (x & y & z & -> & Hx & Hy).
  destruct (stp_ok z O Hx Hy) as (r & s' & H & O' & _). eauto.
Qed.

Lemma go_spec s x y z : ok s -> x < n -> y < n - 1 -> forall i j, i < n -> j < n ->
  jn (go s [x; y; z]) i j =
  if pairb (fst (two_drawn x y)) (snd (two_drawn x y)) i j
  then acc (fst (two_drawn x y)) (snd (two_drawn x y)) z else jn s i j.
Proof using stp_ok Hn.
  intros O Hx Hy i j Hi Hj. destruct (stp_ok z O Hx Hy) as (r & s' & H & O' & J).
  unfold go, nxt. rewrite H. auto.
Qed.

Lemma in_D x y z : x < n -> y < n - 1 -> In z coins -> In [x; y; z] D.
Proof.
  intros Hx Hy Hz. unfold D, pair_draws. apply in_flat_map. exists x. split; [apply in_seq; lia|].
  apply in_flat_map. exists y. split; [apply in_seq; lia|]. apply (in_map (fun z => [x; y; z])). auto.
Qed.

Lemma some_coin : exists z, In z coins.
Proof using Hc n. destruct coins as [|z l]; [congruence|]. exists z. simpl. auto. Qed.

Lemma D_some : D <> [].
Proof using Hn Hc.
  destruct some_coin as (z & Hz). assert (I : In [0; 0; z] D) by (apply in_D; auto; lia).
  intros X. rewrite X in I. destruct I.
Qed.

Lemma eqv_iff x y : eqv x y = true <-> forall i j, i < j -> j < n -> jn x i j = jn y i j.
Proof. apply joinsb_iff. Qed.

Lemma peqv_refl x : ok x -> eqv x x = true.
Proof. intros _. apply eqv_iff. auto. Qed.

Lemma peqv_sym x y : ok x -> ok y -> eqv x y = true -> eqv y x = true.
Proof. intros _ _ H. apply eqv_iff. rewrite eqv_iff in H. intros. symmetry. auto. Qed.

Lemma peqv_trans x y z : ok x -> ok y -> ok z -> eqv x y = true -> eqv y z = true -> eqv x z = true.
Proof. intros _ _ _ H K. apply eqv_iff. rewrite eqv_iff in H, K. intros. rewrite H by auto. auto. Qed.

Lemma go_eqv x y d : ok x -> ok y -> In d D -> eqv x y = true -> eqv (go x d) (go y d) = true.
Proof using stp_ok Hn.
  intros Ox Oy Hd H. apply pair_draws_In in Hd as (a & b & z & -> & Ha & Hb). apply eqv_iff. rewrite eqv_iff in H.
  intros i j Hi Hj. rewrite !go_spec by (auto; lia). rewrite H by auto. auto.
Qed.

Lemma plump x y c : ok x -> ok y -> ok c -> eqv x y = true -> eqv x c = false ->
  count (fun d => eqv c (go x d)) D = count (fun d => eqv c (go y d)) D.
Proof using stp_ok Hn.
  intros Ox Oy Oc H _. unfold count. f_equal. apply filter_ext_in. intros d Hd.
  assert (G : eqv (go x d) (go y d) = true) by (apply go_eqv; auto). rewrite eqv_iff in G.
  apply eq_true_iff_eq. rewrite !eqv_iff. split; intros K i j Hi Hj; rewrite K by auto; [|symmetry]; auto.
Qed.

(** Draws that resample the pair. *)
Lemma drawn_pair i j : i < j -> j < n -> exists x y, x < n /\ y < n - 1 /\ two_drawn x y = (i, j).
Proof.
  intros Hi Hj. exists i, (j - 1). splits; try lia. unfold two_drawn. destruct (Nat.ltb_spec (j - 1) i); [lia|].
  f_equal. lia.
Qed.

Lemma pmeet x y : ok x -> ok y -> exists w w',
  Forall (fun d => In d D) w /\ Forall (fun d => In d D) w' /\ length w = length (pairs_below n) /\
  length w' = length (pairs_below n) /\ eqv (walk m_step x w) (walk m_step y w') = true.
Proof using stp_ok Hn Hc.
  intros Ox Oy. destruct some_coin as (z0 & Iz).
  assert (G : forall l, (forall i j, In (i, j) l -> i < j /\ j < n) ->
    exists w, Forall (fun d => In d D) w /\ length w = length l /\
      forall s t, ok s -> ok t -> forall i j, i < j -> j < n -> (In (i, j) l \/ jn s i j = jn t i j) ->
        jn (walk m_step s w) i j = jn (walk m_step t w) i j).
  { induction l as [|[a b] l IH]; intros Hl.
    - exists []. splits; auto. intros s t _ _ i j _ _ [[]|H]; auto.
    - destruct IH as (w & Fw & Lw & Hw); [intros; apply Hl; simpl; auto|].
      destruct (Hl a b (or_introl eq_refl)) as [Hab Hb]. destruct (drawn_pair Hab Hb) as (u & v & Hu & Hv & Dr).
      exists ([u; v; z0] :: w). split; [constructor; auto; apply in_D; auto|]. split; [cbn; auto|].
      intros s t Os Ot i j Hi Hj H. cbn [walk fold_left].
      change (fold_left (nxt m_step) w (nxt m_step s [u; v; z0])) with (walk m_step (go s [u; v; z0]) w).
      change (fold_left (nxt m_step) w (nxt m_step t [u; v; z0])) with (walk m_step (go t [u; v; z0]) w).
      assert (Id : In [u; v; z0] D) by (apply in_D; auto).
      apply Hw; auto; [apply (nxt_inv pstep Os Id)|apply (nxt_inv pstep Ot Id)|].
      rewrite !go_spec by (auto; lia). rewrite Dr. cbn [fst snd].
      destruct (pairb a b i j) eqn:Ep; auto. destruct H as [[H|H]|H]; auto.
      injection H as <- <-. assert (pairb a b a b = true) by (apply pairb_iff; auto). congruence. }
  destruct (G (pairs_below n)) as (w & Fw & Lw & Hw).
  { intros i j H. apply In_pairs_below. auto. }
  exists w, w. splits; auto. apply eqv_iff. intros i j Hi Hj. apply Hw; auto. left. apply In_pairs_below. auto.
Qed.

Lemma pairs_limit e s t : ok e -> ok s ->
  tends_to (wt acc coins n t) (length coins ^ length (pairs_below n)) m_step D s (fun s => joinsb (jn s) t n).
Proof using All.
  intros Oe Os.
  assert (Lw : length (words (length (pairs_below n)) coins) = length coins ^ length (pairs_below n)).
  { generalize (length (pairs_below n)) as k. induction k as [|k IHk]; auto. cbn [words Nat.pow]. rewrite <- IHk.
    rewrite <- (Nat.mul_1_r (length (flat_map _ _))), <- sum_over_const, sum_over_flat_map.
    rewrite (@sum_over_ext _ _ (fun _ => length (words k coins))); [apply sum_over_const|].
    intros c _. rewrite sum_over_map, sum_over_const. lia. }
  rewrite <- Lw.
  change (words (length (pairs_below n)) coins) with (chain_draws n 0 coins).
  apply (@limit_from_chain _ _ m_step D ok eqv stp_local pstep D_some peqv_refl peqv_sym peqv_trans plump
    (fun s => joinsb (jn s) t n)) with (B := length (pairs_below n)) (randomize := randomize) (e := e)
    (cd := fun k => chain_draws n k coins); auto.
  - intros x y Ox Oy H. rewrite eqv_iff in H. apply eq_true_iff_eq. rewrite !joinsb_iff.
    split; intros K i j Hi Hj; rewrite <- K by auto; [symmetry|]; auto.
  - apply pmeet.
  - intros d Hd. cbn [chain_draws] in Hd. apply words_length in Hd. rewrite <- (Permutation_length (pairs_perm n)) in Hd.
    destruct (rnd_ok Oe Hd) as (e' & H & O' & _). eauto.
  - intros X. apply (f_equal (@length _)) in X. cbn [chain_draws] in X. rewrite Lw in X. cbn in X.
    apply Nat.pow_nonzero in X; auto. destruct coins; [congruence|discriminate].
  - intros k. rewrite Nat.mul_comm.
    apply (@chain_count _ _ jn randomize m_step ok n acc two_drawn); auto. apply two_drawn_ok.
Qed.

End Pairs.

Section ErC.
Context {T : Type}.

Lemma erc_limit p n coins (e : er_c T) t : simple_graph (erc_graph e) -> vertex_count (erc_graph e) = n -> 2 <= n -> coins <> [] ->
  tends_to (wt (fun _ _ z => Qle_bool (unit_float z) (erc_prob e)) coins n t) (length coins ^ length (pairs_below n))
    (erc_m_step p) (pair_draws n coins) e (fun s => joins n t (erc_graph s)).
Proof.
  intros W V Hn Hc.
  apply (@pairs_limit _ _ (fun s => adjb (erc_graph s)) erc_randomize (erc_m_step p)
    (fun s => simple_graph (erc_graph s) /\ vertex_count (erc_graph s) = n /\ erc_prob s = erc_prob e) n
    (fun _ _ z => Qle_bool (unit_float z) (erc_prob e))) with (e := e); auto.
  - apply erc_randomize_local.
  - apply erc_m_step_local.
  - intros s ws (Ws & Vs & Ps) Lw. destruct (@erc_randomize_spec T s ws Ws) as (s' & E' & W' & V' & _ & P' & _ & _ & J).
    { rewrite Vs. lia. }
    exists s'. rewrite Vs in *. split; [rewrite E', <- Lw, skipn_all; auto|]. splits; auto; [congruence|].
    intros m i j r H1 H2. apply eq_true_iff_eq. rewrite adjb_adj, (J m i j r H1 H2), Ps, Qle_bool_iff. tauto.
  - intros s x y z (Ws & Vs & Ps) Hx Hy.
    destruct (@erc_step_effect T p s x y z [] Ws ltac:(lia)) as (a & b & r & s' & Ed & Es & _ & J).
    rewrite Vs, draw_two_small in Ed by auto. injection Ed as Ea Eb.
    exists r, s'. split; auto. destruct (erc_m_step_cases Ws Es) as (Pp & _ & C3).
    pose proof (erc_m_step_simple Ws Es) as W'. split.
    + splits; auto; [|congruence]. destruct r as [|[u v]|[u v]|]; try tauto; [congruence|..].
      * rewrite <- Vs. apply (add_edge_ok Ws C3).
      * rewrite <- Vs. apply (remove_edge_ok Ws C3).
    + intros i j _ _. rewrite <- Ps. unfold two_drawn. cbn [fst snd]. rewrite Eb, Ea. apply adjb_resampled. apply J.
Qed.
End ErC.

Section Spacial.
Context {T : Type}.

Lemma sp_limit p n coins (e : spacial T) t : simple_graph (sp_graph e) -> vertex_count (sp_graph e) = n -> 2 <= n -> coins <> [] ->
  (forall a b u, sp_accept e a b u = sp_accept e b a u) ->
  tends_to (wt (sp_accepts e) coins n t) (length coins ^ length (pairs_below n))
    (sp_m_step p) (pair_draws n coins) e (fun s => joins n t (sp_graph s)).
Proof.
  intros W V Hn Hc Sy.
  apply (@pairs_limit _ _ (fun s => adjb (sp_graph s)) sp_randomize (sp_m_step p)
    (fun s => simple_graph (sp_graph s) /\ vertex_count (sp_graph s) = n /\ sp_accept s = sp_accept e /\
       positions (sp_graph s) = positions (sp_graph e)) n (sp_accepts e)) with (e := e); auto.
  - intros a b z. apply Sy.
  - apply sp_randomize_local.
  - apply sp_m_step_local.
  - intros s ws (Ws & Vs & As & Ps) Lw. destruct (@sp_randomize_spec T s ws Ws) as (s' & E' & W' & V' & _ & P' & A' & J).
    { rewrite Vs. lia. }
    exists s'. rewrite Vs in *. split; [rewrite E', <- Lw, skipn_all; auto|]. splits; auto; try congruence.
    intros m i j r H1 H2. apply eq_true_iff_eq. rewrite adjb_adj, (J m i j r H1 H2). unfold sp_accepts. rewrite As, Ps. tauto.
  - intros s x y z (Ws & Vs & As & Ps) Hx Hy.
    destruct (@sp_m_step_total T p s x y z [] Ws ltac:(lia)) as (a & b & r & s' & Ed & Es & J).
    rewrite Vs, draw_two_small in Ed by auto. injection Ed as Ea Eb.
    exists r, s'. split; auto. destruct (sp_m_step_cases Ws Es) as (Ac & Pc & C3).
    pose proof (sp_m_step_simple Ws Es) as W'. split.
    + splits; auto; try congruence. destruct r as [|[u v]|[u v]|]; try tauto; [congruence|..].
      * rewrite <- Vs. apply (add_edge_ok Ws C3).
      * rewrite <- Vs. apply (remove_edge_ok Ws C3).
    + intros i j _ _. unfold two_drawn. cbn [fst snd]. rewrite Eb, Ea. apply adjb_resampled.
      replace (sp_accepts e a b z) with (sp_accepts s a b z); [apply J|]. unfold sp_accepts. rewrite As, Ps. auto.
Qed.
End Spacial.
