(** How fast chains that resample one pair per step forget their start. *)
From Verif Require Import Base BaseFacts Sums Containers ContainerSpec ContainerFacts Graph GraphSpec GraphFacts GraphOps
  Rng RngFacts Markov ErC ErCFacts ErMFacts Spacial SpacialSpec SpacialFacts UniformSpec UniformFacts BalanceSpec BalanceFacts PlaceFacts
  SurelyFacts FairSpec ConvergeSpec ConvergeFacts ConvergePairs ConvergeSwitch.
From Coq Require Import QArith.
Set Implicit Arguments.
Unset Strict Implicit.
Local Open Scope nat_scope.

(** A draw for the pair. *)
Definition hit (d : list nat) (ij : nat * nat) : bool :=
  match d with
  | x :: y :: _ => pairb (fst (two_drawn x y)) (snd (two_drawn x y)) (fst ij) (snd ij)
  | _ => false
  end.

Lemma one_seq (f : nat -> bool) a m : a < m -> f a = true -> (forall b, f b = true -> b = a) ->
  sum_over (fun y => b2n (f y)) (seq 0 m) = 1.
Proof.
  intros Ha Fa U. rewrite <- length_filter_sum, (@filter_single _ f a); auto; [apply seq_NoDup|apply in_seq; lia].
Qed.

Lemma eq_seq a m : a < m -> sum_over (fun y => b2n (y =? a)) (seq 0 m) = 1.
Proof. intros H. apply one_seq with (a := a); auto; [apply Nat.eqb_refl|]. intros b. apply Nat.eqb_eq. Qed.

Lemma hits_of n coins i j : i < j -> j < n -> count (fun d => hit d (i, j)) (pair_draws n coins) = 2 * length coins.
Proof.
  intros Hi Hj. unfold count, pair_draws. rewrite length_filter_sum, sum_over_flat_map.
  rewrite (@sum_over_ext _ _ (fun x => b2n (x =? i) * length coins + b2n (x =? j) * length coins)).
  - rewrite sum_over_plus.
    rewrite (@sum_over_ext _ (fun x => b2n (x =? i) * length coins) (fun x => length coins * b2n (x =? i))) by (intros; lia).
    rewrite (@sum_over_ext _ (fun x => b2n (x =? j) * length coins) (fun x => length coins * b2n (x =? j))) by (intros; lia).
    rewrite !sum_over_mul, !eq_seq by lia. lia.
  - intros x Hx. apply in_seq in Hx. rewrite sum_over_flat_map.
    rewrite (@sum_over_ext _ _ (fun y => (b2n (x =? i) * length coins) * b2n (y =? j - 1) + (b2n (x =? j) * length coins) * b2n (y =? i))).
    + rewrite sum_over_plus, !sum_over_mul, !eq_seq by lia. lia.
    + intros y Hy. apply in_seq in Hy. rewrite sum_over_map. cbn [hit fst snd].
      rewrite sum_over_const. unfold pairb, two_drawn. cbn [fst snd].
      destruct (Nat.ltb_spec y x); destruct (Nat.eqb_spec x i), (Nat.eqb_spec x j), (Nat.eqb_spec y (j - 1)), (Nat.eqb_spec y i);
        try lia;
        repeat match goal with |- context [?a =? ?b] => destruct (Nat.eqb_spec a b) end; cbn [andb orb b2n]; try lia.
Qed.

Lemma misses_of n coins i j : i < j -> j < n ->
  count (fun d => negb (hit d (i, j))) (pair_draws n coins) = (length (pairs_below n) - 1) * (2 * length coins).
Proof.
  intros Hi Hj. pose proof (hits_of coins Hi Hj) as H.
  assert (S : count (fun d => negb (hit d (i, j))) (pair_draws n coins) + count (fun d => hit d (i, j)) (pair_draws n coins) =
    length (pair_draws n coins)).
  { unfold count. generalize (pair_draws n coins) as l. induction l as [|d l IH]; auto. cbn [filter length].
    destruct (hit d (i, j)); cbn [negb length]; lia. }
  rewrite pair_draws_length in S. pose proof (er_pairs_length n) as Lp.
  rewrite (Permutation_length (pairs_perm n)) in Lp. nia.
Qed.

Lemma pair_dec (x y : nat * nat) : {x = y} + {x <> y}.
Proof. decide equality; apply Nat.eq_dec. Defined.

Section Rate.
Variables (E R : Type) (jn : E -> nat -> nat -> bool).
Variables (randomize : E -> rng -> outcome (E * rng)) (m_step : E -> rng -> outcome (R * E * rng)).
Variables (ok : E -> Prop) (n : nat) (acc : nat -> nat -> nat -> bool).
Hypothesis acc_sym : forall a b z, acc a b z = acc b a z.
Hypothesis rnd_local : forall e, local (randomize e).
Hypothesis stp_local : forall e, local (m_step e).
Hypothesis rnd_ok : forall e ws, ok e -> length ws = length (er_pairs n) ->
  exists e', randomize e ws = Done (e', []) /\ ok e' /\
    forall k i j r, nth_error (er_pairs n) k = Some (i, j) -> nth_error ws k = Some r -> jn e' i j = acc i j r.
Hypothesis stp_ok : forall e x y z, ok e -> x < n -> y < n - 1 ->
  exists r e', m_step e [x; y; z] = Done (r, e', []) /\ ok e' /\
    forall i j, i < n -> j < n -> jn e' i j =
      if pairb (fst (two_drawn x y)) (snd (two_drawn x y)) i j
      then acc (fst (two_drawn x y)) (snd (two_drawn x y)) z else jn e i j.
Variable coins : list nat.
Hypothesis Hn : 2 <= n.

Local Notation D := (pair_draws n coins).
Local Notation go := (nxt m_step).
Local Notation pairs := (pairs_below n).
Local Notation miss := ((length pairs - 1) * (2 * length coins)).

(** The statement is about the pairs that are joined. *)
Variable f : (nat -> nat -> bool) -> bool.
Hypothesis f_ext : forall A B, (forall i j, i < j -> j < n -> A i j = B i j) -> f A = f B.

Lemma rstep s d : ok s -> In d D -> exists r s', m_step s d = Done (r, s', []) /\ ok s'.
Proof using stp_ok Hn.
  intros O Hd. apply pair_draws_In in Hd as (x & y & z & -> & Hx & Hy).
  destruct (stp_ok z O Hx Hy) as (r & s' & H & O' & _). eauto.
Qed.

Lemma go_jn s d i j : ok s -> In d D -> i < j -> j < n ->
  forall t, ok t -> (hit d (i, j) = true \/ jn s i j = jn t i j) -> jn (go s d) i j = jn (go t d) i j.
Proof using stp_ok Hn.
  intros O Hd Hi Hj t Ot H. apply pair_draws_In in Hd as (x & y & z & -> & Hx & Hy).
  destruct (stp_ok z O Hx Hy) as (r & s' & Es & _ & Js). destruct (stp_ok z Ot Hx Hy) as (r' & t' & Et & _ & Jt).
  unfold nxt. rewrite Es, Et, Js, Jt by lia. cbn [hit fst snd] in H.
  destruct (pairb _ _ i j); auto. destruct H; auto. discriminate.
Qed.

(** Two chains with the same draws differ at most in pairs that have not been drawn. *)
Lemma coupling k : forall l x y, ok x -> ok y -> incl l pairs ->
  (forall i j, i < j -> j < n -> In (i, j) l \/ jn x i j = jn y i j) ->
  ways m_step D (fun s => f (jn s)) k x <= ways m_step D (fun s => f (jn s)) k y + length l * miss ^ k.
Proof using stp_ok Hn f_ext.
  induction k as [|k IH]; intros l x y Ox Oy Hl H; cbn [ways].
  - destruct l as [|ij l].
    + rewrite (@f_ext (jn x) (jn y)); [lia|]. intros i j Hi Hj. destruct (H i j Hi Hj) as [[]|]; auto.
    + cbn [length Nat.pow]. destruct (f (jn x)), (f (jn y)); cbn [b2n]; lia.
  - transitivity (sum_over (fun d => ways m_step D (fun s => f (jn s)) k (go y d) +
      length (filter (fun ij => negb (hit d ij)) l) * miss ^ k) D).
    + apply sum_over_le. intros d Hd. apply IH.
      * apply (nxt_inv rstep Ox Hd).
      * apply (nxt_inv rstep Oy Hd).
      * intros ij I. apply filter_In in I. apply Hl. tauto.
      * intros i j Hi Hj. destruct (hit d (i, j)) eqn:Eh.
        -- right. apply go_jn; auto.
        -- destruct (H i j Hi Hj) as [I|Q].
           ++ left. apply filter_In. rewrite Eh. auto.
           ++ right. apply go_jn; auto.
    + rewrite sum_over_plus. apply Nat.add_le_mono_l.
      rewrite (@sum_over_ext _ _ (fun d => miss ^ k * length (filter (fun ij => negb (hit d ij)) l))) by (intros; lia).
      rewrite sum_over_mul.
      rewrite (@sum_over_ext _ _ (fun d => sum_over (fun ij => b2n (negb (hit d ij))) l)) by (intros; apply length_filter_sum).
      rewrite sum_over_exchange.
      rewrite (@sum_over_ext _ _ (fun _ => miss)).
      * rewrite sum_over_const. cbn [Nat.pow]. nia.
      * intros [i j] I. apply Hl, In_pairs_below in I. rewrite <- (misses_of coins (i := i) (j := j)) by lia.
        unfold count. rewrite length_filter_sum. auto.
Qed.

(** *** The samples *)

Lemma ways_parts k : forall s, ok s -> ways m_step D (fun s => f (jn s)) k s =
  sum_over (fun l => b2n (f (member l)) * ways m_step D (fun s => joinsb (jn s) (member l) n) k s) (sublists pairs).
Proof using stp_ok Hn f_ext.
  induction k as [|k IH]; intros s O; cbn [ways].
  - set (l0 := filter (fun ij => jn s (fst ij) (snd ij)) pairs).
    assert (M0 : forall i j, i < j -> j < n -> jn s i j = member l0 i j).
    { intros i j Hi Hj. apply eq_true_iff_eq. rewrite member_In. unfold l0. rewrite filter_In, In_pairs_below.
      replace (Nat.min i j) with i by lia. replace (Nat.max i j) with j by lia. cbn [fst snd]. tauto. }
    rewrite (@sum_over_ext _ _ (fun l => b2n (f (jn s)) * b2n (if list_eq_dec pair_dec l l0 then true else false))).
    + rewrite sum_over_mul, <- length_filter_sum, (@filter_single _ _ l0).
      * cbn [length]. lia.
      * apply sublists_NoDup, NoDup_pairs_below.
      * apply filter_sublist.
      * destruct (list_eq_dec _ l0 l0); congruence.
      * intros l _. destruct (list_eq_dec _ l l0); congruence.
    + intros l Hl. destruct (list_eq_dec _ l l0) as [->|Ne]; cbn [b2n].
      * rewrite (@f_ext (jn s) (member l0)) by auto. replace (joinsb (jn s) (member l0) n) with true; auto.
        symmetry. apply joinsb_iff. auto.
      * replace (joinsb (jn s) (member l) n) with false; [cbn; lia|]. symmetry. apply not_true_iff_false. rewrite joinsb_iff.
        intros K. apply Ne. symmetry. apply sublist_select; auto; [apply NoDup_pairs_below|]. intros [i j] I.
        apply In_pairs_below in I as I'. cbn [fst snd]. rewrite K by lia. rewrite member_In.
        replace (Nat.min i j) with i by lia. replace (Nat.max i j) with j by lia. tauto.
  - rewrite (@sum_over_ext _ _ (fun d => sum_over (fun l => b2n (f (member l)) * ways m_step D (fun s => joinsb (jn s) (member l) n) k (go s d))
      (sublists pairs))) by (intros d Hd; apply IH, (nxt_inv rstep O Hd)).
    rewrite sum_over_exchange. apply sum_over_ext. intros l _. apply sum_over_mul.
Qed.

Hypothesis Hc : coins <> [].
Let samp e (d : list nat) : E := match randomize e d with Done (s', _) => s' | _ => e end.
Local Notation ws := (words (length pairs) coins).

Lemma samp_ok e d : ok e -> In d ws -> exists s', randomize e d = Done (s', []) /\ ok s'.
Proof using rnd_ok.
  intros O Hd. apply words_length in Hd. rewrite <- (Permutation_length (pairs_perm n)) in Hd.
  destruct (rnd_ok O Hd) as (e' & H & O' & _). eauto.
Qed.

Lemma samp_inv e d : ok e -> In d ws -> ok (samp e d).
Proof using rnd_ok. intros O Hd. destruct (samp_ok O Hd) as (s' & H & O'). unfold samp. rewrite H. auto. Qed.

Lemma sample_ways e k t : ok e ->
  sum_over (fun d => ways m_step D (fun s => joinsb (jn s) t n) k (samp e d)) ws = wt acc coins n t * length D ^ k.
Proof using acc_sym rnd_local stp_local rnd_ok stp_ok Hn.
  intros O. rewrite Nat.mul_comm.
  rewrite <- (@chain_count _ _ jn randomize m_step ok n acc two_drawn acc_sym rnd_local stp_local rnd_ok (@two_drawn_ok n) stp_ok k e coins O t).
  unfold count. rewrite length_filter_sum.
  rewrite (@chain_sum D (fun k => chain_draws n k coins) (fun _ => eq_refl) k). apply sum_over_ext. intros d Hd.
  rewrite <- (arrivals_ways stp_local rstep) by (apply samp_inv; auto). unfold arrivals, count. rewrite length_filter_sum.
  apply sum_over_ext. intros u _. unfold sample_and_steps. destruct (samp_ok O Hd) as (s' & H & I).
  rewrite (rnd_local H u). cbn [bind app]. unfold samp. rewrite H.
  destruct (m_steps m_step k s' u) as [[[l s2] [|? ?]]| | |]; auto.
Qed.

Lemma sample_all e k : ok e ->
  sum_over (fun d => ways m_step D (fun s => f (jn s)) k (samp e d)) ws = sum_over (fun d => b2n (f (jn (samp e d)))) ws * length D ^ k.
Proof using acc_sym rnd_local stp_local rnd_ok stp_ok Hn f_ext.
  intros O.
  assert (G : forall k, sum_over (fun d => ways m_step D (fun s => f (jn s)) k (samp e d)) ws =
    sum_over (fun l => b2n (f (member l)) * (wt acc coins n (member l) * length D ^ k)) (sublists pairs)).
  { intros k0. rewrite (@sum_over_ext _ _ (fun d => sum_over (fun l => b2n (f (member l)) *
      ways m_step D (fun s => joinsb (jn s) (member l) n) k0 (samp e d)) (sublists pairs))) by (intros d Hd; apply ways_parts, samp_inv; auto).
    rewrite sum_over_exchange. apply sum_over_ext. intros l _. rewrite sum_over_mul, sample_ways; auto. }
  rewrite G. specialize (G 0). cbn [ways Nat.pow] in G. rewrite G.
  rewrite (Nat.mul_comm (sum_over _ _)), <- sum_over_mul. apply sum_over_ext. intros l _. nia.
Qed.

Lemma pairs_rate e s k : ok e -> ok s ->
  distance (length ws * arrivals m_step D s (fun s => f (jn s)) k)
    (count (fun d => ends (fun s => f (jn s)) (randomize e d)) ws * length (powers k D)) <=
  length ws * (length pairs * miss ^ k).
Proof using acc_sym rnd_local stp_local rnd_ok stp_ok Hn f_ext.
  intros Oe Os. rewrite (arrivals_ways stp_local rstep), powers_length by auto.
  replace (count (fun d => ends (fun s => f (jn s)) (randomize e d)) ws) with (sum_over (fun d => b2n (f (jn (samp e d)))) ws).
  2:{ unfold count. rewrite length_filter_sum. apply sum_over_ext. intros d Hd. destruct (samp_ok Oe Hd) as (s' & H & I).
      unfold samp. rewrite H. auto. }
  rewrite <- sample_all by auto. rewrite distance_sym.
  rewrite <- (Nat.mul_1_l (distance _ _)). apply sums_distance. intros d Hd. rewrite Nat.mul_1_l.
  pose proof (samp_inv Oe Hd) as Od.
  assert (Al : forall x y : E, forall i j, i < j -> j < n -> In (i, j) pairs \/ jn x i j = jn y i j).
  { intros x y i j Hi Hj. left. apply In_pairs_below. auto. }
  apply distance_le; apply coupling; auto; apply incl_refl.
Qed.
End Rate.

Section Ensembles.
Context {T : Type}.

Lemma erc_rate p n coins k (e s0 : er_c T) f : simple_graph (erc_graph e) -> vertex_count (erc_graph e) = n -> 2 <= n ->
  simple_graph (erc_graph s0) -> vertex_count (erc_graph s0) = n -> erc_prob s0 = erc_prob e ->
  (forall A B : nat -> nat -> bool, (forall i j, i < j -> j < n -> A i j = B i j) -> f A = f B :> bool) ->
  distance (length (words (length (pairs_below n)) coins) * arrivals (erc_m_step p) (pair_draws n coins) s0 (fun s => f (adjb (erc_graph s))) k)
    (count (fun d => ends (fun s => f (adjb (erc_graph s))) (erc_randomize e d)) (words (length (pairs_below n)) coins) *
       length (powers k (pair_draws n coins))) <=
  length (words (length (pairs_below n)) coins) * (length (pairs_below n) * ((length (pairs_below n) - 1) * (2 * length coins)) ^ k).
Proof.
  intros W V Hn Ws0 Vs0 Ps0 Hf.
  apply (@pairs_rate _ _ (fun s => adjb (erc_graph s)) erc_randomize (erc_m_step p)
    (fun s => simple_graph (erc_graph s) /\ vertex_count (erc_graph s) = n /\ erc_prob s = erc_prob e) n
    (fun _ _ z => Qle_bool (unit_float z) (erc_prob e))); auto.
  - apply erc_randomize_local.
  - apply erc_m_step_local.
  - intros s ws (Ws & Vs & Ps) Lw. destruct (@erc_randomize_spec T s ws Ws) as (s' & E' & W' & V' & _ & P' & _ & _ & J).
    { rewrite Vs. lia. }
    exists s'. rewrite Vs in *. split; [rewrite E', <- Lw, skipn_all; auto|]. splits; auto; [congruence|].
    intros m i j r H1 H2. apply eq_true_iff_eq. rewrite adjb_adj, (J m i j r H1 H2), Ps, Qle_bool_iff. tauto.
  - intros s x y z (Ws & Vs & Ps) Hx Hy.
    destruct (@erc_step_effect T p s x y z [] Ws ltac:(lia)) as (a & b & r & s' & Ed & Es & _ & J).
    rewrite Vs, draw_two_small in Ed by auto. injection Ed as Ea Eb.
    exists r, s'. split; auto. destruct (erc_m_step_cases Ws Es) as (Pp & _ & C3).
    pose proof (erc_m_step_simple Ws Es) as W'. split.
    + splits; auto; [|congruence]. destruct r as [|[u v]|[u v]|]; try tauto; [congruence|..].
      * rewrite <- Vs. apply (add_edge_ok Ws C3).
      * rewrite <- Vs. apply (remove_edge_ok Ws C3).
    + intros i j _ _. rewrite <- Ps. unfold two_drawn. cbn [fst snd]. rewrite Eb, Ea. apply adjb_resampled. apply J.
Qed.

Lemma sp_rate p n coins k (e s0 : spacial T) f : simple_graph (sp_graph e) -> vertex_count (sp_graph e) = n -> 2 <= n ->
  simple_graph (sp_graph s0) -> vertex_count (sp_graph s0) = n -> sp_accept s0 = sp_accept e ->
  positions (sp_graph s0) = positions (sp_graph e) ->
  (forall a b u, sp_accept e a b u = sp_accept e b a u) ->
  (forall A B : nat -> nat -> bool, (forall i j, i < j -> j < n -> A i j = B i j) -> f A = f B :> bool) ->
  distance (length (words (length (pairs_below n)) coins) * arrivals (sp_m_step p) (pair_draws n coins) s0 (fun s => f (adjb (sp_graph s))) k)
    (count (fun d => ends (fun s => f (adjb (sp_graph s))) (sp_randomize e d)) (words (length (pairs_below n)) coins) *
       length (powers k (pair_draws n coins))) <=
  length (words (length (pairs_below n)) coins) * (length (pairs_below n) * ((length (pairs_below n) - 1) * (2 * length coins)) ^ k).
Proof.
  intros W V Hn Ws0 Vs0 As0 Ps0 Sy Hf.
  apply (@pairs_rate _ _ (fun s => adjb (sp_graph s)) sp_randomize (sp_m_step p)
    (fun s => simple_graph (sp_graph s) /\ vertex_count (sp_graph s) = n /\ sp_accept s = sp_accept e /\
       positions (sp_graph s) = positions (sp_graph e)) n (sp_accepts e)); auto.
  - intros a b z. apply Sy.
  - apply sp_randomize_local.
  - apply sp_m_step_local.
  - intros s ws (Ws & Vs & As & Ps) Lw. destruct (@sp_randomize_spec T s ws Ws) as (s' & E' & W' & V' & _ & P' & A' & J).
    { rewrite Vs. lia. }
    exists s'. rewrite Vs in *. split; [rewrite E', <- Lw, skipn_all; auto|]. splits; auto; try congruence.
    intros m i j r H1 H2. apply eq_true_iff_eq. rewrite adjb_adj, (J m i j r H1 H2). unfold sp_accepts. rewrite As, Ps. tauto.
  - intros s x y z (Ws & Vs & As & Ps) Hx Hy.
    destruct (@sp_m_step_total T p s x y z [] Ws ltac:(lia)) as (a & b & r & s' & Ed & Es & J).
    rewrite Vs, draw_two_small in Ed by auto. injection Ed as Ea Eb.
    exists r, s'. split; auto. destruct (sp_m_step_cases Ws Es) as (Ac & Pc & C3).
    pose proof (sp_m_step_simple Ws Es) as W'. split.
    + splits; auto; try congruence. destruct r as [|[u v]|[u v]|]; try tauto; [congruence|..].
      * rewrite <- Vs. apply (add_edge_ok Ws C3).
      * rewrite <- Vs. apply (remove_edge_ok Ws C3).
    + intros i j _ _. unfold two_drawn. cbn [fst snd]. rewrite Eb, Ea. apply adjb_resampled.
      replace (sp_accepts e a b z) with (sp_accepts s a b z); [apply J|]. unfold sp_accepts. rewrite As, Ps. auto.
Qed.
End Ensembles.
