(** Theorems about the Markov chain of the small-world ensemble. *)
From Verif Require Import Base BaseFacts Sums Containers Graph GraphSpec GraphFacts GraphOps GraphBuild Rng RngFacts Markov Sw SwSpec SwFacts SwChain
  PlaceSpec PlaceFacts SwReach Properties_Fresh.
From Coq Require Import QArith.
Local Open Scope nat_scope.

(** ** C85 *)

(** The states of the chain are given by the places of the edges. *)
Theorem C85_states {T : Type} : forall n (g h : graph (sw_container T)),
  sw_ok n 2 g -> sw_ok n 2 h -> payloads h = payloads g ->
  same_places n g h = true <-> sw_alike g h.
Proof.
  intros n g h I I' P. apply sw_ok_inv in I, I'. rewrite (same_places_iff I I'). split.
  - apply (places_alike I I' P).
  - apply (alike_places I I').
Qed.
Print Assumptions C85_states.

(** Of all draws for a step, how many lead from a state to another one.  The states have to
    differ in the place of exactly one edge.  If that edge ends up at another place than its
    first, it has to be chosen, the decision be for rewiring and the target be right; if it
    ends up at its first place, the decision against rewiring will also do. *)
Theorem C85_step {T : Type} : forall p n (e : sw_ensemble T) h coins, 0 < n ->
  sw_ok n 2 (sw_graph e) -> sw_ok n 2 h -> same_places n (sw_graph e) h = false ->
  count (gives n p e h) (step_draws n coins) =
  match displaced n (sw_graph e) h with
  | [(i, o)] => for_rewiring (sw_r_prob e) coins +
                (if same_place (place h i o) (Some o) then against_rewiring (sw_r_prob e) coins * (n - 1) else 0)
  | _ => 0
  end.
Proof.
  intros p n e h coins Hn I I' F. apply sw_ok_inv in I, I'. rewrite (gives_weight p coins I I' Hn F).
  apply weight_sum. pose proof (inv_size I Hn). lia.
Qed.
Print Assumptions C85_step.

(** Hence detailed balance.  The weight of a state is a product over its edges: of
    [a + b (n - 1)] for an edge at its first place and of [a] for another one. *)
Theorem C85_balance {T : Type} : forall p n (e : sw_ensemble T) h coins, 0 < n ->
  sw_ok n 2 (sw_graph e) -> sw_ok n 2 h -> same_places n (sw_graph e) h = false ->
  let a := for_rewiring (sw_r_prob e) coins in
  let b := against_rewiring (sw_r_prob e) coins in
  let w := fun g : graph (sw_container T) => (a + b * (n - 1)) ^ at_origin n g * a ^ (2 * n - at_origin n g) in
  w (sw_graph e) * count (gives n p e h) (step_draws n coins) =
  w h * count (gives n p (sw_set e h) (sw_graph e)) (step_draws n coins).
Proof.
  intros p n e h coins Hn O O' F a b w.
  assert (F' : same_places n h (sw_graph e) = false) by (unfold same_places; rewrite displaced_sym; exact F).
  rewrite (@C85_step T p n e h coins), (@C85_step T p n (sw_set e h) (sw_graph e) coins) by auto.
  cbn [sw_set sw_graph sw_r_prob]. rewrite (displaced_sym n (sw_graph e) h). fold a b.
  pose proof (inv_size (proj1 (sw_ok_inv _ _ _) O) Hn) as H5.
  destruct (displaced n (sw_graph e) h) as [|[i o] [|]] eqn:D; [rewrite !Nat.mul_0_r; auto| |rewrite !Nat.mul_0_r; auto].
  pose proof (@home_step T n (sw_graph e) h i o ltac:(lia) D) as H.
  assert (B : forall g : graph (sw_container T), at_origin n g <= 2 * n) by (intros g; apply at_origin_le).
  pose proof (B (sw_graph e)) as B1. pose proof (B h) as B2. unfold w. clear w B.
  destruct (same_place (place h i o) (Some o)) eqn:S1, (same_place (place (sw_graph e) i o) (Some o)) eqn:S2; cbn [b2n] in H.
  + replace (at_origin n h) with (at_origin n (sw_graph e)) by lia. auto.
  + replace (at_origin n h) with (S (at_origin n (sw_graph e))) in * by lia.
    replace (2 * n - at_origin n (sw_graph e)) with (S (2 * n - S (at_origin n (sw_graph e)))) by lia.
    cbn [Nat.pow]. rewrite Nat.add_0_r. set (u := (a + b * (n - 1)) ^ _). set (v := a ^ _). ring.
  + replace (at_origin n (sw_graph e)) with (S (at_origin n h)) in * by lia.
    replace (2 * n - at_origin n h) with (S (2 * n - S (at_origin n h))) by lia.
    cbn [Nat.pow]. rewrite Nat.add_0_r. set (u := (a + b * (n - 1)) ^ _). set (v := a ^ _). ring.
  + replace (at_origin n h) with (at_origin n (sw_graph e)) by lia. auto.
Qed.
Print Assumptions C85_balance.

(** Coins of which one of two decides for rewiring: the ring, and the ring with the edge from
    0 to 1 moved to 3.  Of the 120 draws for a step, one moves that edge there and six move it
    back. *)
Definition ex_away : sw_ensemble nat := Eval vm_compute in ex_moved 1 [0; 0; 2].

Example C85_case :
  sw_history Debug 6 ex_ring /\ sw_history Debug 6 ex_away /\
  displaced 6 (sw_graph ex_ring) (sw_graph ex_away) = [(0, 1)] /\
  place (sw_graph ex_ring) 0 1 = Some 1 /\ place (sw_graph ex_away) 0 1 = Some 3 /\
  at_origin 6 (sw_graph ex_ring) = 12 /\ at_origin 6 (sw_graph ex_away) = 11 /\
  for_rewiring 0 [0; 1] = 1 /\ against_rewiring 0 [0; 1] = 1 /\ length (step_draws 6 [0; 1]) = 120 /\
  count (gives 6 Debug ex_ring (sw_graph ex_away)) (step_draws 6 [0; 1]) = 1 /\
  count (gives 6 Debug ex_away (sw_graph ex_ring)) (step_draws 6 [0; 1]) = 6.
Proof.
  split; [apply ring_history|]. split.
  - apply moved_history with (k := 1) (rs := [0; 0; 2]). eexists; eexists; eexists. split; vm_compute; reflexivity.
  - vm_compute. auto 12.
Qed.

(** ** C86 *)

(** With six or more vertices, steps lead from every state to every other one. *)
Theorem C86_reach {T : Type} : forall p n (e : sw_ensemble T) h, 6 <= n ->
  sw_ok n 2 (sw_graph e) -> sw_ok n 2 h -> payloads h = payloads (sw_graph e) -> (0 <= sw_r_prob e)%Q ->
  exists k ds l e', m_steps (sw_m_step p) k e ds = Done (l, e', []) /\ sw_alike h (sw_graph e') /\ sw_r_prob e' = sw_r_prob e.
Proof.
  intros p n e h Hn I I' P Q. apply sw_ok_inv in I, I'.
  destruct (@reach_any T p n e h Hn I I' P Q) as (e' & R & A). destruct (reach_steps R) as (k & ds & l & S).
  exists k, ds, l, e'. specialize (S []). rewrite app_nil_r in S. splits; auto. apply (reach_after R I).
Qed.
Print Assumptions C86_reach.

(** In particular out of the state that [randomize] cannot leave without rewiring. *)
Example C86_case : sw_history Debug 6 ex_stuck /\ sw_history Debug 6 ex_ring /\
  payloads (sw_graph ex_ring) = payloads (sw_graph ex_stuck) /\ at_origin 6 (sw_graph ex_stuck) = 6 /\
  at_origin 6 (sw_graph ex_ring) = 12.
Proof. splits; try (vm_compute; auto; fail); [apply stuck_history|apply ring_history]. Qed.

(** With five vertices, the least that are accepted, there is only the complete graph: nothing
    ever changes, whatever the rewiring probability is. *)
Theorem C86_five {T : Type} : forall p (e : sw_ensemble T), sw_ok 5 2 (sw_graph e) ->
  (forall i j, i < 5 -> j < 5 -> i <> j -> adj (sw_graph e) i j) /\
  (forall rs s e' rs', sw_m_step p e rs = Done (s, e', rs') -> e' = e) /\
  (forall rs e' rs', sw_randomize p e rs = Done (e', rs') -> e' = e).
Proof.
  intros p e I. apply sw_ok_inv in I. splits.
  - intros i j. apply five_complete. auto.
  - intros rs s e' rs'. apply five_step. auto.
  - intros rs e' rs'. apply five_randomize. auto.
Qed.
Print Assumptions C86_five.

Definition ex_five : sw_ensemble nat := Eval vm_compute in
  match sw_new Debug (fun i => i) 5 1 (repeat 0 20) with Done (e, _) => e | _ => mk_swe (graph_new (fun i => i) 0) 0 end.

Example C86_five_case : sw_history Debug 5 ex_five /\ sw_r_prob ex_five = 1%Q /\
  sw_m_step Debug ex_five [0; 0; 2] = Done (Sw_BlockedByExistingEdge, ex_five, []) /\
  sw_randomize Debug ex_five (repeat 2 20) = Done (ex_five, []).
Proof.
  splits; try (vm_compute; auto; fail).
  apply swh_new with (mk := fun i => i) (q := 1%Q) (rs := repeat 0 20) (rs' := []). vm_compute. reflexivity.
Qed.
