(** Theorems about small-world graphs and [SwEnsemble]. *)
From Verif Require Import Base BaseFacts Sums Containers ContainerSpec ContainerFacts Graph GraphSpec GraphFacts GraphOps GraphBuild Search Traversal TraversalSpec TraversalFacts Components ComponentFacts Rng RngFacts Markov EnsembleFacts Sw SwSpec SwFacts SwChain SwConnect.
From Coq Require Import QArith.
Local Open Scope nat_scope.

(** ** C40 *)

Theorem C40_new {T : Type} : forall p (mk : nat -> T) n q rs,
  5 <= n -> 4 * n <= length rs ->
  exists e rs', sw_new p mk n q rs = Done (e, rs') /\ sw_ok n 2 (sw_graph e) /\
    payloads (sw_graph e) = map mk (seq 0 n) /\ sw_r_prob e = q.
Proof.
  intros p mk n q rs Hn Hr. pose proof (@sw_new_spec T p mk n q rs Hn) as S.
  destruct (sw_new p mk n q rs) as [[e rs']| | |]; try tauto; [|lia].
  exists e, rs'. rewrite sw_ok_inv. tauto.
Qed.
Print Assumptions C40_new.

(** Fewer than five vertices are too few: a panic, or worse in a release build. *)
Theorem C40_new_small {T : Type} : forall p (mk : nat -> T) n q rs,
  (3 <= n <= 4 -> sw_new p mk n q rs = Panic) /\
  (1 <= n <= 2 -> sw_new p mk n q rs = match p with Debug => Panic | Release => UB end).
Proof.
  intros p mk n q rs. destruct (@graph_new_spec T (sw_container T) _ _ mk n) as (W & V & _).
  split; intros Hn; unfold sw_new, sw_init_ring_2.
  - destruct (@init_ring_small T _ _ _ p (graph_new mk n) 2 W) as [g' ->]; try (rewrite V; lia).
    reflexivity.
  - rewrite (@init_ring_tiny T _ _ _ p (graph_new mk n) 2 W) by (rewrite V; lia). destruct p; reflexivity.
Qed.
Print Assumptions C40_new_small.

Theorem C40_history {T : Type} : forall p n (e : sw_ensemble T),
  5 <= n -> sw_history p n e -> sw_ok n 2 (sw_graph e).
Proof. intros p n e Hn H. apply sw_ok_inv. eapply sw_history_inv; eauto. Qed.
Print Assumptions C40_history.

(** Two edges are rooted at every vertex, so there are no leaves. *)
Theorem C40_degree {T : Type} : forall n d (g : graph (sw_container T)),
  sw_ok n d g ->
  (forall i, i < n -> exists k, degree g i = Some k /\ d <= k) /\
  (2 <= d -> leaf_count g = 0).
Proof.
  intros n d g O. apply sw_ok_inv in O.
  assert (D : forall i c, nth_error (vertices g) i = Some c -> d <= length (sc_adj c)).
  { intros i c Hc. pose proof O as (W & V & _).
    assert (Hi : i < n) by (rewrite <- V, <- (sg_len W); eapply nth_error_lt; eauto).
    rewrite <- (roots_length O Hi). unfold entries. rewrite Hc. apply filter_length_le. }
  split.
  - intros i Hi. pose proof O as (W & V & _). rewrite <- V in Hi.
    destruct (container_entries W Hi) as (c & Ec & _). exists (length (sc_adj c)).
    unfold degree. rewrite Ec. split; eauto.
  - intros Hd. unfold leaf_count. rewrite (@filter_ext_in _ _ (fun _ => false)).
    { clear. induction (vertices g); auto. }
    intros c Hc. apply In_nth_error in Hc as [i Hc]. specialize (D _ _ Hc). cbn.
    destruct (length (sc_adj c)) as [|[|k]]; auto; lia.
Qed.
Print Assumptions C40_degree.

(** [count_root] gives the number of edges rooted at the vertex. *)
Theorem C40_count_root {T : Type} : forall n d (g : graph (sw_container T)) i c,
  sw_ok n d g -> nth_error (vertices g) i = Some c ->
  sc_count_root c = d /\
  exists targets, NoDup targets /\ (forall j, In j targets <-> rooted g i j) /\
    length targets = sc_count_root c.
Proof.
  intros n d g i c O Hc. apply sw_ok_inv in O. pose proof O as (W & V & _).
  assert (Hi : i < n) by (rewrite <- V, <- (sg_len W); eapply nth_error_lt; eauto).
  assert (E : sc_count_root c = length (filter se_is_root (entries g i))).
  { unfold entries. rewrite Hc. reflexivity. }
  split; [rewrite E; apply (roots_length O Hi)|].
  exists (map se_to (filter se_is_root (entries g i))). splits.
  - apply roots_NoDup; auto.
  - intros j. symmetry. apply rooted_filter.
  - rewrite map_length, E. auto.
Qed.
Print Assumptions C40_count_root.

Theorem C40_randomize {T : Type} : forall p n (e : sw_ensemble T) rs,
  sw_ok n 2 (sw_graph e) -> 4 * n <= length rs ->
  exists e' rs', sw_randomize p e rs = Done (e', rs') /\ sw_ok n 2 (sw_graph e') /\
    payloads (sw_graph e') = payloads (sw_graph e) /\ sw_r_prob e' = sw_r_prob e.
Proof.
  intros p n e rs O Hr. apply sw_ok_inv in O.
  pose proof (@randomize_spec T p n 2 e rs O (le_n 2) (or_intror eq_refl)) as S.
  destruct (sw_randomize p e rs) as [[e' rs']| | |]; try tauto; [|lia].
  exists e', rs'. rewrite sw_ok_inv. tauto.
Qed.
Print Assumptions C40_randomize.

(** The initial ring, for every distance that fits. *)
Theorem C40_ring {T : Type} : forall p (g : graph (sw_container T)) d,
  simple_graph g -> 2 * d < vertex_count g ->
  exists g', init_ring p g d = Done (Ok tt, g') /\ sw_ok (vertex_count g) d g'.
Proof.
  intros p g d W H. destruct (sw_ring p W H) as (g' & E & I & _). exists g'. rewrite sw_ok_inv. auto.
Qed.
Print Assumptions C40_ring.

Definition ex_sw : outcome (sw_ensemble nat * list nat) :=
  sw_new Debug (fun i => i) 6 0 [0; 3; 1; 0; 4; 1; 0; 2; 1; 0; 0; 1; 1; 0; 0; 1; 0; 2; 1; 1].

Definition ex_sw_ensemble : sw_ensemble nat :=
  match ex_sw with Done (e, _) => e | _ => mk_swe (graph_new (fun i => i) 0) 0 end.

Example C40_case : sw_history Debug 6 ex_sw_ensemble /\
  map (fun i => length (nbrs (sw_graph ex_sw_ensemble) i)) (seq 0 6) <> repeat 4 6.
Proof.
  assert (E : exists rs, ex_sw = Done (ex_sw_ensemble, rs)).
  { unfold ex_sw_ensemble. destruct ex_sw as [[e rs]| | |] eqn:E; [eauto| | |];
      vm_compute in E; discriminate. }
  destruct E as [rs E]. split; [eapply swh_new; exact E|]. vm_compute. discriminate.
Qed.

(** ** C41 *)

Lemma sw_like_refl {T} (e : sw_ensemble T) : sw_like e e.
Proof. split; auto. apply alike_refl. Qed.

Theorem C41_undo {T : Type} : forall p n k (e : sw_ensemble T) rs steps e' rs',
  sw_ok n 2 (sw_graph e) ->
  m_steps (sw_m_step p) k e rs = Done (steps, e', rs') ->
  sw_ok n 2 (sw_graph e') /\ length steps = k /\
  Forall (fun s => sw_is_valid s = true) steps /\
  exists us h, undo_steps (sw_undo_step p) e' steps = Done (us, h) /\
    Forall2 sw_inverse (rev steps) us /\ sw_ok n 2 (sw_graph h) /\ sw_like e h.
Proof.
  intros p n k e rs steps e' rs' W E. apply sw_ok_inv in W.
  set (inv := fun e : sw_ensemble T => sw_inv n 2 (sw_graph e)).
  assert (SP : forall (s : sw_ensemble T) rs r s' rs', inv s -> sw_m_step p s rs = Done (r, s', rs') ->
    exists i0 i1, changed n (sw_graph s) i0 i1 r (sw_graph s') /\ sw_r_prob s' = sw_r_prob s).
  { intros s rs0 r s' rs0' I Es. pose proof (m_step_spec p rs0 I (m_step_pos I Es)) as S.
    rewrite Es in S. destruct S as (i0 & i1 & _ & C & Q). eauto. }
  assert (SI : forall (s : sw_ensemble T) rs r s' rs', inv s ->
    sw_m_step p s rs = Done (r, s', rs') -> inv s').
  { intros s rs0 r s' rs0' I Es. destruct (SP _ _ _ _ _ I Es) as (i0 & i1 & C & _).
    apply (changed_inv I C). }
  destruct (m_steps_inv (inv := inv) SI W E) as [W' Len].
  splits; auto.
  - apply sw_ok_inv, W'.
  - clear W' Len. revert e rs steps W E. induction k as [|k IH]; intros e rs steps W E; cbn [m_steps] in E.
    + injection E as <- _ _. constructor.
    + apply bind_done in E as ([[r s1] rs1] & E1 & E).
      apply bind_done in E as ([[l s2] rs2] & E2 & E). injection E as <- <- <-.
      constructor; [|apply (IH s1 rs1 l (SI _ _ _ _ _ W E1) E2)].
      destruct (SP _ _ _ _ _ W E1) as (i0 & i1 & C & _). apply (changed_valid C).
  - apply (@undo_chain _ _ _ (sw_m_step p) (sw_undo_step p) inv (@sw_like T) sw_inverse SI)
      with (h := e') in E; auto; [| |apply sw_like_refl].
    + destruct E as (us & h & E1 & F & O & S). exists us, h. splits; auto. apply sw_ok_inv, O.
    + intros s rs0 r s' rs0' Ws Es h Wh Hh. destruct (SP _ _ _ _ _ Ws Es) as (i0 & i1 & C & Q).
      destruct (undo_changed p Ws C Q Wh Hh) as (u & h' & E1 & I1 & O1 & L1 & _). eauto 10.
Qed.
Print Assumptions C41_undo.

Theorem C41_undo_quiet {T : Type} : forall p n k (e : sw_ensemble T) rs steps e' rs',
  sw_ok n 2 (sw_graph e) ->
  m_steps (sw_m_step p) k e rs = Done (steps, e', rs') ->
  exists h, undo_steps_quiet (sw_undo_step_quiet p) e' steps = Done h /\
    sw_ok n 2 (sw_graph h) /\ sw_like e h.
Proof.
  intros p n k e rs steps e' rs' W E. apply sw_ok_inv in W.
  set (inv := fun e : sw_ensemble T => sw_inv n 2 (sw_graph e)).
  assert (SP : forall (s : sw_ensemble T) rs r s' rs', inv s -> sw_m_step p s rs = Done (r, s', rs') ->
    exists i0 i1, changed n (sw_graph s) i0 i1 r (sw_graph s') /\ sw_r_prob s' = sw_r_prob s).
  { intros s rs0 r s' rs0' I Es. pose proof (m_step_spec p rs0 I (m_step_pos I Es)) as S.
    rewrite Es in S. destruct S as (i0 & i1 & _ & C & Q). eauto. }
  assert (SI : forall (s : sw_ensemble T) rs r s' rs', inv s ->
    sw_m_step p s rs = Done (r, s', rs') -> inv s').
  { intros s rs0 r s' rs0' I Es. destruct (SP _ _ _ _ _ I Es) as (i0 & i1 & C & _).
    apply (changed_inv I C). }
  destruct (m_steps_inv (inv := inv) SI W E) as [W' Len].
  apply (@undo_quiet_chain _ _ (sw_m_step p) (sw_undo_step_quiet p) inv (@sw_like T) SI)
    with (h := e') in E; auto; [| |apply sw_like_refl].
  - destruct E as (h & E1 & O & S). exists h. splits; auto. apply sw_ok_inv, O.
  - intros s rs0 r s' rs0' Ws Es h Wh Hh. destruct (SP _ _ _ _ _ Ws Es) as (i0 & i1 & C & Q).
    destruct (undo_changed p Ws C Q Wh Hh) as (u & h' & _ & _ & O1 & L1 & E1 & _). eauto.
Qed.
Print Assumptions C41_undo_quiet.

(** Undoing a step that is not the last one: it moves the edge if that can be done, does
    nothing if the edge to go back to is there already, and an edge that is missing is
    reported; the quiet version panics then.  What is not a move cannot be undone: it is
    returned as it is, and the quiet version panics for the two errors. *)
Theorem C41_undo_any {T : Type} : forall p n d (e : sw_ensemble T) i old new step,
  sw_ok n d (sw_graph e) -> i < n -> old < n -> new < n -> i <> old -> i <> new -> old <> new ->
  step = Sw_Rewire i old new \/ step = Sw_Reset i old new ->
  (rooted (sw_graph e) i new -> ~ adj (sw_graph e) i old ->
     exists e', sw_undo_step p e step = Done (Sw_Rewire i new old, e') /\
       sw_undo_step_quiet p e step = Done e' /\
       rooted (sw_graph e') i old /\ ~ adj (sw_graph e') i new) /\
  (rooted (sw_graph e) i new -> adj (sw_graph e) i old ->
     sw_undo_step p e step = Done (Sw_BlockedByExistingEdge, e) /\
     sw_undo_step_quiet p e step = Done e) /\
  (~ adj (sw_graph e) i new ->
     sw_undo_step p e step = Done (Sw_InvalidAdjecency, e) /\
     sw_undo_step_quiet p e step = Panic).
Proof.
  intros p n d e i old new step O Hi Ho Hn N1 N2 N3 St. apply sw_ok_inv in O.
  pose proof O as (W & V & _).
  assert (SE : sw_set e (sw_graph e) = e) by (destruct e; reflexivity).
  assert (U : sw_undo_step p e step =
    do ' (s, g) <- sw_rewire_edge p (sw_graph e) i new old; Done (s, sw_set e g))
    by (destruct St as [->| ->]; reflexivity).
  assert (Q : sw_undo_step_quiet p e step =
    do ' (s, g) <- sw_rewire_edge p (sw_graph e) i new old;
    if sw_is_valid s then Done (sw_set e g) else Panic)
    by (destruct St as [->| ->]; reflexivity).
  rewrite U, Q. clear U Q St. split; [|split].
  - intros [o R] A. destruct (rewire_ok p O R (not_eq_sym N3) N1 Ho A) as (g' & E & M).
    rewrite E. cbn [bind sw_is_valid]. eexists. split; [reflexivity|]. split; [reflexivity|].
    cbn [sw_graph sw_set]. pose proof (rooted_adj (ex_intro _ o R)) as Ad.
    assert (MI := fun x e0 => @moved_In T (sw_graph e) i new old o g' W N2 N1 (not_eq_sym N3) M x e0).
    split.
    + exists o. apply MI; auto.
    + intros K. apply adj_entries in K as (x & Hx & Ex).
      apply MI in Hx; auto.
      destruct Hx as [(H & K & _)|[[_ H]|[H _]]].
      * apply K. split; auto. apply (entry_unique W H R). cbn. auto.
      * rewrite H in Ex. cbn in Ex. congruence.
      * congruence.
  - intros [o R] A. rewrite (rewire_blocked p O R) by auto. cbn [bind sw_is_valid].
    rewrite SE. auto.
  - intros A. rewrite rewire_missing by (auto; rewrite V; auto). cbn [bind sw_is_valid].
    rewrite SE. auto.
Qed.
Print Assumptions C41_undo_any.

Theorem C41_undo_other {T : Type} : forall p (e : sw_ensemble T) step,
  match step with Sw_Rewire _ _ _ | Sw_Reset _ _ _ => False | _ => True end ->
  sw_undo_step p e step = Done (step, e) /\
  (step = Sw_Nothing \/ step = Sw_BlockedByExistingEdge -> sw_undo_step_quiet p e step = Done e) /\
  (step <> Sw_Nothing -> step <> Sw_BlockedByExistingEdge -> sw_undo_step_quiet p e step = Panic).
Proof.
  intros p e [| | | | |err] H; try tauto; (split; [reflexivity|split; [intros [K|K]|intros]]);
    try discriminate; try congruence; try reflexivity.
Qed.
Print Assumptions C41_undo_other.

(** A step always returns, and moves at most the one edge it reports. *)
Theorem C41_step {T : Type} : forall p n (e : sw_ensemble T) rs,
  sw_ok n 2 (sw_graph e) -> 0 < n -> 3 <= length rs ->
  exists s e' rs', sw_m_step p e rs = Done (s, e', rs') /\ sw_ok n 2 (sw_graph e') /\
    payloads (sw_graph e') = payloads (sw_graph e) /\ sw_r_prob e' = sw_r_prob e /\
    match s with
    | Sw_Nothing | Sw_BlockedByExistingEdge => e' = e
    | Sw_Rewire i0 i1 i2 | Sw_Reset i0 i1 i2 =>
        ~ adj (sw_graph e) i0 i2 /\ exists o, rooted_from (sw_graph e) i0 i1 o /\
        forall x y t, rooted_from (sw_graph e') x y t <->
          (rooted_from (sw_graph e) x y t /\ ~ (x = i0 /\ y = i1)) \/ (x = i0 /\ y = i2 /\ t = o)
    | _ => False
    end.
Proof.
  intros p n e rs O Hn Hr. apply sw_ok_inv in O. pose proof (m_step_spec p rs O Hn) as S.
  destruct (sw_m_step p e rs) as [[[s e'] rs']| | |]; try tauto; [|lia].
  destruct S as (i0 & i1 & _ & C & Q). exists s, e', rs'. destruct (changed_inv O C) as [I' P'].
  rewrite sw_ok_inv. splits; auto.
  destruct C as [[Hs Eg]|(i2 & o & Hs & N1 & N2 & N3 & H0 & H1 & H2 & A & R & M)].
  - assert (e' = e) by (destruct e, e'; cbn in *; congruence). destruct Hs as [->| ->]; auto.
  - assert (X : ~ adj (sw_graph e) i0 i2 /\ exists o, rooted_from (sw_graph e) i0 i1 o /\
        forall x y t, rooted_from (sw_graph e') x y t <->
          (rooted_from (sw_graph e) x y t /\ ~ (x = i0 /\ y = i1)) \/ (x = i0 /\ y = i2 /\ t = o)).
    { split; auto. exists o. split; auto. intros x y t. unfold rooted_from.
      rewrite (moved_In (proj1 O) N1 N2 N3 M). split.
      - intros [(H & K & _)|[[-> H]|[_ H]]]; try discriminate.
        + left. split; auto. intros [-> ->]. apply K. split; auto. apply (entry_unique (proj1 O) H R). auto.
        + injection H as -> ->. auto.
      - intros [[H K]|(-> & -> & ->)]; auto. left. splits; auto.
        + intros [-> E]. injection E as -> ->. auto.
        + intros [_ E]. discriminate. }
    destruct Hs as [->| ->]; exact X.
Qed.
Print Assumptions C41_step.

(** Resetting puts an edge back to where it started. *)
Theorem C41_reset {T : Type} : forall p n d (g : graph (sw_container T)) i j o,
  sw_ok n d g -> rooted_from g i j o ->
  exists s g', sw_reset_edge p g i j = Done (s, g') /\ sw_ok n d g' /\
    ((s = Sw_Nothing /\ g' = g /\ o = j) \/
     (s = Sw_BlockedByExistingEdge /\ g' = g /\ o <> j /\ adj g i o) \/
     (s = Sw_Reset i j o /\ o <> j /\ rooted_from g' i o o /\ ~ adj g' i j)).
Proof.
  intros p n d g i j o O R. apply sw_ok_inv in O. pose proof O as (W & V & _ & _ & P).
  destruct (root_end W P R) as (N1 & H0 & H1 & _). rewrite V in *.
  destruct (rooted_from_range O R) as [Ho No].
  destruct (Nat.eq_dec o j) as [->|N].
  - exists Sw_Nothing, g. rewrite (reset_nothing p O R), sw_ok_inv. auto 10.
  - destruct (adj_dec g i o) as [A|A].
    + exists Sw_BlockedByExistingEdge, g. rewrite (reset_blocked p O R N A), sw_ok_inv. auto 10.
    + destruct (reset_ok p O R N ltac:(auto) Ho A) as (g' & E & M).
      assert (N' : j <> o) by auto.
      exists (Sw_Reset i j o), g'. rewrite sw_ok_inv. splits; auto.
      { apply (moved_inv O N1 (not_eq_sym No) N' H0 H1 Ho A M). }
      pose proof (moved_In W N1 (not_eq_sym No) N' M) as Im.
      right. right. splits; auto.
      * apply Im. auto.
      * intros X. apply adj_entries in X as (x & Hx & Ex).
        apply Im in Hx as [(Hx & Hx1 & _)|[[_ ->]|[? _]]]; cbn in Ex; try congruence.
        apply Hx1. split; auto. apply (entry_unique W Hx R). auto.
Qed.
Print Assumptions C41_reset.

Definition ex_sw_steps := m_steps (sw_m_step Debug) 3 ex_sw_ensemble [3; 0; 2; 8; 0; 1; 0; 1; 4].

Example C41_case : match ex_sw_steps with
  | Done (steps, e', _) => steps <> [] /\ sw_graph e' <> sw_graph ex_sw_ensemble
  | _ => False
  end.
Proof. vm_compute. split; discriminate. Qed.

(** ** C42 *)

Theorem C42_make_connected {T : Type} : forall p n (e : sw_ensemble T),
  sw_ok n 2 (sw_graph e) ->
  exists e', (forall fuel, n < fuel -> sw_make_connected p fuel e = Done e') /\
    connected (sw_graph e') /\ sw_ok n 2 (sw_graph e') /\
    payloads (sw_graph e') = payloads (sw_graph e) /\ sw_r_prob e' = sw_r_prob e /\
    (connected (sw_graph e) -> e' = e).
Proof.
  intros p n e O. apply sw_ok_inv in O.
  destruct (@sw_connect_spec T p n n (sw_graph e) O) as (g' & F & I & P & C & Q); [lia|].
  exists (sw_set e g'). cbn [sw_set sw_graph sw_r_prob]. rewrite sw_ok_inv. splits; auto.
  - intros fuel Hf. unfold sw_make_connected. rewrite (F fuel Hf). reflexivity.
  - intros H. rewrite (Q H). destruct e; reflexivity.
Qed.
Print Assumptions C42_make_connected.

(** A small-world graph that falls apart: ten vertices in two groups of five. *)
Definition ex_sw_ring : sw_ensemble nat :=
  match sw_new Debug (fun i : nat => i) 10 0 (repeat 1 40) with
  | Done (e, _) => e
  | _ => ex_sw_ensemble
  end.
Definition ex_sw_apart : sw_ensemble nat :=
  match m_steps (sw_m_step Debug) 6 ex_sw_ring
          [7; 0; 0; 8; 0; 0; 9; 0; 1; 17; 0; 5; 18; 0; 5; 19; 0; 6] with
  | Done (_, e, _) => e
  | _ => ex_sw_ensemble
  end.

Example ex_sw_apart_ok : sw_ok 10 2 (sw_graph ex_sw_apart).
Proof.
  assert (R : sw_ok 10 2 (sw_graph ex_sw_ring)).
  { unfold ex_sw_ring.
    destruct (@C40_new nat Debug (fun i => i) 10 0 (repeat 1 40)) as (e & rs & -> & O & _); [lia| |exact O].
    rewrite repeat_length. lia. }
  unfold ex_sw_apart.
  destruct (m_steps _ _ _ _) as [[[st e] rs]| | |] eqn:E; try (vm_compute in E; discriminate).
  apply (C41_undo _ _ _ _ _ _ _ _ R E).
Qed.

Example C42_case :
  is_connected (sw_graph ex_sw_apart) = Done (Some false) /\
  match sw_make_connected Debug 11 ex_sw_apart with
  | Done e => is_connected (sw_graph e) = Done (Some true)
  | _ => False
  end.
Proof. vm_compute. auto. Qed.

(** ** C43 *)

(** The target: every vertex but the root, each from one draw. *)
Theorem C43_target : forall n i rs, i < n -> 1 < n ->
  (forall r, exists x, draw_remaining i (n - 1) (r :: rs) = Done (x, rs) /\ x < n /\ x <> i) /\
  (forall x, x < n -> x <> i -> exists! r, r < n - 1 /\ draw_remaining i (n - 1) (r :: rs) = Done (x, rs)).
Proof.
  intros n i rs Hi Hn. split.
  - intros r. rewrite draw_remaining_cons by lia. eexists. split; [reflexivity|].
    apply remaining_range; auto.
  - intros x Hx Nx. exists (if x <? i then x else x - 1). split.
    + split; [destruct (Nat.ltb_spec x i); lia|]. rewrite draw_remaining_cons by lia.
      rewrite Nat.mod_small by (destruct (Nat.ltb_spec x i); lia). f_equal. f_equal.
      destruct (Nat.ltb_spec x i); [destruct (Nat.ltb_spec x i)|destruct (Nat.ltb_spec (x - 1) i)]; lia.
    + intros r [Hr E]. rewrite draw_remaining_cons, Nat.mod_small in E by lia. injection E as E.
      destruct (Nat.ltb_spec r i), (Nat.ltb_spec x i); lia.
Qed.
Print Assumptions C43_target.

(** The edge: every rooted edge from one draw. *)
Theorem C43_edge {T : Type} : forall n (e : sw_ensemble T) rs,
  sw_ok n 2 (sw_graph e) -> 0 < n ->
  (forall r, exists i j, sw_draw_edge e (r :: rs) = Done (i, j, rs) /\ rooted (sw_graph e) i j) /\
  (forall i j, rooted (sw_graph e) i j ->
     exists! r, r < 2 * n /\ sw_draw_edge e (r :: rs) = Done (i, j, rs)).
Proof.
  intros n e rs O Hn. apply sw_ok_inv in O. split.
  - intros r. destruct (draw_edge_spec r rs O Hn) as (j & E & R & _). eauto.
  - intros i j R. pose proof O as (W & V & _).
    assert (Hi : i < n) by (rewrite <- V; destruct (adj_lt W (rooted_adj R)); auto).
    pose proof (roots_length O Hi) as L. rewrite <- (map_length se_to) in L.
    pose proof (roots_NoDup i W) as ND.
    apply rooted_filter in R. destruct (In_nth_error _ _ R) as [k Hk].
    assert (Kl : k < 2) by (rewrite <- L; eapply nth_error_lt; eauto).
    assert (X : forall a, a < 2 * n -> exists j', sw_draw_edge e (a :: rs) = Done (a / 2, j', rs) /\
      nth_error (map se_to (filter se_is_root (entries (sw_graph e) (a / 2)))) (a mod 2) = Some j').
    { intros a Ha. destruct (draw_edge_spec a rs O Hn) as (j' & E & _ & F).
      rewrite (Nat.mod_small a) in * by lia. eauto. }
    exists (i * 2 + k). split.
    + split; [lia|]. destruct (X (i * 2 + k)) as (j' & E & F); [lia|].
      rewrite Nat.div_add_l, (Nat.div_small k), Nat.add_0_r in * by lia.
      replace ((i * 2 + k) mod 2) with k in F.
      * rewrite E. congruence.
      * rewrite Nat.add_comm, Nat.mod_add, Nat.mod_small by lia. auto.
    + intros r [Hr E]. destruct (X r Hr) as (j' & E' & F). rewrite E in E'.
      assert (Ei : i = r / 2) by congruence. assert (Ej : j = j') by congruence. rewrite <- Ei, <- Ej in F.
      assert (K : k = r mod 2).
      { rewrite NoDup_nth_error in ND. apply ND; [rewrite L; auto|congruence]. }
      pose proof (Nat.div_mod_eq r 2). lia.
Qed.
Print Assumptions C43_edge.

Example C43_case : draw_remaining 2 4 [2] = Done (3, []) /\ draw_remaining 2 4 [1] = Done (1, []) /\
  exists j, sw_draw_edge ex_sw_ensemble [5] = Done (2, j, []).
Proof. split; [reflexivity|]. split; [reflexivity|]. eexists. vm_compute. reflexivity. Qed.

(** ** C44 *)

(** Distance two is the only distance that works everywhere. *)
Theorem C44_distance_two {T : Type} : forall p (mk : nat -> T) n q rs,
  5 <= n -> 4 * n <= length rs ->
  exists e rs', sw_new_with_distance p mk n 2 q rs = Done (Ok (e, rs')) /\ sw_ok n 2 (sw_graph e).
Proof.
  intros p mk n q rs Hn Hr. destruct (@graph_new_spec T (sw_container T) _ _ mk n) as (W & V & _).
  destruct (@sw_ring T p (graph_new mk n) 2 W) as (g & E & I & _); [rewrite V; lia|].
  unfold sw_new_with_distance. rewrite E. cbn [bind]. rewrite V in I.
  pose proof (@randomize_spec T p n 2 (mk_swe g q) rs I (le_n 2) (or_intror eq_refl)) as S.
  destruct (sw_randomize p (mk_swe g q) rs) as [[e rs']| | |]; try tauto; [|lia].
  exists e, rs'. rewrite sw_ok_inv. split; [reflexivity|tauto].
Qed.
Print Assumptions C44_distance_two.

(** Distance one panics for every number of vertices and every draw. *)
Theorem C44_distance_one_panics {T : Type} : forall p (mk : nat -> T) n q rs,
  3 <= n -> sw_new_with_distance p mk n 1 q rs = Panic.
Proof.
  intros p mk n q rs Hn. destruct (@graph_new_spec T (sw_container T) _ _ mk n) as (W & V & _).
  destruct (@sw_ring T p (graph_new mk n) 1 W) as (g & E & I & _); [rewrite V; lia|].
  unfold sw_new_with_distance. rewrite E. cbn [bind]. rewrite V in I.
  unfold sw_randomize. cbn [sw_graph]. pose proof I as (Wg & Vg & _). rewrite Vg.
  destruct n as [|n]; [lia|]. cbn [seq foldM]. unfold sw_randomize_vertex at 1. cbn [sw_graph].
  assert (H0 : 0 < vertex_count g) by lia. destruct (container_entries Wg H0) as (c & Ec & _ & Ac).
  unfold vget. rewrite Ec. cbn [bind]. cbv zeta. rewrite Ac.
  pose proof (@roots_length T _ _ g 0 I ltac:(lia)) as L.
  destruct (filter se_is_root (entries g 0)) as [|a [|b l]]; cbn [length] in L; try discriminate.
  reflexivity.
Qed.
Print Assumptions C44_distance_one_panics.

(** Greater distances panic in a debug build ... *)
Theorem C44_distance_three_panics {T : Type} : forall (mk : nat -> T) n d q rs,
  3 <= d -> 2 * d < n -> sw_new_with_distance Debug mk n d q rs = Panic.
Proof.
  intros mk n d q rs Hd Hn. destruct (@graph_new_spec T (sw_container T) _ _ mk n) as (W & V & _).
  destruct (@sw_ring T Debug (graph_new mk n) d W) as (g & E & I & _); [rewrite V; lia|].
  unfold sw_new_with_distance. rewrite E. cbn [bind]. rewrite V in I.
  unfold sw_randomize. cbn [sw_graph]. pose proof I as (Wg & Vg & _). rewrite Vg.
  destruct n as [|n]; [lia|]. cbn [seq foldM]. unfold sw_randomize_vertex at 1. cbn [sw_graph].
  assert (H0 : 0 < vertex_count g) by lia. destruct (container_entries Wg H0) as (c & Ec & _ & Ac).
  unfold vget. rewrite Ec. cbn [bind]. cbv zeta. rewrite Ac.
  pose proof (@roots_length T _ _ g 0 I ltac:(lia)) as L.
  destruct (filter se_is_root (entries g 0)) as [|a [|b [|c' l]]]; cbn [length] in L; try lia.
  reflexivity.
Qed.
Print Assumptions C44_distance_three_panics.

(** ... and in a release build give an ensemble whose steps panic for some draws. *)
Theorem C44_distance_release_steps_panic {T : Type} : forall (mk : nat -> T) n d q rs,
  3 <= d -> 2 * d < n -> 4 * n <= length rs ->
  exists e rs', sw_new_with_distance Release mk n d q rs = Done (Ok (e, rs')) /\
    sw_ok n d (sw_graph e) /\
    forall r rs2, 2 * n <= r < n * d -> sw_m_step Release e (r :: rs2) = Panic.
Proof.
  intros mk n d q rs Hd Hn Hr. destruct (@graph_new_spec T (sw_container T) _ _ mk n) as (W & V & _).
  destruct (@sw_ring T Release (graph_new mk n) d W) as (g & E & I & _); [rewrite V; lia|].
  unfold sw_new_with_distance. rewrite E. cbn [bind]. rewrite V in I.
  pose proof (@randomize_spec T Release n d (mk_swe g q) rs I ltac:(lia) (or_introl eq_refl)) as S.
  destruct (sw_randomize Release (mk_swe g q) rs) as [[e rs']| | |]; try tauto; [|lia].
  destruct S as (I' & _). exists e, rs'. rewrite sw_ok_inv. splits; auto.
  intros r rs2 Hk. pose proof I' as (W' & V' & E' & _).
  unfold sw_m_step, sw_draw_edge. rewrite E', gen_range_small by lia. cbn [bind]. cbv zeta.
  unfold container, vget. rewrite (proj2 (nth_error_None (vertices (sw_graph e)) (r / 2))); [reflexivity|].
  rewrite (sg_len W'), V'. apply Nat.div_le_lower_bound; lia.
Qed.
Print Assumptions C44_distance_release_steps_panic.

(** So the constructor does not work for every distance that fits. *)
Theorem C44_every_distance_refuted : exists n d,
  1 <= d /\ 2 * d < n /\
  forall p (mk : nat -> nat) q rs, sw_new_with_distance p mk n d q rs = Panic.
Proof. exists 3, 1. splits; try lia. intros. apply C44_distance_one_panics. lia. Qed.
Print Assumptions C44_every_distance_refuted.

Example C44_case : 2 * 7 <= 17 < 7 * 3 /\
  sw_new_with_distance Debug (fun i : nat => i) 7 3 (1 # 2) (repeat 0 28) = Panic.
Proof. split; [lia|]. vm_compute. reflexivity. Qed.

(** ** C45 *)

Theorem C45_edges {T : Type} : forall n d (g : graph (sw_container T)),
  sw_ok n d g ->
  exists l, NoDup l /\ (forall i j, In (i, j) l <-> long_range g i j) /\
    (forall i j, In (i, j) l -> ~ In (j, i) l) /\
    count_long_ranging_edges g = length l /\ length l <= edge_count g /\
    frac_long_ranging_edges g = (length l, edge_count g).
Proof.
  intros n d g O. pose proof O as O'. apply sw_ok_inv in O. pose proof O as (W & V & E & _).
  exists (long_pairs g). splits.
  - apply long_pairs_NoDup; auto.
  - intros i j. apply long_pairs_In; auto.
  - intros i j. rewrite !long_pairs_In by auto. intros (o & H & _) (o' & H' & _).
    assert (R : rooted g i j) by (exists o; auto). assert (R' : rooted g j i) by (exists o'; auto).
    destruct (so_one_root O' _ _ (rooted_adj R)) as [[_ N]|[_ N]]; auto.
  - apply long_pairs_length.
  - rewrite E. unfold long_pairs. rewrite (sg_len W), V.
    assert (K : forall i, i < n -> length (long_list g i) <= d).
    { intros i Hi. rewrite <- (roots_length O Hi). unfold long_list. rewrite map_length.
      induction (entries g i) as [|[t [o|]] l IH]; cbn; auto. destruct (negb (o =? t)); cbn; lia. }
    assert (F : forall m, m <= n ->
      length (flat_map (fun i => map (pair i) (long_list g i)) (seq 0 m)) <= m * d).
    { induction m as [|m IH]; intros Hm; [apply Nat.le_refl|].
      rewrite seq_S, flat_map_app, app_length. cbn [flat_map plus]. rewrite app_nil_r, map_length.
      specialize (K m ltac:(lia)). specialize (IH ltac:(lia)). lia. }
    apply F; lia.
  - unfold frac_long_ranging_edges. rewrite long_pairs_length. reflexivity.
Qed.
Print Assumptions C45_edges.

Lemma marked_list (marks : list bool) : exists l, NoDup l /\
  (forall v, In v l <-> nth_error marks v = Some true) /\ length (filter (fun b => b) marks) = length l.
Proof.
  exists (filter (fun v => match nth_error marks v with Some b => b | None => false end) (seq 0 (length marks))).
  splits.
  - apply NoDup_filter, seq_NoDup.
  - intros v. rewrite filter_In, in_seq. split.
    + intros [_ H]. destruct (nth_error marks v); congruence.
    + intros H. rewrite H. split; auto. pose proof (nth_error_lt _ _ H). lia.
  - induction marks as [|b l IH] using rev_ind; auto.
    rewrite app_length. cbn [length]. rewrite Nat.add_1_r, seq_S, !filter_app, !app_length. cbn [plus filter].
    rewrite nth_error_app2, Nat.sub_diag by lia. cbn [nth_error].
    rewrite IH. f_equal; [f_equal; apply filter_ext_in|destruct b; auto].
    intros v Hv. apply in_seq in Hv. rewrite nth_error_app1 by lia. auto.
Qed.

Theorem C45_nodes {T : Type} : forall (g : graph (sw_container T)),
  simple_graph g ->
  exists l, NoDup l /\
    (forall v, In v l <-> exists u, long_range g u v \/ long_range g v u) /\
    count_nodes_with_long_ranging_edges g = Done (length l) /\
    frac_nodes_wlre g = Done (length l, vertex_count g).
Proof.
  intros g W. destruct (count_nodes_spec W) as (marks & E & L & N).
  destruct (marked_list marks) as (l & ND & I & Len). exists l. splits; auto.
  - intros v. rewrite I, N. reflexivity.
  - congruence.
  - unfold frac_nodes_wlre. rewrite E, Len. reflexivity.
Qed.
Print Assumptions C45_nodes.

Example C45_case :
  count_long_ranging_edges (sw_graph ex_sw_apart) = 6 /\
  count_nodes_with_long_ranging_edges (sw_graph ex_sw_apart) = Done 8.
Proof. vm_compute. auto. Qed.

(** ** C61: with rewire probability zero a draw of exactly zero rewires an edge. *)

Theorem C61_rewires_refuted : exists (e e' : sw_ensemble nat),
  sw_new Debug (fun i => i) 6 0%Q (repeat 1 12) = Done (e, []) /\
  sw_m_step Debug e [0; 0; 2] = Done (Sw_Rewire 0 1 3, e', []) /\
  adj (sw_graph e) 0 1 /\ ~ adj (sw_graph e') 0 1.
Proof.
  eexists. eexists. split; [vm_compute; reflexivity|]. split; [vm_compute; reflexivity|].
  vm_compute. split; [auto|]. intros H. repeat (destruct H as [H|H]; [discriminate H|]). destruct H.
Qed.
Print Assumptions C61_rewires_refuted.

(** ** C63 *)

(** In a debug build [rewire_edge] and [reset_edge] panic for an index that is out of
    bounds ... *)
Theorem C63_debug {T : Type} : forall (g : graph (sw_container T)) i j k,
  (vertex_count g <= i \/ vertex_count g <= j -> sw_reset_edge Debug g i j = Panic) /\
  (vertex_count g <= i \/ vertex_count g <= j \/ vertex_count g <= k -> j <> k ->
   sw_rewire_edge Debug g i j k = Panic).
Proof.
  intros g i j k. split.
  - intros H. unfold sw_reset_edge. rewrite get_2_mut_bad_debug by lia. reflexivity.
  - intros H N. unfold sw_rewire_edge. destruct (Nat.eqb_spec j k); [congruence|].
    unfold get_3_mut. fold (vertex_count g).
    destruct (Nat.ltb_spec i (vertex_count g)), (Nat.ltb_spec j (vertex_count g)),
      (Nat.ltb_spec k (vertex_count g)); cbn [andb]; try reflexivity. lia.
Qed.
Print Assumptions C63_debug.

(** ... unless the second and third index agree: the check never runs.  In a release
    build, other calls out of bounds are undefined behaviour. *)
Theorem C63_bounds {T : Type} : forall (g : graph (sw_container T)) i j k,
  simple_graph g ->
  (forall p, sw_rewire_edge p g i j j = Done (Sw_Nothing, g)) /\
  (vertex_count g <= i \/ vertex_count g <= j -> sw_reset_edge Release g i j = UB) /\
  (vertex_count g <= i \/ vertex_count g <= j \/ vertex_count g <= k -> j <> k ->
   sw_rewire_edge Release g i j k = UB).
Proof.
  intros g i j k W. split; [|split].
  - intros p. unfold sw_rewire_edge. rewrite Nat.eqb_refl. reflexivity.
  - intros H. unfold sw_reset_edge. rewrite (get_2_mut_bad_release W) by lia. reflexivity.
  - intros H N. unfold sw_rewire_edge. destruct (Nat.eqb_spec j k); [congruence|].
    unfold get_3_mut. destruct H as [H|[H|H]]; rewrite <- (sg_len W) in H; apply nth_error_None in H; rewrite H.
    + reflexivity.
    + destruct (nth_error (vertices g) i); reflexivity.
    + destruct (nth_error (vertices g) i), (nth_error (vertices g) j); reflexivity.
Qed.
Print Assumptions C63_bounds.

Theorem C63_panics_refuted : exists (g : graph (sw_container nat)) i j k,
  simple_graph g /\ vertex_count g <= i /\ vertex_count g <= j /\
  (forall p, sw_rewire_edge p g i j j = Done (Sw_Nothing, g)) /\
  sw_reset_edge Release g i j <> Panic /\ sw_rewire_edge Release g i j k <> Panic.
Proof.
  destruct (@graph_new_spec nat (sw_container nat) _ _ (fun i => i) 3) as (W & _).
  exists (graph_new (fun i => i) 3), 3, 4, 5. splits; auto; discriminate.
Qed.
Print Assumptions C63_panics_refuted.

Example C63_case :
  sw_rewire_edge Debug (graph_new (fun i : nat => i) 3) 100 200 200
    = Done (Sw_Nothing, graph_new (fun i : nat => i) 3) /\
  sw_reset_edge Release (graph_new (fun i : nat => i) 3) 0 7 = UB.
Proof. split; reflexivity. Qed.
