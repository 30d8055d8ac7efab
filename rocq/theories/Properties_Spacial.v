(** Theorems about [SpacialEnsemble]. *)
From Verif Require Import Base BaseFacts Containers ContainerSpec ContainerFacts Graph GraphSpec GraphFacts GraphOps
  Rng RngFacts Markov EnsembleFacts ErC ErCFacts Spacial SpacialSpec SpacialFacts.
From Coq Require Import QArith.
Local Open Scope nat_scope.

(** ** C54 *)

(** [randomize] visits every pair once and joins it exactly if its draw passes the test for
    the positions of the pair. *)
Theorem C54_randomize {T : Type} : forall n, exists pairs,
  NoDup pairs /\ (forall i j, In (i, j) pairs <-> i < j /\ j < n) /\
  forall (e : spacial T) rs,
  simple_graph (sp_graph e) -> vertex_count (sp_graph e) = n ->
  (length rs < length pairs -> sp_randomize e rs = NoFuel) /\
  (length pairs <= length rs ->
   exists e', sp_randomize e rs = Done (e', skipn (length pairs) rs) /\
    simple_graph (sp_graph e') /\ vertex_count (sp_graph e') = n /\
    payloads (sp_graph e') = payloads (sp_graph e) /\
    positions (sp_graph e') = positions (sp_graph e) /\ sp_accept e' = sp_accept e /\
    (forall k i j r, nth_error pairs k = Some (i, j) -> nth_error rs k = Some r ->
       (adj (sp_graph e') i j <-> sp_accepts e i j r = true))).
Proof.
  intros n. exists (er_pairs n). split; [apply er_pairs_NoDup|]. split; [apply er_pairs_In|].
  intros e rs W <-. split.
  - apply sp_randomize_short; auto.
  - apply sp_randomize_spec; auto.
Qed.
Print Assumptions C54_randomize.

(** [new]: the positions are drawn first, two numbers in [0, 1) per vertex. *)
Theorem C54_new {T : Type} : forall (mk : nat -> T) n accept rs e rs',
  sp_new mk n accept rs = Done (e, rs') -> 2 * n <= length rs ->
  simple_graph (sp_graph e) /\ payloads (sp_graph e) = map mk (seq 0 n) /\ sp_accept e = accept /\
  positions (sp_graph e) =
    map (fun k => Some (unit_float (nth (2 * k) rs 0), unit_float (nth (2 * k + 1) rs 0))) (seq 0 n).
Proof.
  intros mk n accept rs e rs' E Len. unfold sp_new in E.
  destruct (sp_place_spec mk Len) as (g & Ep & W & V & P & Q). rewrite Ep in E. cbn [bind] in E.
  set (e0 := mk_sp g accept) in *.
  destruct (C54_randomize (T := T) n) as (pairs & _ & _ & R). destruct (R e0 (skipn (2 * n) rs) W V) as [R1 R2].
  destruct (Nat.lt_ge_cases (length (skipn (2 * n) rs)) (length pairs)) as [H|H].
  - rewrite (R1 H) in E. discriminate.
  - destruct (R2 H) as (e' & E' & W' & V' & P' & Q' & A' & _). rewrite E in E'. injection E' as <- _.
    splits; auto.
    + rewrite P'. auto.
    + rewrite Q'. auto.
Qed.
Print Assumptions C54_new.

Theorem C54_new_returns {T : Type} : forall (mk : nat -> T) n accept, exists k, forall rs,
  k <= length rs -> exists e, sp_new mk n accept rs = Done (e, skipn k rs) /\
    simple_graph (sp_graph e) /\ vertex_count (sp_graph e) = n.
Proof.
  intros mk n accept. destruct (C54_randomize (T := T) n) as (pairs & _ & _ & R).
  exists (length pairs + 2 * n). intros rs Len.
  destruct (@sp_place_spec T mk n rs) as (g & Ep & W & V & P & Q); [lia|].
  destruct (R (mk_sp g accept) (skipn (2 * n) rs) W V) as [_ R2].
  destruct R2 as (e & E & W' & V' & _); [rewrite skipn_length; lia|].
  exists e. unfold sp_new. rewrite Ep. cbn [bind]. rewrite E. splits; auto.
  do 2 f_equal. apply skipn_plus.
Qed.
Print Assumptions C54_new_returns.

(** A step: the pair drawn is joined or separated, nothing else changes. *)
Theorem C54_step {T : Type} : forall p (e : spacial T) x y z rs,
  simple_graph (sp_graph e) -> 2 <= vertex_count (sp_graph e) ->
  exists a b r e', draw_two_from_range p (vertex_count (sp_graph e)) (x :: y :: z :: rs) = Done (a, b, z :: rs) /\
    sp_m_step p e (x :: y :: z :: rs) = Done (r, e', rs) /\
    simple_graph (sp_graph e') /\ payloads (sp_graph e') = payloads (sp_graph e) /\
    positions (sp_graph e') = positions (sp_graph e) /\ sp_accept e' = sp_accept e /\
    (forall i j, adj (sp_graph e') i j <->
       if sp_accepts e a b z then adj (sp_graph e) i j \/ is_pair a b i j
       else adj (sp_graph e) i j /\ ~ is_pair a b i j).
Proof.
  intros p e x y z rs W Hn. destruct (sp_m_step_total p x y z rs W Hn) as (a & b & r & e' & E1 & E2 & A).
  exists a, b, r, e'. destruct (sp_m_step_cases W E2) as (C1 & C2 & C3).
  splits; auto; [apply (sp_m_step_simple W E2)|].
  destruct r as [|[u v]|[u v]|]; try tauto; [congruence|..].
  - apply (add_edge_ok W C3).
  - apply (remove_edge_ok W C3).
Qed.
Print Assumptions C54_step.

(** With fewer than two vertices there is no pair to draw. *)
Theorem C54_step_small {T : Type} : forall p (e : spacial T) r rs,
  (vertex_count (sp_graph e) = 0 -> sp_m_step p e rs = Panic) /\
  (vertex_count (sp_graph e) = 1 -> sp_m_step p e (r :: rs) = Panic).
Proof. intros p e r rs. unfold sp_m_step. split; intros ->; reflexivity. Qed.
Print Assumptions C54_step_small.

Theorem C54_undo {T : Type} : forall p k (e : spacial T) rs steps e' rs',
  simple_graph (sp_graph e) ->
  m_steps (sp_m_step p) k e rs = Done (steps, e', rs') ->
  simple_graph (sp_graph e') /\ length steps = k /\ positions (sp_graph e') = positions (sp_graph e) /\
  exists us h, undo_steps (sp_undo_step p) e' steps = Done (us, h) /\
    Forall2 sp_inverse (rev steps) us /\ simple_graph (sp_graph h) /\ sp_like e h.
Proof.
  intros p k e rs steps e' rs' W E.
  assert (SI : forall (s : spacial T) rs r s' rs',
    simple_graph (sp_graph s) /\ positions (sp_graph s) = positions (sp_graph e) ->
    sp_m_step p s rs = Done (r, s', rs') ->
    simple_graph (sp_graph s') /\ positions (sp_graph s') = positions (sp_graph e)).
  { intros s rs0 r s' rs0' [Ws Ps] Es. split; [apply (sp_m_step_simple Ws Es)|].
    destruct (sp_m_step_cases Ws Es) as (_ & Q & _). congruence. }
  destruct (m_steps_inv (inv := fun s : spacial T =>
    simple_graph (sp_graph s) /\ positions (sp_graph s) = positions (sp_graph e)) SI (conj W eq_refl) E) as [[W' P'] Len].
  splits; auto.
  apply (@undo_chain _ _ _ (sp_m_step p) (sp_undo_step p) (fun s => simple_graph (sp_graph s)) (@sp_like T) sp_inverse)
    with (h := e') in E; auto.
  - intros s rs0 r s' rs0' Ws Es. apply (sp_m_step_simple Ws Es).
  - intros s rs0 r s' rs0' Ws Es h Wh Hh. apply (sp_step_undo Ws Es Wh Hh).
  - unfold sp_like. splits; auto. apply same_topology_refl.
Qed.
Print Assumptions C54_undo.

Theorem C54_undo_quiet {T : Type} : forall p k (e : spacial T) rs steps e' rs',
  simple_graph (sp_graph e) ->
  m_steps (sp_m_step p) k e rs = Done (steps, e', rs') ->
  exists h, undo_steps_quiet (sp_undo_step_quiet p) e' steps = Done h /\
    simple_graph (sp_graph h) /\ sp_like e h.
Proof.
  intros p k e rs steps e' rs' W E.
  assert (SI : forall (s : spacial T) rs r s' rs', simple_graph (sp_graph s) ->
    sp_m_step p s rs = Done (r, s', rs') -> simple_graph (sp_graph s'))
    by (intros s rs0 r s' rs0' Ws Es; apply (sp_m_step_simple Ws Es)).
  destruct (m_steps_inv (inv := fun s : spacial T => simple_graph (sp_graph s)) SI W E) as [W' _].
  apply (@undo_quiet_chain _ _ (sp_m_step p) (sp_undo_step_quiet p) (fun s => simple_graph (sp_graph s)) (@sp_like T) SI)
    with (h := e') in E; auto.
  - intros s rs0 r s' rs0' Ws Es h Wh Hh. apply (sp_step_undo_quiet Ws Es Wh Hh).
  - unfold sp_like. splits; auto. apply same_topology_refl.
Qed.
Print Assumptions C54_undo_quiet.

(** Undoing a step that is not the last one: an edge to be removed that is missing, or an edge
    to be added that is there, is reported and changes nothing; the quiet version panics. *)
Theorem C54_undo_any {T : Type} : forall p (e : spacial T) a b,
  simple_graph (sp_graph e) -> a < vertex_count (sp_graph e) -> b < vertex_count (sp_graph e) -> a <> b ->
  (adj (sp_graph e) a b ->
     (exists e', sp_undo_step p e (Sp_AddedEdge (a, b)) = Done (Sp_RemovedEdge (a, b), e') /\
        sp_undo_step_quiet p e (Sp_AddedEdge (a, b)) = Done e') /\
     sp_undo_step p e (Sp_RemovedEdge (a, b)) = Done (Sp_Error, e) /\
     sp_undo_step_quiet p e (Sp_RemovedEdge (a, b)) = Panic) /\
  (~ adj (sp_graph e) a b ->
     (exists e', sp_undo_step p e (Sp_RemovedEdge (a, b)) = Done (Sp_AddedEdge (a, b), e') /\
        sp_undo_step_quiet p e (Sp_RemovedEdge (a, b)) = Done e') /\
     sp_undo_step p e (Sp_AddedEdge (a, b)) = Done (Sp_Error, e) /\
     sp_undo_step_quiet p e (Sp_AddedEdge (a, b)) = Panic) /\
  sp_undo_step p e Sp_Nothing = Done (Sp_Nothing, e) /\ sp_undo_step_quiet p e Sp_Nothing = Done e /\
  sp_undo_step p e Sp_Error = Done (Sp_Error, e) /\ sp_undo_step_quiet p e Sp_Error = Panic.
Proof.
  intros p e a b W Ha Hb N. pose proof (sp_undo_cases p W Ha Hb N) as H.
  split; [|split; [|auto 6]]; intros K.
  - apply adjb_adj in K. rewrite K in H. auto.
  - apply adjb_not_adj in K. rewrite K in H. auto.
Qed.
Print Assumptions C54_undo_any.

(** [m_steps_quiet(k)] does what [k] steps do, for all draws. *)
Theorem C54_quiet {T : Type} : forall p k (e : spacial T) rs,
  sp_m_steps_quiet p e k rs = do ' (_, e', rs') <- m_steps (sp_m_step p) k e rs; Done (e', rs').
Proof. intros p k e rs. apply sp_quiet_steps. Qed.
Print Assumptions C54_quiet.

(** [distance] is [None] exactly for an index out of bounds. *)
Theorem C54_distance {T D : Type} : forall (dist : option pos -> option pos -> D) (g : sgraph T) i j,
  simple_graph g ->
  sp_distance dist g i j =
    if (i <? vertex_count g) && (j <? vertex_count g)
    then Some (dist (nth i (positions g) None) (nth j (positions g) None)) else None.
Proof.
  intros dist g i j W. unfold sp_distance.
  assert (K : forall k, vertex_count g <= k -> nth_error (vertices g) k = None).
  { intros k Hk. apply nth_error_None. rewrite (sg_len W). auto. }
  destruct (Nat.ltb_spec i (vertex_count g)) as [Hi|Hi].
  - destruct (container_lt W Hi) as (ci & Ei & _). rewrite Ei, (positions_nth Ei).
    destruct (Nat.ltb_spec j (vertex_count g)) as [Hj|Hj]; cbn [andb].
    + destruct (container_lt W Hj) as (cj & Ej & _). rewrite Ej, (positions_nth Ej). reflexivity.
    + rewrite (K j Hj). reflexivity.
  - rewrite (K i Hi). reflexivity.
Qed.
Print Assumptions C54_distance.

(** Three vertices; pairs are joined if the draw is at most one half, but only from left to
    right. *)
Definition ex_accept (a b : option pos) (u : Q) : bool :=
  match a, b with
  | Some (xa, _), Some (xb, _) => Qle_bool u (1 # 2) && Qle_bool xa xb
  | _, _ => false
  end.

Example C54_case :
  match sp_new (fun i : nat => i) 3 ex_accept [1; 2; 3; 4; 5; 6; 0; 1; 2; 9] with
  | Done (e, rs) => simple_graph (sp_graph e) /\ vertex_count (sp_graph e) = 3 /\ rs = [9] /\
      edge_count (sp_graph e) = 3 /\
      match m_steps (sp_m_step Debug) 2 e [0; 0; 0; 1; 1; 2] with
      | Done (steps, e', _) => steps = [Sp_Nothing; Sp_Nothing]
      | _ => False
      end
  | _ => False
  end.
Proof.
  destruct (sp_new _ _ _ _) as [[e rs]| | |] eqn:E; try (vm_compute in E; discriminate).
  split; [apply (C54_new _ _ _ _ _ _ E); cbn; lia|].
  vm_compute in E. injection E as <- <-. vm_compute. auto.
Qed.
