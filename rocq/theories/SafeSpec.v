(** Vocabulary for memory safety: programs that call the functions of an ensemble, and the
    pairs of vertices a step names. *)
From Verif Require Import Base Containers ContainerFacts Graph GraphSpec Rng ErC ErM Sw Ws Config Ba Spacial.
From Coq Require Import QArith.
Set Implicit Arguments.
Local Open Scope nat_scope.

(** [m] does nothing undefined, and what it returns satisfies [P]. *)
Definition safe {X} (P : X -> Prop) (m : outcome X) : Prop :=
  m <> UB /\ forall x, m = Done x -> P x.

(** Two different vertices of a graph with [n] vertices. *)
Definition apart (n : nat) (ij : nat * nat) : Prop :=
  fst ij < n /\ snd ij < n /\ fst ij <> snd ij.

(** A program is the list of the calls it makes one after the other on an ensemble, with all
    their arguments.  It may choose a call by what the earlier ones returned: every run of it makes
    the calls of some list.  A panic ends the program. *)
Definition program {E Call : Type} (call : E -> Call -> rng -> outcome (E * rng)) (s : E * rng) (l : list Call)
  : outcome (E * rng) :=
  foldM (fun s c => call (fst s) c (snd s)) s l.

(** ** The pairs of vertices a step names *)

Definition erc_names (s : er_step_c) : list (nat * nat) :=
  match s with ErC_AddedEdge e | ErC_RemovedEdge e => [e] | _ => [] end.

Definition erm_names (s : er_step_m) : list (nat * nat) := [esm_removed s; esm_inserted s].

Definition sp_names (s : spacial_step) : list (nat * nat) :=
  match s with Sp_AddedEdge e | Sp_RemovedEdge e => [e] | _ => [] end.

(** The two edges that are there, and the two that were there. *)
Definition cm_names (s : cm_step) : list (nat * nat) :=
  match s with
  | Cm_Added (a, b) (c, d) => [(a, b); (c, d); (a, c); (b, d)]
  | Cm_Error => []
  end.

(** A step from a vertex to itself is not made: see [rewire_edge]. *)
Definition sw_names (s : sw_state) : list (nat * nat) :=
  match s with
  | Sw_Rewire root old_to new_to | Sw_Reset root old_to new_to =>
      if old_to =? new_to then [] else [(root, old_to); (root, new_to)]
  | _ => []
  end.

(** When undoing a step of the configuration model joins or parts a pair that is not apart:
    the second edge is put back first, then the first one; then the edges between their ends
    and between their starts are taken.  Where an edge cannot be put back or taken, undoing
    ends there. *)
Definition cm_undo_bad {T} (n : nat) (g : graph (node_container T)) (s : cm_step) : Prop :=
  match s with
  | Cm_Error => False
  | Cm_Added (a, b) (c, d) =>
      ~ apart n (c, d) \/
      (~ adj g c d /\
       (~ apart n (a, b) \/
        (~ adj g a b /\ ((b = d /\ a <> c) \/ (a = c /\ adj g b d)))))
  end.

(** ** Calls *)

Section Calls.
Context {T : Type}.

(** [ErEnsembleC]; [write] is an assignment through [at_mut]. *)
Inductive erc_call :=
| Ec_randomize | Ec_step | Ec_undo (s : er_step_c) | Ec_undo_quiet (s : er_step_c)
| Ec_connect | Ec_target (c : Q) | Ec_sort | Ec_write (i : nat) (t : T).

Definition erc_do (p : profile) (e : er_c T) (c : erc_call) (rs : rng) : outcome (er_c T * rng) :=
  let set g := mk_erc g (erc_prob e) (erc_c_target e) in
  match c with
  | Ec_randomize => erc_randomize e rs
  | Ec_step => do ' (_, e', rs') <- erc_m_step p e rs; Done (e', rs')
  | Ec_undo s => do ' (_, e') <- erc_undo_step p e s; Done (e', rs)
  | Ec_undo_quiet s => do e' <- erc_undo_step_quiet p e s; Done (e', rs)
  | Ec_connect => do e' <- erc_make_connected p e; Done (e', rs)
  | Ec_target c => do e' <- erc_set_target_connectivity p e c; Done (e', rs)
  | Ec_sort => do g <- sort_adj (erc_graph e); Done (set g, rs)
  | Ec_write i t => do g <- at_mut_set (erc_graph e) i t; Done (set g, rs)
  end.

(** What a call asks to be undone. *)
Definition erc_arguments (c : erc_call) : list (nat * nat) :=
  match c with Ec_undo s | Ec_undo_quiet s => erc_names s | _ => [] end.

(** [ErEnsembleM]. *)
Inductive erm_call :=
| Em_randomize | Em_step | Em_undo (s : er_step_m) | Em_undo_quiet (s : er_step_m)
| Em_sort | Em_write (i : nat) (t : T).

Definition erm_do (p : profile) (e : er_m T) (c : erm_call) (rs : rng) : outcome (er_m T * rng) :=
  let set g := mk_erm g (erm_m e) (erm_all e) (erm_possible e) (erm_current e) in
  match c with
  | Em_randomize => erm_randomize p e rs
  | Em_step => do ' (_, e', rs') <- erm_m_step p e rs; Done (e', rs')
  | Em_undo s => do ' (_, e') <- erm_undo_step p e s; Done (e', rs)
  | Em_undo_quiet s => do e' <- erm_undo_step_quiet p e s; Done (e', rs)
  | Em_sort => do g <- sort_adj (erm_graph e); Done (set g, rs)
  | Em_write i t => do g <- at_mut_set (erm_graph e) i t; Done (set g, rs)
  end.

Definition erm_arguments (c : erm_call) : list (nat * nat) :=
  match c with Em_undo s | Em_undo_quiet s => erm_names s | _ => [] end.

(** [SpacialEnsemble]. *)
Inductive sp_call :=
| Sc_randomize | Sc_step | Sc_steps_quiet (count : nat) | Sc_undo (s : spacial_step)
| Sc_undo_quiet (s : spacial_step) | Sc_sort | Sc_write (i : nat) (t : T).

Definition sp_do (p : profile) (e : spacial T) (c : sp_call) (rs : rng) : outcome (spacial T * rng) :=
  let set g := mk_sp g (sp_accept e) in
  match c with
  | Sc_randomize => sp_randomize e rs
  | Sc_step => do ' (_, e', rs') <- sp_m_step p e rs; Done (e', rs')
  | Sc_steps_quiet k => sp_m_steps_quiet p e k rs
  | Sc_undo s => do ' (_, e') <- sp_undo_step p e s; Done (e', rs)
  | Sc_undo_quiet s => do e' <- sp_undo_step_quiet p e s; Done (e', rs)
  | Sc_sort => do g <- sort_adj (sp_graph e); Done (set g, rs)
  | Sc_write i t => do g <- at_mut_set (sp_graph e) i t; Done (set g, rs)
  end.

Definition sp_arguments (c : sp_call) : list (nat * nat) :=
  match c with Sc_undo s | Sc_undo_quiet s => sp_names s | _ => [] end.

(** [ConfigurationModel]; any vector may be given to the functions that do not check it. *)
Inductive cm_call :=
| Cc_randomize | Cc_step | Cc_undo (s : cm_step) | Cc_undo_quiet (s : cm_step)
| Cc_swap (v : list nat) | Cc_swap_unchecked (v : list nat) | Cc_sort | Cc_write (i : nat) (t : T).

Definition cm_do (p : profile) (e : config T) (c : cm_call) (rs : rng) : outcome (config T * rng) :=
  let set g := mk_cm g (cm_degrees e) (cm_halfs e) (cm_backup e) in
  match c with
  | Cc_randomize => cm_randomize p e rs
  | Cc_step => do ' (_, e', rs') <- cm_m_step p e rs; Done (e', rs')
  | Cc_undo s => do ' (_, e') <- cm_undo_step p e s; Done (e', rs)
  | Cc_undo_quiet s => do e' <- cm_undo_step_quiet p e s; Done (e', rs)
  | Cc_swap v => do ' (_, e', rs') <- cm_swap_degree_vec p e v rs; Done (e', rs')
  | Cc_swap_unchecked v => do ' (_, e', rs') <- cm_swap_degree_vec_unchecked p e v rs; Done (e', rs')
  | Cc_sort => do g <- sort_adj (cm_graph e); Done (set g, rs)
  | Cc_write i t => do g <- at_mut_set (cm_graph e) i t; Done (set g, rs)
  end.

Definition cm_arguments (c : cm_call) : list (nat * nat) :=
  match c with Cc_undo s | Cc_undo_quiet s => cm_names s | _ => [] end.

(** [SwEnsemble]. *)
Inductive sw_call :=
| Wc_randomize | Wc_step | Wc_undo (s : sw_state) | Wc_undo_quiet (s : sw_state)
| Wc_connect (fuel : nat) | Wc_prob (q : Q) | Wc_sort | Wc_write (i : nat) (t : T).

Definition sw_do (p : profile) (e : sw_ensemble T) (c : sw_call) (rs : rng) : outcome (sw_ensemble T * rng) :=
  match c with
  | Wc_randomize => sw_randomize p e rs
  | Wc_step => do ' (_, e', rs') <- sw_m_step p e rs; Done (e', rs')
  | Wc_undo s => do ' (_, e') <- sw_undo_step p e s; Done (e', rs)
  | Wc_undo_quiet s => do e' <- sw_undo_step_quiet p e s; Done (e', rs)
  | Wc_connect fuel => do e' <- sw_make_connected p fuel e; Done (e', rs)
  | Wc_prob q => Done (mk_swe (sw_graph e) q, rs)
  | Wc_sort => do g <- sort_adj (sw_graph e); Done (sw_set e g, rs)
  | Wc_write i t => do g <- at_mut_set (sw_graph e) i t; Done (sw_set e g, rs)
  end.

Definition sw_arguments (c : sw_call) : list (nat * nat) :=
  match c with Wc_undo s | Wc_undo_quiet s => sw_names s | _ => [] end.

(** [WattsStrogatzEnsemble] and [BarabasiAlbert], which have no Markov steps. *)
Inductive plain_call := Pc_randomize | Pc_sort | Pc_write (i : nat) (t : T).

Definition ws_do (p : profile) (e : ws_ensemble T) (c : plain_call) (rs : rng) : outcome (ws_ensemble T * rng) :=
  let set g := mk_wse g (ws_rewire_prob e) (ws_distance e) in
  match c with
  | Pc_randomize => ws_randomize p e rs
  | Pc_sort => do g <- sort_adj (ws_graph e); Done (set g, rs)
  | Pc_write i t => do g <- at_mut_set (ws_graph e) i t; Done (set g, rs)
  end.

Definition ba_do (p : profile) (e : ba T) (c : plain_call) (rs : rng) : outcome (ba T * rng) :=
  match c with
  | Pc_randomize => ba_randomize p e rs
  | Pc_sort => do e' <- ba_sort_adj e; Done (e', rs)
  | Pc_write i t => do g <- at_mut_set (ba_graph e) i t; Done (mk_ba (ba_source e) g (ba_m e) (ba_weights e), rs)
  end.

End Calls.

Arguments erc_call : clear implicits.
Arguments erm_call : clear implicits.
Arguments sp_call : clear implicits.
Arguments cm_call : clear implicits.
Arguments sw_call : clear implicits.
Arguments plain_call : clear implicits.

(** A program that, if built for release, only undoes steps that name pairs of different
    vertices. *)
Definition careful {Call : Type} (arguments : Call -> list (nat * nat)) (p : profile) (n : nat) (l : list Call)
  : Prop :=
  p = Release -> Forall (fun c => Forall (apart n) (arguments c)) l.
