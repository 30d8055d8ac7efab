(** Vocabulary for the statements about the Watts-Strogatz ensemble. *)
From Verif Require Import Base Containers ContainerSpec ContainerFacts Graph GraphSpec Ws.
From Coq Require Import QArith.
Set Implicit Arguments.
Local Open Scope nat_scope.

Section Spec.
Context {T : Type}.
Implicit Types g : graph (ws_container T).

(** The stored edges of vertex [i]: the neighbour and the edge it replaces. *)
Definition ws_entries g i : list (nat * original_edge) :=
  match nth_error (vertices g) i with
  | Some c => combine (wc_to c) (wc_original c)
  | None => []
  end.

Definition ends (o : original_edge) : nat * nat := (oe_from o, oe_to o).

(** The edges all the entries stand for, once in each direction. *)
Definition originals (n : nat) g : list (nat * nat) :=
  flat_map (fun i => map (fun x => ends (snd x)) (ws_entries g i)) (seq 0 n).

(** The edges of the ring: each vertex with its next [d]. *)
Definition ring_edges (n d : nat) : list (nat * nat) :=
  flat_map (fun i => map (fun k => (i, Nat.modulo (i + k) n)) (seq 1 d)) (seq 0 n).

Definition flip (e : nat * nat) : nat * nat := (snd e, fst e).

(** A graph of the ensemble with [n] vertices and neighbour distance [d]. *)
Record ws_ok (n d : nat) g : Prop := {
  wo_simple : simple_graph g;
  wo_vertices : vertex_count g = n;
  wo_edges : edge_count g = n * d;
  (* neighbours and bookkeeping in lockstep *)
  wo_lockstep : forall i c, nth_error (vertices g) i = Some c ->
    length (wc_to c) = length (wc_original c);
  (* both ends of an edge agree on the edge it stands for *)
  wo_partner : forall i j o, In (j, o) (ws_entries g i) ->
    In (i, mk_oe (oe_to o) (oe_from o) (oe_at_origin o)) (ws_entries g j);
  (* an edge flagged as at its origin is there, others are not *)
  wo_origin : forall i j o, In (j, o) (ws_entries g i) ->
    if oe_at_origin o then ends o = (i, j) else ends o <> (i, j) /\ ends o <> (j, i);
  (* every edge of the ring is represented exactly once *)
  wo_all : Permutation (originals n g) (ring_edges n d ++ map flip (ring_edges n d))
}.

End Spec.

(** What a user can do with an ensemble. *)
Inductive ws_history {T} (p : profile) (n d : nat) (q : Q) : ws_ensemble T -> Prop :=
| wsh_new mk rs e rs' : ws_new p mk n d q rs = Done (Ok (e, rs')) -> ws_history p n d q e
| wsh_randomize e rs e' rs' : ws_history p n d q e ->
    ws_randomize p e rs = Done (e', rs') -> ws_history p n d q e'
| wsh_sort e g' : ws_history p n d q e -> sort_adj (ws_graph e) = Done g' ->
    ws_history p n d q (mk_wse g' (ws_rewire_prob e) (ws_distance e)).
