(** Vocabulary for the statements about [ErEnsembleM]. *)
From Verif Require Import Base Containers ContainerSpec ContainerFacts Graph GraphSpec ErM.
Set Implicit Arguments.

(** [l] lists each element of the set [P] of pairs once. *)
Definition lists_once (l : list (nat * nat)) (P : nat -> nat -> Prop) : Prop :=
  NoDup l /\ forall i j, In (i, j) l <-> P i j.

(** A consistent ensemble with [n] vertices and [m] edges. *)
Record erm_ok {T} (n m : nat) (e : er_m T) : Prop := {
  eo_simple : simple_graph (erm_graph e);
  eo_vertices : vertex_count (erm_graph e) = n;
  eo_edges : edge_count (erm_graph e) = m;
  eo_m : erm_m e = m;
  eo_all : lists_once (erm_all e) (fun i j => i < j /\ j < n);
  eo_current : lists_once (erm_current e) (fun i j => i < j /\ adj (erm_graph e) i j);
  eo_possible : lists_once (erm_possible e)
                  (fun i j => i < j /\ j < n /\ ~ adj (erm_graph e) i j)
}.

(** The bookkeeping has the two edges of the record where the record says, so that
    the step can be undone. *)
Definition erm_applicable {T} (e : er_m T) (s : er_step_m) : Prop :=
  nth_error (erm_current e) (esm_i_removed s) = Some (esm_inserted s) /\
  nth_error (erm_possible e) (esm_i_inserted s) = Some (esm_removed s).

(** Same up to the order of neighbours; the lists of edges are equal entry by entry. *)
Definition erm_like {T} (e h : er_m T) : Prop :=
  same_topology (erm_graph e) (erm_graph h) /\
  erm_m h = erm_m e /\ erm_all h = erm_all e /\
  erm_possible h = erm_possible e /\ erm_current h = erm_current e.

(** What a user can do with an ensemble. *)
Inductive erm_history {T} (p : profile) (n m : nat) : er_m T -> Prop :=
| emh_new mk rs e rs' : erm_new p mk n m rs = Done (e, rs') -> erm_history p n m e
| emh_randomize e rs e' rs' : erm_history p n m e ->
    erm_randomize p e rs = Done (e', rs') -> erm_history p n m e'
| emh_step e rs s e' rs' : erm_history p n m e ->
    erm_m_step p e rs = Done (s, e', rs') -> erm_history p n m e'
| emh_undo e s s' e' : erm_history p n m e -> erm_applicable e s ->
    erm_undo_step p e s = Done (s', e') -> erm_history p n m e'
| emh_undo_quiet e s e' : erm_history p n m e -> erm_applicable e s ->
    erm_undo_step_quiet p e s = Done e' -> erm_history p n m e'
| emh_sort e g' : erm_history p n m e -> sort_adj (erm_graph e) = Done g' ->
    erm_history p n m (mk_erm g' (erm_m e) (erm_all e) (erm_possible e) (erm_current e)).
