(** Vocabulary for the statements about the ensembles with positions. *)
From Verif Require Import Base Containers Graph GraphSpec Spacial.
From Coq Require Import QArith.
Set Implicit Arguments.
Local Open Scope nat_scope.

(** The positions of all vertices. *)
Definition positions {T} (g : sgraph T) : list (option pos) := map (@spc_pos pos T) (vertices g).

(** The same ensemble up to the order of neighbours. *)
Definition sp_like {T} (e h : spacial T) : Prop :=
  same_topology (sp_graph e) (sp_graph h) /\ positions (sp_graph h) = positions (sp_graph e) /\
  sp_accept h = sp_accept e.

(** [u] is the step in the other direction; there is none for an error. *)
Definition sp_inverse (r u : spacial_step) : Prop :=
  match r with
  | Sp_Nothing => u = Sp_Nothing
  | Sp_AddedEdge x => u = Sp_RemovedEdge x
  | Sp_RemovedEdge x => u = Sp_AddedEdge x
  | Sp_Error => False
  end.

(** Whether the pair [(i, j)] is joined if [r] is drawn. *)
Definition sp_accepts {T} (e : spacial T) (i j r : nat) : bool :=
  sp_accept e (nth i (positions (sp_graph e)) None) (nth j (positions (sp_graph e)) None) (Rng.unit_float r).
