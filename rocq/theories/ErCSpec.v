(** Vocabulary for the statements about [ErEnsembleC]. *)
From Verif Require Import Base Containers Graph GraphSpec ErC.
Set Implicit Arguments.

(** The same ensemble up to the order of neighbours. *)
Definition erc_like {T} (e h : er_c T) : Prop :=
  same_topology (erc_graph e) (erc_graph h) /\
  erc_prob h = erc_prob e /\ erc_c_target h = erc_c_target e.

(** [u] is the step in the other direction; there is none for an error. *)
Definition erc_inverse (r u : er_step_c) : Prop :=
  match r with
  | ErC_Nothing => u = ErC_Nothing
  | ErC_AddedEdge x => u = ErC_RemovedEdge x
  | ErC_RemovedEdge x => u = ErC_AddedEdge x
  | ErC_GError _ => False
  end.

