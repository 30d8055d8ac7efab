(** [sort_adj] of the ensembles, which only forwards to the graph. *)
From Verif Require Import Base Containers Graph ErC ErM Config Sw.
Set Implicit Arguments.

Section Model.
Context {T : Type}.

(** /repo/src/er_c.rs 342-344, [sort_adj]. *)
Definition erc_sort_adj (e : er_c T) : outcome (er_c T) :=
  do g <- sort_adj (erc_graph e);
  Done (mk_erc g (erc_prob e) (erc_c_target e)).

(** /repo/src/er_m.rs 340-342, [sort_adj]. *)
Definition erm_sort_adj (e : er_m T) : outcome (er_m T) :=
  do g <- sort_adj (erm_graph e);
  Done (mk_erm g (erm_m e) (erm_all e) (erm_possible e) (erm_current e)).

(** /repo/src/configuration_model.rs 324-326, [sort_adj]. *)
Definition cm_sort_adj (e : config T) : outcome (config T) :=
  do g <- sort_adj (cm_graph e);
  Done (mk_cm g (cm_degrees e) (cm_halfs e) (cm_backup e)).

(** /repo/src/sw.rs 412-414, [sort_adj]. *)
Definition sw_sort_adj (e : sw_ensemble T) : outcome (sw_ensemble T) :=
  do g <- sort_adj (sw_graph e);
  Done (mk_swe g (sw_r_prob e)).

End Model.
