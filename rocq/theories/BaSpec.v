(** Vocabulary for the statements about the Barabasi-Albert ensemble. *)
From Verif Require Import Base Containers ContainerSpec ContainerFacts Graph GraphSpec Ba.
Set Implicit Arguments.

(** [y] belongs to the first [s] vertices or to [before]. *)
Definition earlier (s : nat) (before : list nat) (y : nat) : bool :=
  (y <? s) || existsb (Nat.eqb y) before.

(** [g] was grown from [src] by adding the vertices of [order] one after the other, each
    joined to [m] of the vertices that were there. *)
Record grown {T} (m : nat) (src g : graph (node_container T)) (order : list nat) : Prop := {
  gr_simple : simple_graph g;
  (* every vertex that is not in the source is added once *)
  gr_order : Permutation order (seq (vertex_count src) (vertex_count g - vertex_count src));
  (* the source is the part of the graph made of the first vertices *)
  gr_source : forall i j, i < vertex_count src -> j < vertex_count src -> (adj g i j <-> adj src i j);
  gr_attach : forall before x after, order = before ++ x :: after ->
    count (earlier (vertex_count src) before) (nbrs g x) = m;
  gr_edges : edge_count g = edge_count src + m * (vertex_count g - vertex_count src)
}.

(** A consistent ensemble with [n] vertices. *)
Record ba_ok {T} (n m : nat) (e : ba T) : Prop := {
  bo_source : simple_graph (ba_source e);
  bo_nonempty : 0 < vertex_count (ba_source e) < n;
  bo_degrees : forall i, i < vertex_count (ba_source e) -> nbrs (ba_source e) i <> [];
  bo_m : ba_m e = m;
  bo_count : vertex_count (ba_graph e) = n;
  bo_grown : exists order, grown m (ba_source e) (ba_graph e) order;
  bo_weights : length (ba_weights e) = n /\ forall i, nth i (ba_weights e) 0 = length (nbrs (ba_graph e) i)
}.

(** What a user can do with an ensemble. *)
Inductive ba_history {T} (p : profile) : nat -> nat -> ba T -> Prop :=
| bah_new mk n m s rs e rs' : ba_new p mk n m s rs = Done (e, rs') -> ba_history p n m e
| bah_graph mk n m src rs e rs' : simple_graph src ->
    ba_new_from_graph p mk n m src rs = Done (e, rs') -> ba_history p n m e
| bah_generic {A} {C : AdjContainer T A} {L : AdjLaws C} mk n m (src : graph A) rs e rs' :
    simple_graph src -> ba_new_from_generic_graph p mk n m src rs = Done (e, rs') -> ba_history p n m e
| bah_randomize n m e rs e' rs' : ba_history p n m e ->
    ba_randomize p e rs = Done (e', rs') -> ba_history p n m e'
| bah_sort n m e e' : ba_history p n m e -> ba_sort_adj e = Done e' -> ba_history p n m e'.
