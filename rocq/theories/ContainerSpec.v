(** What a lawful [AdjContainer] does, in terms of its neighbour list, id and
    payload.  The four implementations are proved lawful in [ContainerFacts]. *)
From Verif Require Import Base Containers.
From Coq Require Import Sorted.
Set Implicit Arguments.

Section Laws.
Context {T A : Type} {C : AdjContainer T A}.

(** [a'] has the id and the payload of [a]. *)
Definition same_vertex (a a' : A) : Prop :=
  ac_id a' = ac_id a /\ ac_contained a' = ac_contained a.

(** [l'] is [l] after [swap_remove] of the first occurrence of [x]. *)
Definition removed_first (x : nat) (l l' : list nat) : Prop :=
  exists i, position (Nat.eqb x) l = Some i /\ swap_remove l i = Done l'.

Class AdjLaws := {
  (** Internal consistency of the fields of one container. *)
  ac_wf : A -> Prop;
  law_new : forall i t,
    ac_wf (ac_new i t) /\ ac_neighbors (ac_new i t) = [] /\
    ac_id (ac_new i t) = i /\ ac_contained (ac_new i t) = t;
  law_set_contained : forall a t, ac_wf a ->
    ac_wf (ac_set_contained a t) /\
    ac_neighbors (ac_set_contained a t) = ac_neighbors a /\
    ac_id (ac_set_contained a t) = ac_id a /\
    ac_contained (ac_set_contained a t) = t;
  law_degree : forall a, ac_degree a = length (ac_neighbors a);
  law_first : forall a, ac_get_adj_first a = hd_error (ac_neighbors a);
  law_adjacent : forall a x, ac_is_adjacent a x = true <-> In x (ac_neighbors a);
  law_sort : forall a, ac_wf a ->
    exists a', ac_sort_adj a = Done a' /\ ac_wf a' /\ same_vertex a a' /\
      Permutation (ac_neighbors a) (ac_neighbors a') /\
      StronglySorted le (ac_neighbors a');
  law_shuffle : forall p a, ac_wf a ->
    Permutation p (seq 0 (length (ac_neighbors a))) ->
    exists a', ac_shuffle_adj p a = Done a' /\ ac_wf a' /\ same_vertex a a' /\
      Permutation (ac_neighbors a) (ac_neighbors a');
  law_clear : forall a,
    ac_wf (ac_clear_edges a) /\ same_vertex a (ac_clear_edges a) /\
    ac_neighbors (ac_clear_edges a) = [];
  law_push_err : forall a b, In (ac_id b) (ac_neighbors a) ->
    ac_push a b = Done (Err EdgeExists);
  law_push_ok : forall a b, ac_wf a -> ac_wf b -> ~ In (ac_id b) (ac_neighbors a) ->
    exists a' b', ac_push a b = Done (Ok (a', b')) /\ ac_wf a' /\ ac_wf b' /\
      same_vertex a a' /\ same_vertex b b' /\
      ac_neighbors a' = ac_neighbors a ++ [ac_id b] /\
      ac_neighbors b' = ac_neighbors b ++ [ac_id a];
  law_remove_err : forall a b, ~ In (ac_id b) (ac_neighbors a) ->
    ac_remove a b = Done (Err EdgeDoesNotExist);
  law_remove_ok : forall a b, ac_wf a -> ac_wf b ->
    In (ac_id b) (ac_neighbors a) -> In (ac_id a) (ac_neighbors b) ->
    exists a' b', ac_remove a b = Done (Ok (a', b')) /\ ac_wf a' /\ ac_wf b' /\
      same_vertex a a' /\ same_vertex b b' /\
      removed_first (ac_id b) (ac_neighbors a) (ac_neighbors a') /\
      removed_first (ac_id a) (ac_neighbors b) (ac_neighbors b');
  (** Removing what was just pushed gives back the very same containers. *)
  law_push_remove : forall a b a' b', ac_wf a -> ac_wf b ->
    ~ In (ac_id a) (ac_neighbors b) ->
    ac_push a b = Done (Ok (a', b')) -> ac_remove a' b' = Done (Ok (a, b))
}.

End Laws.
Arguments AdjLaws {T A} C.
