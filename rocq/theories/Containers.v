(** The trait [AdjContainer] and its four implementations. *)
From Verif Require Import Base.
Set Implicit Arguments.

(** /repo/src/traits/graph_traits.rs 59-122, trait [AdjContainer].
    - [neighbors] returns the list of items of the returned iterator.
    - [contained_mut] is replaced by a setter.
    - [push]/[remove] mutate both arguments: on success the two new containers
      are returned; every [Err] is returned before anything is changed.
    - [shuffle_adj] takes the permutation chosen by the generator. *)
Class AdjContainer (T A : Type) := {
  ac_new : nat -> T -> A;
  ac_contained : A -> T;
  ac_set_contained : A -> T -> A;
  ac_neighbors : A -> list nat;
  ac_degree : A -> nat;
  ac_id : A -> nat;
  ac_get_adj_first : A -> option nat;
  ac_is_adjacent : A -> nat -> bool;
  ac_sort_adj : A -> outcome A;
  ac_shuffle_adj : list nat -> A -> outcome A;
  ac_clear_edges : A -> A;
  ac_push : A -> A -> outcome (result (A * A) graph_error);
  ac_remove : A -> A -> outcome (result (A * A) graph_error)
}.

(** ** NodeContainer *)

(** /repo/src/graph.rs 33-37. *)
Record node_container (T : Type) := mk_nc {
  nc_id : nat;
  nc_adj : list nat;
  nc_node : T
}.

(** /repo/src/graph.rs 134-142, [swap_remove_element]. *)
Definition nc_swap_remove_element {T} (c : node_container T) (elem : nat)
  : outcome (node_container T) :=
  do i <- expect (position (Nat.eqb elem) (nc_adj c));
  do l <- swap_remove (nc_adj c) i;
  Done (mk_nc (nc_id c) l (nc_node c)).

(** /repo/src/graph.rs 101-110, [push]. *)
Definition nc_push {T} (a b : node_container T)
  : outcome (result (node_container T * node_container T) graph_error) :=
  if contains (nc_adj a) (nc_id b) then Done (Err EdgeExists)
  else Done (Ok (mk_nc (nc_id a) (nc_adj a ++ [nc_id b]) (nc_node a),
                 mk_nc (nc_id b) (nc_adj b ++ [nc_id a]) (nc_node b))).

(** /repo/src/graph.rs 114-125, [remove]. *)
Definition nc_remove {T} (a b : node_container T)
  : outcome (result (node_container T * node_container T) graph_error) :=
  if negb (contains (nc_adj a) (nc_id b)) then Done (Err EdgeDoesNotExist)
  else do a' <- nc_swap_remove_element a (nc_id b);
       do b' <- nc_swap_remove_element b (nc_id a');
       Done (Ok (a', b')).

(** /repo/src/graph.rs 40-130, [impl AdjContainer for NodeContainer]. *)
Global Instance NodeContainer (T : Type) : AdjContainer T (node_container T) := {
  ac_new := fun id node => mk_nc id [] node;
  ac_contained := @nc_node T;
  ac_set_contained := fun c t => mk_nc (nc_id c) (nc_adj c) t;
  ac_neighbors := @nc_adj T;
  ac_degree := fun c => length (nc_adj c);
  ac_id := @nc_id T;
  ac_get_adj_first := fun c => hd_error (nc_adj c);
  ac_is_adjacent := fun c x => contains (nc_adj c) x;
  ac_sort_adj := fun c => Done (mk_nc (nc_id c) (sort_by (fun x => x) (nc_adj c)) (nc_node c));
  ac_shuffle_adj := fun p c =>
    do l <- permute p (nc_adj c); Done (mk_nc (nc_id c) l (nc_node c));
  ac_clear_edges := fun c => mk_nc (nc_id c) [] (nc_node c);
  ac_push := @nc_push T;
  ac_remove := @nc_remove T
}.

(** ** SwContainer *)

(** /repo/src/sw_graph.rs 16-19, [SwEdge]. *)
Record sw_edge := mk_se { se_to : nat; se_orig : option nat }.

(** /repo/src/sw_graph.rs 40-42, [is_root]. *)
Definition se_is_root (e : sw_edge) : bool :=
  match se_orig e with Some _ => true | None => false end.

(** /repo/src/sw_graph.rs 62-66, [is_at_root]. *)
Definition se_is_at_root (e : sw_edge) : bool :=
  match se_orig e with Some v => v =? se_to e | None => false end.

(** /repo/src/sw_graph.rs 75-78, [is_long_ranging_root]. *)
Definition se_is_long_ranging_root (e : sw_edge) : bool :=
  match se_orig e with Some v => negb (v =? se_to e) | None => false end.

(** /repo/src/sw_graph.rs 45-47, [reset]. *)
Definition se_reset (e : sw_edge) : outcome sw_edge :=
  do v <- expect (se_orig e); Done (mk_se v (se_orig e)).

(** /repo/src/sw_graph.rs 50-52, [rewire]. *)
Definition se_rewire (e : sw_edge) (other : nat) : sw_edge := mk_se other (se_orig e).

(** /repo/src/sw_graph.rs 158-162. *)
Record sw_container (T : Type) := mk_sc {
  sc_id : nat;
  sc_adj : list sw_edge;
  sc_node : T
}.

(** /repo/src/sw_graph.rs 195-199 and 83-149: the items of [neighbors]. *)
Definition sc_neighbors {T} (c : sw_container T) : list nat := map se_to (sc_adj c).

(** /repo/src/sw_graph.rs 310-313, [adj_position]. *)
Definition sc_adj_position {T} (c : sw_container T) (elem : nat) : option nat :=
  position (Nat.eqb elem) (sc_neighbors c).

(** /repo/src/sw_graph.rs 315-320, [swap_remove_element]. *)
Definition sc_swap_remove_element {T} (c : sw_container T) (elem : nat)
  : outcome (sw_container T) :=
  do i <- expect (sc_adj_position c elem);
  do l <- swap_remove (sc_adj c) i;
  Done (mk_sc (sc_id c) l (sc_node c)).

(** /repo/src/sw_graph.rs 223-226, [is_adjacent]. *)
Definition sc_is_adjacent {T} (c : sw_container T) (x : nat) : bool :=
  existsb (Nat.eqb x) (sc_neighbors c).

(** /repo/src/sw_graph.rs 259-279, [push]. *)
Definition sc_push {T} (a b : sw_container T)
  : outcome (result (sw_container T * sw_container T) graph_error) :=
  if sc_is_adjacent a (sc_id b) then Done (Err EdgeExists)
  else Done (Ok (mk_sc (sc_id a) (sc_adj a ++ [mk_se (sc_id b) (Some (sc_id b))]) (sc_node a),
                 mk_sc (sc_id b) (sc_adj b ++ [mk_se (sc_id a) None]) (sc_node b))).

(** /repo/src/sw_graph.rs 289-298, [remove]. *)
Definition sc_remove {T} (a b : sw_container T)
  : outcome (result (sw_container T * sw_container T) graph_error) :=
  if negb (sc_is_adjacent a (sc_id b)) then Done (Err EdgeDoesNotExist)
  else do a' <- sc_swap_remove_element a (sc_id b);
       do b' <- sc_swap_remove_element b (sc_id a');
       Done (Ok (a', b')).

(** /repo/src/sw_graph.rs 172-299, [impl AdjContainer for SwContainer]. *)
Global Instance SwContainer (T : Type) : AdjContainer T (sw_container T) := {
  ac_new := fun id node => mk_sc id [] node;
  ac_contained := @sc_node T;
  ac_set_contained := fun c t => mk_sc (sc_id c) (sc_adj c) t;
  ac_neighbors := @sc_neighbors T;
  ac_degree := fun c => length (sc_adj c);
  ac_id := @sc_id T;
  ac_get_adj_first := fun c => option_map se_to (hd_error (sc_adj c));
  ac_is_adjacent := @sc_is_adjacent T;
  ac_sort_adj := fun c => Done (mk_sc (sc_id c) (sort_by se_to (sc_adj c)) (sc_node c));
  ac_shuffle_adj := fun p c =>
    do l <- permute p (sc_adj c); Done (mk_sc (sc_id c) l (sc_node c));
  ac_clear_edges := fun c => mk_sc (sc_id c) [] (sc_node c);
  ac_push := @sc_push T;
  ac_remove := @sc_remove T
}.

(** ** WSContainer *)

(** /repo/src/watts_strogatz/ws_container.rs 18-22, [OriginalEdge].  The [u32]
    fields are [nat]; the truncating casts of indices above 2^32 are not
    modelled. *)
Record original_edge := mk_oe { oe_from : nat; oe_to : nat; oe_at_origin : bool }.

(** /repo/src/watts_strogatz/ws_container.rs 57-63. *)
Record ws_container (T : Type) := mk_wc {
  wc_id : nat;
  wc_node : T;
  wc_to : list nat;
  wc_original : list original_edge
}.

(** /repo/src/watts_strogatz/ws_container.rs 66-78, [get_index] and
    [swap_remove_elem]. *)
Definition wc_swap_remove_elem {T} (c : ws_container T) (elem : nat)
  : outcome (ws_container T) :=
  do i <- expect (position (Nat.eqb elem) (wc_to c));
  do l <- swap_remove (wc_to c) i;
  do o <- swap_remove (wc_original c) i;
  Done (mk_wc (wc_id c) (wc_node c) l o).

(** /repo/src/watts_strogatz/ws_container.rs 141-165, [push]. *)
Definition wc_push {T} (a b : ws_container T)
  : outcome (result (ws_container T * ws_container T) graph_error) :=
  if contains (wc_to a) (wc_id b) then Done (Err EdgeExists)
  else Done (Ok (mk_wc (wc_id a) (wc_node a) (wc_to a ++ [wc_id b])
                       (wc_original a ++ [mk_oe (wc_id a) (wc_id b) true]),
                 mk_wc (wc_id b) (wc_node b) (wc_to b ++ [wc_id a])
                       (wc_original b ++ [mk_oe (wc_id b) (wc_id a) true]))).

(** /repo/src/watts_strogatz/ws_container.rs 168-177, [remove]. *)
Definition wc_remove {T} (a b : ws_container T)
  : outcome (result (ws_container T * ws_container T) graph_error) :=
  if negb (contains (wc_to a) (wc_id b)) then Done (Err EdgeDoesNotExist)
  else do a' <- wc_swap_remove_elem a (wc_id b);
       do b' <- wc_swap_remove_elem b (wc_id a');
       Done (Ok (a', b')).

(** /repo/src/watts_strogatz/ws_container.rs 179-183, [sort_adj]: the
    permutation that sorts [to] is applied to both vectors.  [apply_slice]
    panics if the lengths differ. *)
Definition wc_sort_adj {T} (c : ws_container T) : outcome (ws_container T) :=
  if length (wc_to c) =? length (wc_original c) then
    let l := sort_by fst (combine (wc_to c) (wc_original c)) in
    Done (mk_wc (wc_id c) (wc_node c) (map fst l) (map snd l))
  else Panic.

(** /repo/src/watts_strogatz/ws_container.rs 185-192, [shuffle_adj]. *)
Definition wc_shuffle_adj {T} (p : list nat) (c : ws_container T)
  : outcome (ws_container T) :=
  do l <- permute p (wc_to c);
  do o <- permute p (wc_original c);
  Done (mk_wc (wc_id c) (wc_node c) l o).

(** /repo/src/watts_strogatz/ws_container.rs 95-194,
    [impl AdjContainer for WSContainer]. *)
Global Instance WSContainer (T : Type) : AdjContainer T (ws_container T) := {
  ac_new := fun id node => mk_wc id node [] [];
  ac_contained := @wc_node T;
  ac_set_contained := fun c t => mk_wc (wc_id c) t (wc_to c) (wc_original c);
  ac_neighbors := @wc_to T;
  ac_degree := fun c => length (wc_to c);
  ac_id := @wc_id T;
  ac_get_adj_first := fun c => hd_error (wc_to c);
  ac_is_adjacent := fun c x => contains (wc_to c) x;
  ac_sort_adj := @wc_sort_adj T;
  ac_shuffle_adj := @wc_shuffle_adj T;
  ac_clear_edges := fun c => mk_wc (wc_id c) (wc_node c) [] [];
  ac_push := @wc_push T;
  ac_remove := @wc_remove T
}.

(** ** SpacialNodeContainer *)

(** /repo/src/spacial/spacial_graph.rs 19-26.  The coordinates [x], [y] are two
    [f64] in the code; the model keeps them together and abstract, as a value of
    a type [P] of positions, with [None] for the initial NaN. *)
Record spacial_container (P T : Type) := mk_spc {
  spc_id : nat;
  spc_adj : list nat;
  spc_node : T;
  spc_pos : option P
}.

(** /repo/src/spacial/spacial_graph.rs 125-133, [swap_remove_element]. *)
Definition spc_swap_remove_element {P T} (c : spacial_container P T) (elem : nat)
  : outcome (spacial_container P T) :=
  do i <- expect (position (Nat.eqb elem) (spc_adj c));
  do l <- swap_remove (spc_adj c) i;
  Done (mk_spc (spc_id c) l (spc_node c) (spc_pos c)).

(** /repo/src/spacial/spacial_graph.rs 92-101, [push]. *)
Definition spc_push {P T} (a b : spacial_container P T)
  : outcome (result (spacial_container P T * spacial_container P T) graph_error) :=
  if contains (spc_adj a) (spc_id b) then Done (Err EdgeExists)
  else Done (Ok (mk_spc (spc_id a) (spc_adj a ++ [spc_id b]) (spc_node a) (spc_pos a),
                 mk_spc (spc_id b) (spc_adj b ++ [spc_id a]) (spc_node b) (spc_pos b))).

(** /repo/src/spacial/spacial_graph.rs 105-116, [remove]. *)
Definition spc_remove {P T} (a b : spacial_container P T)
  : outcome (result (spacial_container P T * spacial_container P T) graph_error) :=
  if negb (contains (spc_adj a) (spc_id b)) then Done (Err EdgeDoesNotExist)
  else do a' <- spc_swap_remove_element a (spc_id b);
       do b' <- spc_swap_remove_element b (spc_id a');
       Done (Ok (a', b')).

(** /repo/src/spacial/spacial_graph.rs 29-121,
    [impl AdjContainer for SpacialNodeContainer]. *)
Global Instance SpacialContainer (P T : Type) : AdjContainer T (spacial_container P T) := {
  ac_new := fun id node => mk_spc id [] node None;
  ac_contained := @spc_node P T;
  ac_set_contained := fun c t => mk_spc (spc_id c) (spc_adj c) t (spc_pos c);
  ac_neighbors := @spc_adj P T;
  ac_degree := fun c => length (spc_adj c);
  ac_id := @spc_id P T;
  ac_get_adj_first := fun c => hd_error (spc_adj c);
  ac_is_adjacent := fun c x => contains (spc_adj c) x;
  ac_sort_adj := fun c =>
    Done (mk_spc (spc_id c) (sort_by (fun x => x) (spc_adj c)) (spc_node c) (spc_pos c));
  ac_shuffle_adj := fun p c =>
    do l <- permute p (spc_adj c); Done (mk_spc (spc_id c) l (spc_node c) (spc_pos c));
  ac_clear_edges := fun c => mk_spc (spc_id c) [] (spc_node c) (spc_pos c);
  ac_push := @spc_push P T;
  ac_remove := @spc_remove P T
}.
