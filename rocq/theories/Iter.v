(** The iterators of /repo/src/iter.rs and [SwEdgeIterNeighbors].

    Simplifications: a closure given to [all], [any], [fold] or [reduce] is a pure
    function (the items it is called with are recorded, so nothing is lost); the state
    of an iterator after a panic is not returned; indices are below 2^63, so the casts
    to [isize] in [NContainedIterMut] do nothing. *)
From Verif Require Import Base Containers Graph.
Set Implicit Arguments.

(** The methods of [Iterator], [DoubleEndedIterator] and [ExactSizeIterator] that an
    iterator of the crate can be asked for.  [it_all] and [it_any] also return the items
    that the closure was called with. *)
Record iter (S X : Type) := mk_iter {
  it_next : S -> outcome (option X * S);
  it_nth : nat -> S -> outcome (option X * S);
  it_next_back : S -> outcome (option X * S);
  it_nth_back : nat -> S -> outcome (option X * S);
  it_all : (X -> bool) -> S -> outcome (list X * bool * S);
  it_any : (X -> bool) -> S -> outcome (list X * bool * S);
  it_len : S -> nat;
  it_size_hint : S -> nat * option nat
}.

(** ** Default methods of the standard library *)

Section Defaults.
Context {S X : Type}.
Variable step : S -> outcome (option X * S).

(** [DoubleEndedIterator::nth_back] (and [Iterator::nth]): [n] steps, then one more;
    [None] as soon as a step gives [None]. *)
Fixpoint std_nth (n : nat) (s : S) : outcome (option X * S) :=
  match n with
  | 0 => step s
  | Datatypes.S m =>
      do ' (o, s') <- step s;
      match o with
      | None => Done (None, s')
      | Some _ => std_nth m s'
      end
  end.

(** [Iterator::all]: stops at the first item that fails. *)
Fixpoint std_all (fuel : nat) (f : X -> bool) (s : S) : outcome (list X * bool * S) :=
  match fuel with
  | 0 => NoFuel
  | Datatypes.S fu =>
      do ' (o, s') <- step s;
      match o with
      | None => Done ([], true, s')
      | Some x =>
          if f x then do ' (xs, b, s2) <- std_all fu f s'; Done (x :: xs, b, s2)
          else Done ([x], false, s')
      end
  end.

(** [Iterator::any]: stops at the first item that succeeds. *)
Fixpoint std_any (fuel : nat) (f : X -> bool) (s : S) : outcome (list X * bool * S) :=
  match fuel with
  | 0 => NoFuel
  | Datatypes.S fu =>
      do ' (o, s') <- step s;
      match o with
      | None => Done ([], false, s')
      | Some x =>
          if f x then Done ([x], true, s')
          else do ' (xs, b, s2) <- std_any fu f s'; Done (x :: xs, b, s2)
      end
  end.

(** [Iterator::fold]. *)
Fixpoint std_fold {B} (fuel : nat) (f : B -> X -> B) (b : B) (s : S) : outcome B :=
  match fuel with
  | 0 => NoFuel
  | Datatypes.S fu =>
      do ' (o, s') <- step s;
      match o with
      | None => Done b
      | Some x => std_fold fu f (f b x) s'
      end
  end.

(** [Iterator::reduce]. *)
Definition std_reduce (fuel : nat) (f : X -> X -> X) (s : S) : outcome (option X) :=
  do ' (o, s') <- step s;
  match o with
  | None => Done None
  | Some x => do y <- std_fold fuel f x s'; Done (Some y)
  end.
End Defaults.

(** ** Slices of the standard library *)

Section Slices.
Context {X : Type}.

(** [split_first], [split_last]: the element and the rest. *)
Definition split_first (l : list X) : option (X * list X) :=
  match l with
  | [] => None
  | x :: t => Some (x, t)
  end.
Definition split_last (l : list X) : option (X * list X) :=
  match rev l with
  | [] => None
  | x :: t => Some (x, rev t)
  end.

(** [split_at(mid)]: panics if [mid > len]. *)
Definition split_at (mid : nat) (l : list X) : outcome (list X * list X) :=
  if mid <=? length l then Done (firstn mid l, skipn mid l) else Panic.

(** The items a short-circuiting search looks at, its result and what is left. *)
Fixpoint slice_until (f : X -> bool) (l : list X) : list X * bool * list X :=
  match l with
  | [] => ([], false, [])
  | x :: t => if f x then ([x], true, t)
              else let '(xs, b, r) := slice_until f t in (x :: xs, b, r)
  end.

(** [slice::Iter] and [slice::IterMut] as documented: the slice that is left. *)
Definition slice_iter : iter (list X) X := mk_iter
  (fun l => Done (hd_error l, tl l))
  (fun n l => Done (nth_error l n, skipn (Datatypes.S n) l))
  (fun l => Done (hd_error (rev l), removelast l))
  (fun n l => Done (nth_error (rev l) n, firstn (length l - Datatypes.S n) l))
  (fun f l => let '(xs, b, r) := slice_until (fun x => negb (f x)) l in Done (xs, negb b, r))
  (fun f l => Done (slice_until f l))
  (fun l => length l)
  (fun l => (length l, Some (length l))).
End Slices.

(** ** [SwEdgeIterNeighbors] *)

(** /repo/src/sw_graph.rs 97-107, [next]. *)
Definition sw_next (l : list sw_edge) : outcome (option nat * list sw_edge) :=
  match split_first l with
  | None => Done (None, l)
  | Some (e, r) => Done (Some (se_to e), r)
  end.

(** /repo/src/sw_graph.rs 109-122, [nth]. *)
Definition sw_nth (n : nat) (l : list sw_edge) : outcome (option nat * list sw_edge) :=
  if length l <=? n then Done (None, [])
  else do ' (elements, r) <- split_at (n + 1) l;
       do e <- vget elements n;
       Done (Some (se_to e), r).

(** /repo/src/sw_graph.rs 130-140, [next_back]. *)
Definition sw_next_back (l : list sw_edge) : outcome (option nat * list sw_edge) :=
  match split_last l with
  | None => Done (None, l)
  | Some (e, r) => Done (Some (se_to e), r)
  end.

(** /repo/src/sw_graph.rs 82-149, [SwEdgeIterNeighbors]: the methods above, [size_hint]
    (124-127), [len] (144-148), and the default methods. *)
Definition sw_iter : iter (list sw_edge) nat := mk_iter
  sw_next sw_nth sw_next_back
  (std_nth sw_next_back)
  (fun f l => std_all sw_next (S (length l)) f l)
  (fun f l => std_any sw_next (S (length l)) f l)
  (fun l => length l)
  (fun l => (length l, Some (length l))).

(** ** [IterWrapper] *)

(** /repo/src/iter.rs 14-19, [IterWrapper]. *)
Inductive wrapper := GenericIter (l : list nat) | SwIter (l : list sw_edge).

Definition rewrap {X} (w : list nat -> wrapper) (m : outcome (X * list nat)) : outcome (X * wrapper) :=
  do ' (x, l) <- m; Done (x, w l).
Definition rewrap_sw {X} (m : outcome (X * list sw_edge)) : outcome (X * wrapper) :=
  do ' (x, l) <- m; Done (x, SwIter l).

(** /repo/src/iter.rs 26-32, [next]; 34-40, [nth]; 119-128, [next_back]; 108-117,
    [len]; 85-94, [all]; 96-105, [any]. *)
Definition wrapper_next (w : wrapper) : outcome (option nat * wrapper) :=
  match w with
  | GenericIter l => rewrap GenericIter (it_next slice_iter l)
  | SwIter l => rewrap_sw (it_next sw_iter l)
  end.
Definition wrapper_nth (n : nat) (w : wrapper) : outcome (option nat * wrapper) :=
  match w with
  | GenericIter l => rewrap GenericIter (it_nth slice_iter n l)
  | SwIter l => rewrap_sw (it_nth sw_iter n l)
  end.
Definition wrapper_next_back (w : wrapper) : outcome (option nat * wrapper) :=
  match w with
  | GenericIter l => rewrap GenericIter (it_next_back slice_iter l)
  | SwIter l => rewrap_sw (it_next_back sw_iter l)
  end.
Definition wrapper_len (w : wrapper) : nat :=
  match w with
  | GenericIter l => it_len slice_iter l
  | SwIter l => it_len sw_iter l
  end.
Definition wrapper_all (f : nat -> bool) (w : wrapper) : outcome (list nat * bool * wrapper) :=
  match w with
  | GenericIter l => rewrap GenericIter (it_all slice_iter f l)
  | SwIter l => rewrap_sw (it_all sw_iter f l)
  end.
Definition wrapper_any (f : nat -> bool) (w : wrapper) : outcome (list nat * bool * wrapper) :=
  match w with
  | GenericIter l => rewrap GenericIter (it_any slice_iter f l)
  | SwIter l => rewrap_sw (it_any sw_iter f l)
  end.

(** /repo/src/iter.rs 21-128: the methods above, [size_hint] (53-57), and the default
    [nth_back]. *)
Definition wrapper_iter : iter wrapper nat := mk_iter
  wrapper_next wrapper_nth wrapper_next_back
  (std_nth wrapper_next_back)
  wrapper_all wrapper_any
  wrapper_len
  (fun w => let size := wrapper_len w in (size, Some size)).

(** /repo/src/iter.rs 42-51, [fold]; 59-67, [collect] into a [Vec]; 69-83, [reduce];
    144-151, [into_vec]. *)
Definition wrapper_fold {B} (f : B -> nat -> B) (b : B) (w : wrapper) : outcome B :=
  match w with
  | GenericIter l => Done (fold_left f l b)
  | SwIter l => std_fold sw_next (S (length l)) f b l
  end.
Definition wrapper_collect (w : wrapper) : outcome (list nat) :=
  match w with
  | GenericIter l => Done l
  | SwIter l => std_fold sw_next (S (length l)) (fun v x => v ++ [x]) [] l
  end.
Definition wrapper_reduce (f : nat -> nat -> nat) (w : wrapper) : outcome (option nat) :=
  match w with
  | GenericIter [] => Done None
  | GenericIter (x :: t) => Done (Some (fold_left f t x))
  | SwIter l => std_reduce sw_next (S (length l)) f l
  end.
Definition wrapper_into_vec (w : wrapper) : outcome (list nat) :=
  match w with
  | GenericIter l => Done l
  | SwIter l => std_fold sw_next (S (length l)) (fun v x => v ++ [x]) [] l
  end.

(** [AdjContainer::neighbors]: the iterator that the container hands out. *)
Class NeighborIter (A : Type) := neighbors : A -> wrapper.

(** /repo/src/graph.rs 62-64, /repo/src/sw_graph.rs 195-199,
    /repo/src/watts_strogatz/ws_container.rs 114-116,
    /repo/src/spacial/spacial_graph.rs 53-55. *)
Global Instance nc_neighbors_iter {T} : NeighborIter (node_container T) :=
  fun c => GenericIter (nc_adj c).
Global Instance sc_neighbors_iter {T} : NeighborIter (sw_container T) :=
  fun c => SwIter (sc_adj c).
Global Instance wc_neighbors_iter {T} : NeighborIter (ws_container T) :=
  fun c => GenericIter (wc_to c).
Global Instance spc_neighbors_iter {P T} : NeighborIter (spacial_container P T) :=
  fun c => GenericIter (spc_adj c).

Section Graphs.
Context {T A : Type} {C : AdjContainer T A} {NI : NeighborIter A}.

(** ** [ContainedIter] *)

(** /repo/src/iter.rs 187-195, [next]. *)
Definition contained_next (l : list A) : outcome (option T * list A) :=
  match split_first l with
  | None => Done (None, l)
  | Some (c, r) => Done (Some (ac_contained c), r)
  end.

(** /repo/src/iter.rs 197-210, [nth]. *)
Definition contained_nth (n : nat) (l : list A) : outcome (option T * list A) :=
  if length l <=? n then Done (None, [])
  else do ' (elements, r) <- split_at (n + 1) l;
       do c <- vget elements n;
       Done (Some (ac_contained c), r).

(** /repo/src/iter.rs 222-229, [next_back]. *)
Definition contained_next_back (l : list A) : outcome (option T * list A) :=
  match split_last l with
  | None => Done (None, l)
  | Some (c, r) => Done (Some (ac_contained c), r)
  end.

(** /repo/src/iter.rs 156-240, [ContainedIter]: the methods above, [size_hint]
    (212-215), [len] (236-239), and the default methods. *)
Definition contained_iter_ops : iter (list A) T := mk_iter
  contained_next contained_nth contained_next_back
  (std_nth contained_next_back)
  (fun f l => std_all contained_next (S (length l)) f l)
  (fun f l => std_any contained_next (S (length l)) f l)
  (fun l => length l)
  (fun l => (length l, Some (length l))).

(** ** Iterators that look up the indices another iterator gives *)

Section Lookup.
Context {V S Y : Type}.
Variable I : iter S nat.

(** [let index = self.index_iter.next()?; Some(..)] *)
Definition look (get : V -> nat -> outcome Y) (step : S -> outcome (option nat * S)) (s : V * S)
  : outcome (option Y * (V * S)) :=
  do ' (o, s') <- step (snd s);
  match o with
  | None => Done (None, (fst s, s'))
  | Some index => do y <- get (fst s) index; Done (Some y, (fst s, s'))
  end.

(** [next], [nth] and [next_back] ask the same of the iterator over indices; [size_hint]
    and [len] are those of the iterator over indices; default methods otherwise. *)
Definition lookup_iter (get get_back : V -> nat -> outcome Y) : iter (V * S) Y := mk_iter
  (look get (it_next I))
  (fun n => look get (it_nth I n))
  (look get_back (it_next_back I))
  (std_nth (look get_back (it_next_back I)))
  (fun f s => std_all (look get (it_next I)) (Datatypes.S (it_len I (snd s))) f s)
  (fun f s => std_any (look get (it_next I)) (Datatypes.S (it_len I (snd s))) f s)
  (fun s => it_len I (snd s))
  (fun s => it_size_hint I (snd s)).
End Lookup.

(** /repo/src/iter.rs 247-324, [NContainerIter]. *)
Definition n_container_iter {S} (I : iter S nat) : iter (list A * S) A :=
  lookup_iter I (fun v i => vget v i) (fun v i => vget v i).

(** /repo/src/iter.rs 331-409, [NContainedIter]. *)
Definition contained_at (v : list A) (i : nat) : outcome T :=
  do c <- vget v i; Done (ac_contained c).
Definition n_contained_iter {S} (I : iter S nat) : iter (list A * S) T :=
  lookup_iter I contained_at contained_at.

(** /repo/src/iter.rs 415-488, [NIContainedIter].  [size_hint] is made of [len]. *)
Definition ni_contained_iter : iter (list A * wrapper) (nat * T) :=
  let get := fun v i => do t <- contained_at v i; Done (i, t) in
  lookup_iter wrapper_iter get get.

(** A mutable reference to the payload of a vertex is represented by the index of that
    vertex; of the mutable slice only the length matters to these iterators.

    /repo/src/iter.rs 496-593, [NContainedIterMut]: a [debug_assert!] guards the raw
    pointer in [next] (530-541) and [nth] (543-554), an [assert!] in [next_back]
    (568-580). *)
Definition raw_place (p : profile) (len i : nat) : outcome nat :=
  if i <? len then Done i else match p with Debug => Panic | Release => UB end.
Definition asserted_place (len i : nat) : outcome nat :=
  if i <? len then Done i else Panic.
Definition n_contained_iter_mut {S} (p : profile) (I : iter S nat) : iter (nat * S) nat :=
  lookup_iter I (raw_place p) asserted_place.

(** /repo/src/iter.rs 600-688, [INContainedIterMut]: the index and the reference, behind
    an [assert!] everywhere. *)
Definition in_contained_iter_mut : iter (nat * wrapper) (nat * nat) :=
  let get := fun len i => do r <- asserted_place len i; Done (i, r) in
  lookup_iter wrapper_iter get get.

(** /repo/src/iter.rs 693-777, [ContainedIterMut]: all methods but the default [all] and
    [any] are those of [slice::IterMut]. *)
Definition contained_iter_mut_ops : iter (list nat) nat := mk_iter
  (it_next slice_iter) (it_nth slice_iter) (it_next_back slice_iter) (it_nth_back slice_iter)
  (fun f l => std_all (it_next slice_iter) (S (length l)) f l)
  (fun f l => std_any (it_next slice_iter) (S (length l)) f l)
  (it_len slice_iter)
  (fun l => (it_len slice_iter l, Some (it_len slice_iter l))).

(** ** The functions of the graph that create them *)

(** /repo/src/generic_graph/generic_graph.rs 242-255: [contained_iter] and
    [contained_iter_mut]. *)
Definition contained_iter (g : graph A) : list A := vertices g.
Definition contained_iter_mut (g : graph A) : list nat := seq 0 (length (vertices g)).

(** /repo/src/generic_graph/generic_graph.rs 226-240, 257-277:
    [container_iter_neighbors], [contained_iter_neighbors] and
    [contained_iter_neighbors_with_index] start with the same data. *)
Definition iter_neighbors (g : graph A) (index : nat) : outcome (list A * wrapper) :=
  do c <- vget (vertices g) index; Done (vertices g, neighbors c).

(** /repo/src/generic_graph/generic_graph.rs 279-319: [contained_iter_neighbors_mut] and
    [contained_iter_neighbors_mut_with_index].  The [assert!] guards the raw pointer. *)
Definition iter_neighbors_mut (g : graph A) (index : nat) : outcome (nat * wrapper) :=
  if index <? length (vertices g) then
    match nth_error (vertices g) index with
    | None => UB
    | Some c => Done (length (vertices g), neighbors c)
    end
  else Panic.

(** ** [NContainedIter2] *)

(** /repo/src/dual_graph/dual_graph_iterators.rs 242-251, [next], and 259-263, [count];
    [size_hint] (253-257) is [count] twice. *)
Definition nci2_next (v : list A) (l : list nat) : outcome (option (T * list nat)) :=
  match split_first l with
  | None => Done None
  | Some (first, rest) => do c <- vget v first; Done (Some (ac_contained c, rest))
  end.
Definition nci2_count (l : list nat) : nat := length l.

End Graphs.
