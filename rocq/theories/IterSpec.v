(** Vocabulary for the statements about iterators: what the same calls do on a plain
    list. *)
From Verif Require Import Base Containers ContainerSpec Graph GraphSpec Iter.
Set Implicit Arguments.

(** The calls a client can make on a double-ended iterator, in any order. *)
Inductive call (X : Type) :=
| Next | Nth (n : nat) | NextBack | NthBack (n : nat)
| All (f : X -> bool) | Any (f : X -> bool) | Len | SizeHint.
Arguments Next {X}.
Arguments Nth {X} n.
Arguments NextBack {X}.
Arguments NthBack {X} n.
Arguments Len {X}.
Arguments SizeHint {X}.

(** What it learns: an item or [None]; the items its closure was called with and the
    result; the length; the bounds on the length. *)
Inductive answer (X : Type) :=
| Item (o : option X) | Seen (xs : list X) (b : bool)
| Number (n : nat) | Bounds (lo : nat) (hi : option nat).
Arguments Number {X} n.
Arguments Bounds {X} lo hi.

(** The items that an answer puts into the hands of the client. *)
Definition given {X} (a : answer X) : list X :=
  match a with
  | Item (Some x) => [x]
  | Item None => []
  | Seen xs _ => xs
  | Number _ | Bounds _ _ => []
  end.

Section Calls.
Context {X : Type}.

(** The part of the list up to and including the first element with [f], and the part
    behind it. *)
Fixpoint upto (f : X -> bool) (l : list X) : list X :=
  match l with
  | [] => []
  | x :: t => if f x then [x] else x :: upto f t
  end.
Fixpoint beyond (f : X -> bool) (l : list X) : list X :=
  match l with
  | [] => []
  | x :: t => if f x then t else beyond f t
  end.

(** The answer on a list, and the list that is left. *)
Definition list_call (c : call X) (l : list X) : answer X * list X :=
  match c with
  | Next => (Item (nth_error l 0), skipn 1 l)
  | Nth n => (Item (nth_error l n), skipn (S n) l)
  | NextBack => (Item (nth_error (rev l) 0), firstn (length l - 1) l)
  | NthBack n => (Item (nth_error (rev l) n), firstn (length l - S n) l)
  | All f => (Seen (upto (fun x => negb (f x)) l) (forallb f l), beyond (fun x => negb (f x)) l)
  | Any f => (Seen (upto f l) (existsb f l), beyond f l)
  | Len => (Number (length l), l)
  | SizeHint => (Bounds (length l) (Some (length l)), l)
  end.

Fixpoint list_calls (cs : list (call X)) (l : list X) : list (answer X) * list X :=
  match cs with
  | [] => ([], l)
  | c :: t => let (a, l1) := list_call c l in let (r, l2) := list_calls t l1 in (a :: r, l2)
  end.

(** The same on an iterator. *)
Definition iter_call {S} (I : iter S X) (c : call X) (s : S) : outcome (answer X * S) :=
  match c with
  | Next => do ' (o, s') <- it_next I s; Done (Item o, s')
  | Nth n => do ' (o, s') <- it_nth I n s; Done (Item o, s')
  | NextBack => do ' (o, s') <- it_next_back I s; Done (Item o, s')
  | NthBack n => do ' (o, s') <- it_nth_back I n s; Done (Item o, s')
  | All f => do ' (xs, b, s') <- it_all I f s; Done (Seen xs b, s')
  | Any f => do ' (xs, b, s') <- it_any I f s; Done (Seen xs b, s')
  | Len => Done (Number (it_len I s), s)
  | SizeHint => let (lo, hi) := it_size_hint I s in Done (Bounds lo hi, s)
  end.

Fixpoint iter_calls {S} (I : iter S X) (cs : list (call X)) (s : S)
  : outcome (list (answer X) * S) :=
  match cs with
  | [] => Done ([], s)
  | c :: t => do ' (a, s1) <- iter_call I c s; do ' (r, s2) <- iter_calls I t s1; Done (a :: r, s2)
  end.

(** From [s] the iterator answers all sequences of calls as the list [l] does, without
    panic. *)
Definition behaves_as {S} (I : iter S X) (s : S) (l : list X) : Prop :=
  forall cs, exists s', iter_calls I cs s = Done (fst (list_calls cs l), s').

End Calls.

(** The neighbours an [IterWrapper] has left, in order. *)
Definition wrapper_items (w : wrapper) : list nat :=
  match w with
  | GenericIter l => l
  | SwIter l => map se_to l
  end.

(** The iterator handed out by [neighbors] runs over the neighbours of the container. *)
Class NeighborLaws {T A : Type} (C : AdjContainer T A) (NI : NeighborIter A) : Prop :=
  neighbors_law : forall c, wrapper_items (neighbors c) = ac_neighbors c.

(** A client of an iterator over mutable references.  Besides calling the iterator it
    may write through any reference it was given so far, in any order. *)
Inductive action (T X : Type) := Call (c : call X) | Write (k : nat) (t : T).
Arguments Call {T X} c.
Arguments Write {T X} k t.

Section Clients.
Context {T A : Type} {C : AdjContainer T A}.

(** [ref x] is the index of the vertex whose payload the item [x] refers to. *)
Fixpoint client {S X} (I : iter S X) (ref : X -> nat) (prog : list (action T X))
  (g : graph A) (s : S) (refs : list X) : outcome (list (answer X) * list X * graph A) :=
  match prog with
  | [] => Done ([], refs, g)
  | Call c :: r =>
      do ' (a, s1) <- iter_call I c s;
      do ' (rest, refs', g') <- client I ref r g s1 (refs ++ given a);
      Done (a :: rest, refs', g')
  | Write k t :: r =>
      match nth_error refs k with
      | None => client I ref r g s refs
      | Some x => do g1 <- at_mut_set g (ref x) t; client I ref r g1 s refs
      end
  end.

Definition calls_of {X} (prog : list (action T X)) : list (call X) :=
  flat_map (fun a => match a with Call c => [c] | Write _ _ => [] end) prog.

End Clients.
