(** Common vocabulary of the model: results of Rust functions, and the
    operations of [Vec] used by the crate.  There are no proofs in this file. *)
From Coq Require Export List Arith Bool Lia Permutation.
From Coq Require Import NArith.
Export ListNotations.
Set Implicit Arguments.

(** Build profile.  [debug_assert!] and arithmetic underflow panic only in
    [Debug]. *)
Inductive profile := Debug | Release.

(** What a call of a Rust function can end in.  [Done a]: it returned [a].
    [Panic]: it panicked.  [UB]: it executed an operation that Rust leaves
    undefined.  [NoFuel]: the model ran out of recursion fuel, or out of the
    supplied random draws, before the function returned. *)
Inductive outcome (A : Type) : Type :=
| Done (a : A)
| Panic
| UB
| NoFuel.
Arguments Done {A} a.
Arguments Panic {A}.
Arguments UB {A}.
Arguments NoFuel {A}.

Definition bind {A B} (m : outcome A) (f : A -> outcome B) : outcome B :=
  match m with
  | Done a => f a
  | Panic => Panic
  | UB => UB
  | NoFuel => NoFuel
  end.

Notation "'do' x <- m ; k" := (bind m (fun x => k))
  (at level 200, x name, m at level 100, k at level 200, right associativity).
Notation "'do' ' p <- m ; k" := (bind m (fun x => match x with p => k end))
  (at level 200, p pattern, m at level 100, k at level 200, right associativity).

(** Rust's [Result]. *)
Inductive result (A E : Type) : Type :=
| Ok (a : A)
| Err (e : E).
Arguments Ok {A E} a.
Arguments Err {A E} e.

(** /repo/src/traits/graph_traits.rs 27-34, [GraphErrors]. *)
Inductive graph_error := EdgeExists | EdgeDoesNotExist.

(** The number of values of a 64 bit [usize]; a function and opaque so that it is
    never computed as a unary number. *)
Definition usize_modulus (_ : unit) : nat := N.to_nat 18446744073709551616%N.
Global Opaque usize_modulus.

(** [a - b] on [usize]: underflow panics in debug and wraps in release. *)
Definition usub (p : profile) (a b : nat) : outcome nat :=
  if b <=? a then Done (a - b)
  else match p with
       | Debug => Panic
       | Release => Done (a + usize_modulus tt - b)
       end.

(** ** [Vec] *)

(** [v[i]] for reading: panics when out of bounds. *)
Definition vget {A} (l : list A) (i : nat) : outcome A :=
  match nth_error l i with
  | Some x => Done x
  | None => Panic
  end.

(** The list with entry [i] replaced (unchanged if [i] is out of bounds). *)
Fixpoint upd {A} (l : list A) (i : nat) (x : A) : list A :=
  match l, i with
  | [], _ => []
  | _ :: t, 0 => x :: t
  | h :: t, S i' => h :: upd t i' x
  end.

(** [v[i] = x]: panics when out of bounds. *)
Definition vset {A} (l : list A) (i : nat) (x : A) : outcome (list A) :=
  if i <? length l then Done (upd l i x) else Panic.

(** [Vec::swap_remove]: the last element takes the place of element [i]. *)
Definition swap_remove {A} (l : list A) (i : nat) : outcome (list A) :=
  match rev l with
  | [] => Panic
  | x :: _ => if i <? length l then Done (removelast (upd l i x)) else Panic
  end.

(** [Iterator::position]: index of the first element satisfying [f]. *)
Fixpoint position {A} (f : A -> bool) (l : list A) : option nat :=
  match l with
  | [] => None
  | x :: t => if f x then Some 0 else option_map S (position f t)
  end.

(** [slice::contains] for indices. *)
Definition contains (l : list nat) (x : nat) : bool := existsb (Nat.eqb x) l.

(** [expect]/[unwrap] on an [Option]. *)
Definition expect {A} (o : option A) : outcome A :=
  match o with
  | Some x => Done x
  | None => Panic
  end.

(** [unwrap] on a [Result]. *)
Definition unwrap {A E} (r : result A E) : outcome A :=
  match r with
  | Ok a => Done a
  | Err _ => Panic
  end.

(** [sort_unstable_by_key]: modelled as insertion sort; on lists with pairwise
    different keys every correct sorting algorithm returns the same list. *)
Fixpoint insert_by {A} (key : A -> nat) (x : A) (l : list A) : list A :=
  match l with
  | [] => [x]
  | y :: t => if key x <=? key y then x :: l else y :: insert_by key x t
  end.

Fixpoint sort_by {A} (key : A -> nat) (l : list A) : list A :=
  match l with
  | [] => []
  | x :: t => insert_by key x (sort_by key t)
  end.

(** Descending sort, as done with [sort_unstable_by(.. .reverse())]. *)
Fixpoint insert_desc (x : nat) (l : list nat) : list nat :=
  match l with
  | [] => [x]
  | y :: t => if y <=? x then x :: l else y :: insert_desc x t
  end.

Fixpoint sort_desc (l : list nat) : list nat :=
  match l with
  | [] => []
  | x :: t => insert_desc x (sort_desc t)
  end.

(** Run a computation on each element from left to right. *)
Fixpoint mapM {A B} (f : A -> outcome B) (l : list A) : outcome (list B) :=
  match l with
  | [] => Done []
  | x :: t => do y <- f x; do ys <- mapM f t; Done (y :: ys)
  end.

(** A [for] loop: [foldM f s l] threads the state [s] through [f]. *)
Fixpoint foldM {A S} (f : S -> A -> outcome S) (s : S) (l : list A) : outcome S :=
  match l with
  | [] => Done s
  | x :: t => do s' <- f s x; foldM f s' t
  end.

(** [SliceRandom::shuffle] with the oracle's choice [p] of a permutation of the
    positions: entry [k] of the result is entry [p[k]] of the slice. *)
Definition permute {A} (p : list nat) (l : list A) : outcome (list A) :=
  mapM (vget l) p.

(** Drain an iterator: [next] gives [None] or an item and the new state. *)
Fixpoint drain {S I} (next : S -> outcome (option (I * S))) (fuel : nat) (s : S)
  : outcome (list I) :=
  match fuel with
  | 0 => NoFuel
  | Datatypes.S f =>
      do r <- next s;
      match r with
      | None => Done []
      | Some (i, s') => do t <- drain next f s'; Done (i :: t)
      end
  end.
