(** Chains of Markov steps and the other constructors on the words of the generator. *)
From Verif Require Import Base Containers Graph Rng ErC Ws Ba Config Words WordsMore.
From Coq Require Import NArith QArith.
Set Implicit Arguments.
Local Open Scope nat_scope.

(** [m_steps], the default method of the trait [MarkovChain] in the crate [sampling], on words. *)
Fixpoint w_m_steps {E R} (step : E -> words -> outcome (R * E * words)) (k : nat) (s : E) (ws : words)
  : outcome (list R * E * words) :=
  match k with
  | 0 => Done ([], s, ws)
  | S k =>
      do ' (r, s1, ws1) <- step s ws;
      do ' (l, s2, ws2) <- w_m_steps step k s1 ws1;
      Done (r :: l, s2, ws2)
  end.

Section Model.
Context {T : Type}.

(** /repo/src/barabasi_albert.rs 89-103, [new]. *)
Definition w_ba_new (p : profile) (mk : nat -> T) (n m source_n : nat) (ws : words)
  : outcome (ba T * words) :=
  if negb (2 <=? source_n) then Panic
  else if negb (source_n <? n) then Panic
  else do source <- complete_graph p mk source_n;
       w_ba_randomize p (mk_ba source (graph_new mk n) m (repeat 0 n)) ws.

(** /repo/src/barabasi_albert.rs 110-131, [new_from_graph]. *)
Definition w_ba_new_from_graph (p : profile) (mk : nat -> T) (n m : nat) (source : graph (node_container T))
  (ws : words) : outcome (ba T * words) :=
  if negb (forallb (fun c => 0 <? ac_degree c) (vertices source)) then Panic
  else if negb (vertex_count source <? n) then Panic
  else do g <- ba_copy (graph_new mk n) source;
       w_ba_randomize p (mk_ba source g m (repeat 0 n)) ws.

(** /repo/src/barabasi_albert.rs 138-163, [new_from_generic_graph]. *)
Definition w_ba_new_from_generic_graph {A2} {C2 : AdjContainer T A2} (p : profile) (mk : nat -> T)
  (n m : nat) (generic : graph A2) (ws : words) : outcome (ba T * words) :=
  if negb (forallb (fun c => 0 <? ac_degree c) (vertices generic)) then Panic
  else if negb (vertex_count generic <? n) then Panic
  else do g <- ba_copy (graph_new mk n) (graph_from generic);
       w_ba_randomize p (mk_ba (graph_from generic) g m (repeat 0 n)) ws.

(** /repo/src/watts_strogatz/ensemble.rs 101-129, [new]; [d] is not zero in the code. *)
Definition w_ws_new (p : profile) (mk : nat -> T) (n d : nat) (q : Q) (ws : words)
  : outcome (result (ws_ensemble T * words) ws_error) :=
  if n <? 1 + 2 * d then Done (Err ImpossibleRingRequest)
  else
    do ' (r, g) <- init_ring p (graph_new mk n) d;
    match r with
    | Err _ => Done (Err ImpossibleEdgeRequest)
    | Ok _ => do x <- w_ws_randomize p (mk_wse g q d) ws; Done (Ok x)
    end.

(** /repo/src/configuration_model.rs 112-120, [from_vec]. *)
Definition w_cm_from_vec (p : profile) (mk : nat -> T) (v : list nat) (ws : words)
  : outcome (option (config T * words)) :=
  if degree_vec_is_valid v then do x <- w_cm_from_vec_unchecked p mk v ws; Done (Some x)
  else Done None.

(** /repo/src/configuration_model.rs 62-74, [from_const]. *)
Definition w_cm_from_const (p : profile) (mk : nat -> T) (constant size : nat) (ws : words)
  : outcome (option (config T * words)) :=
  do s <- usub p size 1;
  if (s <=? constant) || negb (Nat.even (size * constant)) then Done None
  else do x <- w_cm_from_vec_unchecked p mk (repeat constant size) ws; Done (Some x).

(** /repo/src/configuration_model.rs 78-83, [from_generic_graph]. *)
Definition w_cm_from_generic_graph {T1 A1} {C1 : AdjContainer T1 A1} (p : profile) (mk : nat -> T)
  (g : graph A1) (ws : words) : outcome (config T * words) :=
  w_cm_from_vec_unchecked p mk (degree_vec g) ws.

End Model.
