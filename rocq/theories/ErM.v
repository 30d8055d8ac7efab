(** The Erdős-Rényi ensemble with a constant number of edges. *)
From Verif Require Import Base Containers Graph Rng ErC.
Set Implicit Arguments.

(** /repo/src/er_m.rs 22-28, [ErStepM]. *)
Record er_step_m := mk_esm {
  esm_removed : nat * nat;
  esm_i_removed : nat;
  esm_inserted : nat * nat;
  esm_i_inserted : nat
}.

(** /repo/src/er_m.rs 39-46, [inverted]. *)
Definition esm_inverted (s : er_step_m) : er_step_m :=
  mk_esm (esm_inserted s) (esm_i_removed s) (esm_removed s) (esm_i_inserted s).

(** /repo/src/er_m.rs 95-103.  The generator is threaded separately. *)
Record er_m (T : Type) := mk_erm {
  erm_graph : graph (node_container T);
  erm_m : nat;
  erm_all : list (nat * nat);
  erm_possible : list (nat * nat);
  erm_current : list (nat * nat)
}.

(** [copy_from_slice]: panics if the lengths differ. *)
Definition copy_from_slice {X} (dst src : list X) : outcome (list X) :=
  if length dst =? length src then Done src else Panic.

(** [&v[..m]] and [&v[m..]]: panic if [m] is greater than the length. *)
Definition slice_to {X} (l : list X) (m : nat) : outcome (list X) :=
  if m <=? length l then Done (firstn m l) else Panic.
Definition slice_from {X} (l : list X) (m : nat) : outcome (list X) :=
  if m <=? length l then Done (skipn m l) else Panic.

Section Model.
Context {T : Type}.

(** [self.graph.add_edge(a, b).unwrap()] and [remove_edge] alike. *)
Definition add_edge_unwrap (p : profile) (g : graph (node_container T)) (ab : nat * nat) :=
  do ' (r, g') <- add_edge p g (fst ab) (snd ab);
  do _ <- unwrap r;
  Done g'.
Definition remove_edge_unwrap (p : profile) (g : graph (node_container T)) (ab : nat * nat) :=
  do ' (r, g') <- remove_edge p g (fst ab) (snd ab);
  do _ <- unwrap r;
  Done g'.

(** /repo/src/er_m.rs 157-176, [randomize], with [shuffle_all_edges] 289-291. *)
Definition erm_randomize (p : profile) (e : er_m T) (rs : rng) : outcome (er_m T * rng) :=
  let g := clear_edges (erm_graph e) in
  do ' (all, rs') <- shuffle (erm_all e) rs;
  do c <- slice_to all (erm_m e);
  do current <- copy_from_slice (erm_current e) c;
  do g' <- foldM (add_edge_unwrap p) g current;
  do q <- slice_from all (erm_m e);
  do possible <- copy_from_slice (erm_possible e) q;
  Done (mk_erm g' (erm_m e) all possible current, rs').

(** /repo/src/er_m.rs 223-236, [step]. *)
Definition erm_step (p : profile) (e : er_m T) (s : er_step_m) : outcome (er_m T) :=
  do g1 <- remove_edge_unwrap p (erm_graph e) (esm_removed s);
  do g2 <- add_edge_unwrap p g1 (esm_inserted s);
  do a <- vget (erm_current e) (esm_i_removed s);
  do b <- vget (erm_possible e) (esm_i_inserted s);
  Done (mk_erm g2 (erm_m e) (erm_all e)
          (upd (erm_possible e) (esm_i_inserted s) a)
          (upd (erm_current e) (esm_i_removed s) b)).

(** /repo/src/er_m.rs 202-216, [m_step]. *)
Definition erm_m_step (p : profile) (e : er_m T) (rs : rng)
  : outcome (er_step_m * er_m T * rng) :=
  do ' (i, rs1) <- gen_range (length (erm_current e)) rs;
  do ' (j, rs2) <- gen_range (length (erm_possible e)) rs1;
  do a <- vget (erm_current e) i;
  do b <- vget (erm_possible e) j;
  let step := mk_esm a i b j in
  do e' <- erm_step p e step;
  Done (step, e', rs2).

(** /repo/src/er_m.rs 186-197, [undo_step] and [undo_step_quiet]. *)
Definition erm_undo_step (p : profile) (e : er_m T) (s : er_step_m)
  : outcome (er_step_m * er_m T) :=
  let step := esm_inverted s in
  do e' <- erm_step p e step;
  Done (step, e').
Definition erm_undo_step_quiet (p : profile) (e : er_m T) (s : er_step_m)
  : outcome (er_m T) :=
  erm_step p e (esm_inverted s).

(** /repo/src/er_m.rs 245-278, [new]; the loops over [i < j] visit [er_pairs n].
    [mk] is [T::new_from_index]. *)
Definition erm_new (p : profile) (mk : nat -> T) (n m : nat) (rs : rng)
  : outcome (er_m T * rng) :=
  do k <- usub p n 1;
  let p_edges := Nat.div (n * k) 2 in
  if m <=? p_edges then
    erm_randomize p (mk_erm (graph_new mk n) m (er_pairs n)
      (repeat (0, 0) (p_edges - m)) (repeat (0, 0) m)) rs
  else Panic.

(** /repo/src/er_m.rs 285-287, [get_m]. *)
Definition erm_get_m (e : er_m T) : nat := erm_m e.

End Model.
