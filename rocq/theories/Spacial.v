(** The spacial ensemble. *)
From Verif Require Import Base Containers Graph Rng ErC.
From Coq Require Import QArith.
Set Implicit Arguments.
Local Open Scope nat_scope.

(** A position: the coordinates [x] and [y] as rational numbers. *)
Notation pos := (Q * Q)%type.
Notation sgraph T := (graph (spacial_container pos T)).

(** /repo/src/spacial/spacial_ensemble.rs 24-31.  The generator is threaded separately.
    The fields [f], [alpha] and [sqrt_n_pi] are only used to compute the probability of
    an edge (97-109, [prob_unchecked]), which needs [powf] and [hypot].  They are
    represented by the test that the code makes with it: [sp_accept e a b u] is
    [u <= prob] for vertices at the positions [a] and [b], [None] being NaN. *)
Record spacial (T : Type) := mk_sp {
  sp_graph : sgraph T;
  sp_accept : option pos -> option pos -> Q -> bool
}.

(** /repo/src/spacial/spacial_ensemble.rs 164-174, [SpacialStep]. *)
Inductive spacial_step :=
| Sp_Nothing
| Sp_AddedEdge (e : nat * nat)
| Sp_RemovedEdge (e : nat * nat)
| Sp_Error.

Section Model.
Context {T : Type}.

(** [vertices.get_unchecked(i)]: undefined behaviour out of bounds. *)
Definition get_unchecked (g : sgraph T) (i : nat) : outcome (spacial_container pos T) :=
  match nth_error (vertices g) i with Some c => Done c | None => UB end.

(** The test [rng.gen::<f64>() <= prob_unchecked(i, j)] of
    /repo/src/spacial/spacial_ensemble.rs 137-138, 185-186 and 204-205. *)
Definition sp_test (e : spacial T) (g : sgraph T) (i j : nat) (rs : rng) : outcome (bool * rng) :=
  do a <- get_unchecked g i;
  do b <- get_unchecked g j;
  do ' (u, rs1) <- gen_f64 rs;
  Done (sp_accept e (spc_pos a) (spc_pos b) u, rs1).

(** [get_unchecked_mut(i).adj.push(j)]. *)
Definition sp_adj_push (g : sgraph T) (i j : nat) : outcome (sgraph T) :=
  do c <- get_unchecked g i;
  Done (mk_graph (next_id g) (edge_count g)
          (upd (vertices g) i (mk_spc (spc_id c) (spc_adj c ++ [j]) (spc_node c) (spc_pos c)))).

(** The unchecked insertion of /repo/src/spacial/spacial_ensemble.rs 142-155. *)
Definition sp_push_both (g : sgraph T) (i j : nat) : outcome (sgraph T) :=
  do g1 <- sp_adj_push g i j;
  do g2 <- sp_adj_push g1 j i;
  Done (mk_graph (next_id g2) (edge_count g2 + 1) (vertices g2)).

(** /repo/src/spacial/spacial_ensemble.rs 132-159, [randomize].  The nested loops visit the
    pairs of [er_pairs]. *)
Definition sp_randomize (e : spacial T) (rs : rng) : outcome (spacial T * rng) :=
  let g := clear_edges (sp_graph e) in
  do ' (g', rs') <- foldM (fun s ij =>
      let '(g, rs) := s in
      do ' (ok, rs1) <- sp_test e g (fst ij) (snd ij) rs;
      if ok : bool
      then do g1 <- sp_push_both g (fst ij) (snd ij); Done (g1, rs1)
      else Done (g, rs1)) (g, rs) (er_pairs (vertex_count g));
  Done (mk_sp g' (sp_accept e), rs').

(** /repo/src/spacial/spacial_ensemble.rs 55-62: the coordinates of all vertices are drawn. *)
Definition sp_place (g : sgraph T) (rs : rng) : outcome (sgraph T * rng) :=
  do ' (vs, rs') <- foldM (fun s c =>
      let '(vs, rs) := s in
      do ' (x, rs1) <- gen_f64 rs;
      do ' (y, rs2) <- gen_f64 rs1;
      Done (vs ++ [mk_spc (spc_id c) (spc_adj c) (spc_node c) (Some (x, y))], rs2)) ([], rs) (vertices g);
  Done (mk_graph (next_id g) (edge_count g) vs, rs').

(** /repo/src/spacial/spacial_ensemble.rs 51-73, [new]. *)
Definition sp_new (mk : nat -> T) (n : nat) (accept : option pos -> option pos -> Q -> bool) (rs : rng)
  : outcome (spacial T * rng) :=
  do ' (g, rs1) <- sp_place (graph_new mk n) rs;
  sp_randomize (mk_sp g accept) rs1.

(** /repo/src/spacial/spacial_ensemble.rs 183-199, [m_step]. *)
Definition sp_m_step (p : profile) (e : spacial T) (rs : rng) : outcome (spacial_step * spacial T * rng) :=
  do ' (a, b, rs1) <- draw_two_from_range p (vertex_count (sp_graph e)) rs;
  do ' (ok, rs2) <- sp_test e (sp_graph e) a b rs1;
  if ok : bool then
    do ' (r, g) <- add_edge p (sp_graph e) a b;
    match r with
    | Ok _ => Done (Sp_AddedEdge (a, b), mk_sp g (sp_accept e), rs2)
    | Err _ => Done (Sp_Nothing, mk_sp g (sp_accept e), rs2)
    end
  else
    do ' (r, g) <- remove_edge p (sp_graph e) a b;
    match r with
    | Ok _ => Done (Sp_RemovedEdge (a, b), mk_sp g (sp_accept e), rs2)
    | Err _ => Done (Sp_Nothing, mk_sp g (sp_accept e), rs2)
    end.

(** /repo/src/spacial/spacial_ensemble.rs 201-211, [m_steps_quiet]. *)
Definition sp_m_steps_quiet (p : profile) (e : spacial T) (count : nat) (rs : rng)
  : outcome (spacial T * rng) :=
  foldM (fun s _ =>
      let '(e, rs) := s in
      do ' (i, j, rs1) <- draw_two_from_range p (vertex_count (sp_graph e)) rs;
      do ' (ok, rs2) <- sp_test e (sp_graph e) i j rs1;
      if ok : bool
      then do ' (_, g) <- add_edge p (sp_graph e) i j; Done (mk_sp g (sp_accept e), rs2)
      else do ' (_, g) <- remove_edge p (sp_graph e) i j; Done (mk_sp g (sp_accept e), rs2))
    (e, rs) (seq 0 count).

(** /repo/src/spacial/spacial_ensemble.rs 213-234, [undo_step]. *)
Definition sp_undo_step (p : profile) (e : spacial T) (step : spacial_step)
  : outcome (spacial_step * spacial T) :=
  match step with
  | Sp_AddedEdge (a, b) =>
      do ' (r, g) <- remove_edge p (sp_graph e) a b;
      match r with
      | Ok _ => Done (Sp_RemovedEdge (a, b), mk_sp g (sp_accept e))
      | Err _ => Done (Sp_Error, mk_sp g (sp_accept e))
      end
  | Sp_RemovedEdge (a, b) =>
      do ' (r, g) <- add_edge p (sp_graph e) a b;
      match r with
      | Ok _ => Done (Sp_AddedEdge (a, b), mk_sp g (sp_accept e))
      | Err _ => Done (Sp_Error, mk_sp g (sp_accept e))
      end
  | Sp_Nothing | Sp_Error => Done (step, e)
  end.

(** /repo/src/spacial/spacial_ensemble.rs 238-253, [undo_step_quiet]. *)
Definition sp_undo_step_quiet (p : profile) (e : spacial T) (step : spacial_step) : outcome (spacial T) :=
  match step with
  | Sp_AddedEdge (a, b) =>
      do ' (r, g) <- remove_edge p (sp_graph e) a b;
      do _ <- unwrap r;
      Done (mk_sp g (sp_accept e))
  | Sp_RemovedEdge (a, b) =>
      do ' (r, g) <- add_edge p (sp_graph e) a b;
      do _ <- unwrap r;
      Done (mk_sp g (sp_accept e))
  | Sp_Nothing => Done e
  | Sp_Error => Panic
  end.

(** /repo/src/spacial/spacial_graph.rs 164-177 and /repo/src/spacial/spacial_ensemble.rs
    79-83, [distance]; [dist] stands for 138-142, the distance of two containers. *)
Definition sp_distance {D} (dist : option pos -> option pos -> D) (g : sgraph T) (i j : nat) : option D :=
  match nth_error (vertices g) i with
  | None => None
  | Some ci => option_map (fun cj => dist (spc_pos ci) (spc_pos cj)) (nth_error (vertices g) j)
  end.

End Model.
