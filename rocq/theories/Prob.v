(** The ensembles with a probability, in floating point arithmetic.  [ErC], [Sw] and [Ws] have the
    probability as a rational number; here it is an [f64] as in the code, and so is the random
    number it is compared with. *)
From Verif Require Import Base Containers Graph Rng Float ErC Sw Ws.
From Coq Require Import ZArith SpecFloat.
Set Implicit Arguments.

(** [rng.gen::<f64>()] of the crate [rand]: 53 random bits, multiplied by 2^-53. *)
Definition unit_f64 (r : nat) : spec_float :=
  binary_normalize 53 1024 (Z.modulo (Z.of_nat r) 9007199254740992) (-53) false.
Definition gen_unit (rs : rng) : outcome (spec_float * rng) :=
  do ' (r, t) <- draw rs; Done (unit_f64 r, t).

Section ErdosRenyi.
Context {T : Type}.

(** /repo/src/er_c.rs 72-80, [ErEnsembleC]. *)
Record er_c64 := mk_erc64 {
  erc64_graph : graph (node_container T);
  erc64_prob : spec_float;
  erc64_c_target : spec_float
}.

(** /repo/src/er_c.rs 128-143, [randomize]; the loops over [i < j] visit [er_pairs]. *)
Definition erc64_randomize (e : er_c64) (rs : rng) : outcome (er_c64 * rng) :=
  let g := clear_edges (erc64_graph e) in
  do ' (g', rs') <- foldM (fun s ij =>
      let '(g, rs) := s in
      do ' (x, rs1) <- gen_unit rs;
      if SFleb x (erc64_prob e)
      then do g1 <- push_both g (fst ij) (snd ij); Done (g1, rs1)
      else Done (g, rs1)) (g, rs) (er_pairs (vertex_count g));
  Done (mk_erc64 g' (erc64_prob e) (erc64_c_target e), rs').

(** /repo/src/er_c.rs 154-174, [m_step]. *)
Definition erc64_m_step (p : profile) (e : er_c64) (rs : rng)
  : outcome (er_step_c * er_c64 * rng) :=
  let set g := mk_erc64 g (erc64_prob e) (erc64_c_target e) in
  do ' (a, b, rs1) <- draw_two_from_range p (vertex_count (erc64_graph e)) rs;
  do ' (x, rs2) <- gen_unit rs1;
  if SFleb x (erc64_prob e) then
    do ' (r, g) <- add_edge p (erc64_graph e) a b;
    match r with
    | Ok _ => Done (ErC_AddedEdge (a, b), set g, rs2)
    | Err _ => Done (ErC_Nothing, set g, rs2)
    end
  else
    do ' (r, g) <- remove_edge p (erc64_graph e) a b;
    match r with
    | Ok _ => Done (ErC_RemovedEdge (a, b), set g, rs2)
    | Err _ => Done (ErC_Nothing, set g, rs2)
    end.

(** /repo/src/er_c.rs 240 and 287, [c_target / (n - 1) as f64]. *)
Definition erc64_probability (p : profile) (n : nat) (c : spec_float) : outcome spec_float :=
  do m <- usub p n 1;
  Done (f64_div c (f64_of_nat m)).

(** /repo/src/er_c.rs 239-250, [new]; [mk] is [T::new_from_index]. *)
Definition erc64_new (p : profile) (mk : nat -> T) (n : nat) (c_target : spec_float) (rs : rng)
  : outcome (er_c64 * rng) :=
  do prob <- erc64_probability p n c_target;
  erc64_randomize (mk_erc64 (graph_new mk n) prob c_target) rs.

(** /repo/src/er_c.rs 286-290, [set_target_connectivity]. *)
Definition erc64_set_target_connectivity (p : profile) (e : er_c64) (c : spec_float)
  : outcome er_c64 :=
  do prob <- erc64_probability p (vertex_count (erc64_graph e)) c;
  Done (mk_erc64 (erc64_graph e) prob c).

End ErdosRenyi.
Arguments er_c64 T : clear implicits.

Section SmallWorld.
Context {T : Type}.

(** /repo/src/sw.rs 198-203, [SwEnsemble]. *)
Record sw_ensemble64 := mk_swe64 {
  sw64_graph : graph (sw_container T);
  sw64_r_prob : spec_float
}.
Let E := sw_ensemble64.
Definition sw64_set (e : E) (g : graph (sw_container T)) : E := mk_swe64 g (sw64_r_prob e).

(** /repo/src/sw.rs 299-309, [randomize_edge]. *)
Definition sw64_randomize_edge (p : profile) (e : E) (i0 i1 : nat) (rs : rng)
  : outcome (sw_state * E * rng) :=
  do ' (x, rs1) <- gen_unit rs;
  if SFleb x (sw64_r_prob e) then
    do h <- usub p (vertex_count (sw64_graph e)) 1;
    do ' (k, rs2) <- draw_remaining i0 h rs1;
    do ' (s, g) <- sw_rewire_edge p (sw64_graph e) i0 i1 k;
    Done (s, sw64_set e g, rs2)
  else
    do ' (s, g) <- sw_reset_edge p (sw64_graph e) i0 i1;
    Done (s, sw64_set e g, rs1).

(** /repo/src/sw.rs 325-343, [draw_edge]. *)
Definition sw64_draw_edge (e : E) (rs : rng) : outcome (nat * nat * rng) :=
  do ' (r, rs') <- gen_range (edge_count (sw64_graph e)) rs;
  let v_index := Nat.div r 2 in
  let e_index := Nat.modulo r 2 in
  do c <- container (sw64_graph e) v_index;
  do x <- expect (nth_error (filter se_is_root (sc_adj c)) e_index);
  Done (v_index, se_to x, rs').

(** /repo/src/sw.rs 463-487, [randomize]: the body of the loop, and the loop. *)
Definition sw64_randomize_vertex (p : profile) (s : E * rng) (i : nat) : outcome (E * rng) :=
  let '(e, rs) := s in
  do c <- vget (vertices (sw64_graph e)) i;
  let roots := map se_to (filter se_is_root (sc_adj c)) in
  do first <- expect (nth_error roots 0);
  do second <- expect (nth_error roots 1);
  do _ <- debug_assert p (length roots <=? 2);
  do ' (s1, e1, rs1) <- sw64_randomize_edge p e i first rs;
  do _ <- debug_error_check p s1;
  do ' (s2, e2, rs2) <- sw64_randomize_edge p e1 i second rs1;
  do _ <- debug_error_check p s2;
  Done (e2, rs2).

Definition sw64_randomize (p : profile) (e : E) (rs : rng) : outcome (E * rng) :=
  foldM (sw64_randomize_vertex p) (e, rs) (seq 0 (vertex_count (sw64_graph e))).

(** /repo/src/sw.rs 214-225, [new]; [mk] is [T::new_from_index]. *)
Definition sw64_new (p : profile) (mk : nat -> T) (n : nat) (r_prob : spec_float) (rs : rng)
  : outcome (E * rng) :=
  do g <- sw_init_ring_2 p (graph_new mk n);
  sw64_randomize p (mk_swe64 g r_prob) rs.

(** /repo/src/sw.rs 234-245, [new_with_distance]; [distance] is not zero in the code. *)
Definition sw64_new_with_distance (p : profile) (mk : nat -> T) (n distance : nat) (r_prob : spec_float)
  (rs : rng) : outcome (result (E * rng) graph_error) :=
  do ' (r, g) <- init_ring p (graph_new mk n) distance;
  match r with
  | Err err => Done (Err err)
  | Ok _ => do x <- sw64_randomize p (mk_swe64 g r_prob) rs; Done (Ok x)
  end.

(** /repo/src/sw.rs 501-504, [m_step]. *)
Definition sw64_m_step (p : profile) (e : E) (rs : rng) : outcome (sw_state * E * rng) :=
  do ' (i0, i1, rs1) <- sw64_draw_edge e rs;
  sw64_randomize_edge p e i0 i1 rs1.

End SmallWorld.
Arguments sw_ensemble64 T : clear implicits.

Section WattsStrogatz.
Context {T : Type}.
Let G := graph (ws_container T).

(** /repo/src/watts_strogatz/ensemble.rs 41-48, [SmallWorldWS]. *)
Record ws_ensemble64 := mk_wse64 {
  ws64_graph : graph (ws_container T);
  ws64_rewire_prob : spec_float;
  ws64_distance : nat
}.

(** /repo/src/watts_strogatz/ensemble.rs 238-248: the edges of one vertex, last one first. *)
Definition ws64_pick (q : spec_float) (s : list nat * list original_edge * list original_edge * rng) (j : nat)
  : outcome (list nat * list original_edge * list original_edge * rng) :=
  let '(to, orig, rewire, rs) := s in
  do e <- vget orig j;
  if oe_at_origin e then
    do ' (x, rs1) <- gen_unit rs;
    if SFleb x q then
      do orig' <- swap_remove orig j;
      do to' <- swap_remove to j;
      Done (to', orig', rewire ++ [e], rs1)
    else Done (to, orig, rewire, rs1)
  else Done (to, orig, rewire, rs).

(** /repo/src/watts_strogatz/ensemble.rs 229-266: the body of the loop of [randomize]. *)
Definition ws64_randomize_vertex (p : profile) (q : spec_float) (s : G * rng) (i : nat) : outcome (G * rng) :=
  let '(g, rs) := s in
  do c <- vget (vertices g) i;
  let len := length (wc_original c) in
  do _ <- match p with
          | Debug => if len =? length (wc_to c) then Done tt else Panic
          | Release => Done tt
          end;
  do ' (to, orig, rewire, rs1) <-
    foldM (ws64_pick q) (wc_to c, wc_original c, [], rs) (rev (seq 0 len));
  let g1 := ws_with g (upd (vertices g) i (mk_wc (wc_id c) (wc_node c) to orig)) in
  do g2 <- foldM ws_remove_other g1 rewire;
  foldM (ws_add_random_edge p) (g2, rs1) rewire.

(** /repo/src/watts_strogatz/ensemble.rs 224-267, [randomize]. *)
Definition ws64_randomize (p : profile) (e : ws_ensemble64) (rs : rng)
  : outcome (ws_ensemble64 * rng) :=
  do ' (r, g) <- init_ring p (ws64_graph e) (ws64_distance e);
  do _ <- unwrap r;
  do ' (g', rs') <- foldM (ws64_randomize_vertex p (ws64_rewire_prob e)) (g, rs)
                          (seq 0 (vertex_count g));
  Done (mk_wse64 g' (ws64_rewire_prob e) (ws64_distance e), rs').

(** /repo/src/watts_strogatz/ensemble.rs 101-129, [new]; [d] is not zero in the code. *)
Definition ws64_new (p : profile) (mk : nat -> T) (n d : nat) (q : spec_float) (rs : rng)
  : outcome (result (ws_ensemble64 * rng) ws_error) :=
  if n <? 1 + 2 * d then Done (Err ImpossibleRingRequest)
  else
    do ' (r, g) <- init_ring p (graph_new mk n) d;
    match r with
    | Err _ => Done (Err ImpossibleEdgeRequest)
    | Ok _ => do x <- ws64_randomize p (mk_wse64 g q d) rs; Done (Ok x)
    end.

End WattsStrogatz.
Arguments ws_ensemble64 T : clear implicits.
