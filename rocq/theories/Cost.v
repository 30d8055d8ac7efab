(** Functions with a documented running time, with the steps that they take.

    A step is one round of a loop, one element looked at by a search through a vector, one
    element filled in or cleared, one random number, one access to an element by its index,
    one [push], [pop], [swap_remove] or [clear].  Growing a vector is not counted ([push]
    takes constant amortised time), nor is allocation. *)
From Verif Require Import Base Containers Graph Rng ErC Spacial Sw Load.
From Coq Require Import QArith.
Set Implicit Arguments.
Local Open Scope nat_scope.

(** A call with its result and the number of its steps. *)
Definition counted (X : Type) : Type := (outcome X * nat)%type.

Definition paid {X} (n : nat) (m : outcome X) : counted X := (m, n).

Definition cbind {X Y} (m : counted X) (k : X -> counted Y) : counted Y :=
  match fst m with
  | Done x => let r := k x in (fst r, snd m + snd r)
  | Panic => (Panic, snd m)
  | UB => (UB, snd m)
  | NoFuel => (NoFuel, snd m)
  end.

Definition charge {X} (n : nat) (m : counted X) : counted X := (fst m, n + snd m).

Notation "'pay' x <- m ; k" := (cbind m (fun x => k))
  (at level 200, x name, m at level 100, k at level 200, right associativity).
Notation "'pay' ' p <- m ; k" := (cbind m (fun x => match x with p => k end))
  (at level 200, p pattern, m at level 100, k at level 200, right associativity).

(** A [for] loop: every round takes a step, and so does leaving the loop. *)
Fixpoint cfoldM {A S} (f : S -> A -> counted S) (s : S) (l : list A) : counted S :=
  match l with
  | [] => paid 1 (Done s)
  | x :: t => charge 1 (pay s' <- f s x; cfoldM f s' t)
  end.

(** The elements looked at by [position] or [any]. *)
Definition looked {A} (f : A -> bool) (l : list A) : nat :=
  match position f l with Some k => S k | None => length l end.

(** The elements looked at by an iterator with [filter] until it has given [k] items. *)
Fixpoint looked_times {A} (f : A -> bool) (k : nat) (l : list A) : nat :=
  match l, k with
  | x :: t, S k' => S (looked_times f (if f x then k' else k) t)
  | _, _ => 0
  end.

Section Generic.
Context {T A : Type} {C : AdjContainer T A}.

(** /repo/src/generic_graph/generic_graph.rs 139-146, [clear_edges]. *)
Definition clear_edges_c (g : graph A) : counted (graph A) :=
  if edge_count g =? 0 then paid 1 (Done g)
  else
    pay vs <- cfoldM (fun vs c => paid 1 (Done (vs ++ [ac_clear_edges c]))) [] (vertices g);
    paid 2 (Done (mk_graph (next_id g) 0 vs)).

(** /repo/src/generic_graph/generic_graph.rs 1344-1356. *)
Definition load_neighbor_c (index depth : nat)
  (s : list nat * list (option nat) * list (list nat)) (neighbor : nat)
  : counted (list nat * list (option nat) * list (list nat)) :=
  let '(q1, dist, pred) := s in
  pay dn <- paid 1 (vget dist neighbor);
  match dn with
  | Some d =>
      if d =? depth + 1 then
        pay pn <- paid 1 (vget pred neighbor);
        pay pred' <- paid 1 (vset pred neighbor (pn ++ [index]));
        paid 0 (Done (q1, dist, pred'))
      else paid 0 (Done (q1, dist, pred))
  | None =>
      pay dist' <- paid 1 (vset dist neighbor (Some (depth + 1)));
      pay pn <- paid 1 (vget pred neighbor);
      pay pred' <- paid 1 (vset pred neighbor (pn ++ [index]));
      paid 1 (Done (q1 ++ [neighbor], dist', pred'))
  end.

(** Lines 1341-1361.  Every round takes an index from the queue, adds it to [ordering] and
    looks whether the queue is empty. *)
Fixpoint load_bfs_c (g : graph A) (fuel depth : nat) (q0 q1 ord : list nat)
  (dist : list (option nat)) (pred : list (list nat))
  : counted (list nat * list nat * list nat * list (option nat) * list (list nat)) :=
  match fuel with
  | 0 => paid 0 NoFuel
  | S fu =>
      charge 1
      match q0 with
      | [] => paid 0 (Done (q0, q1, ord, dist, pred))
      | index :: q0' =>
          pay c <- paid 2 (container g index);
          pay ' (q1', dist', pred') <-
            cfoldM (load_neighbor_c index depth) (q1, dist, pred) (ac_neighbors c);
          charge 1
          match q0' with
          | [] => load_bfs_c g fu (S depth) q1' [] (index :: ord) dist' pred'
          | _ => load_bfs_c g fu depth q0' q1' (index :: ord) dist' pred'
          end
      end
  end.

(** Lines 1364-1381. *)
Fixpoint load_accumulate_c (include_endpoints : bool) (pred : list (list nat))
  (ord : list nat) (b bk : list Q) : counted (list nat * list Q * list Q) :=
  match ord with
  | [] => paid 1 (Done ([], b, bk))
  | [index] => paid 1 (Done ([], b, bk))
  | index :: ord' =>
      charge 1 (
      pay bi <- paid 1 (vget b index);
      pay bki <- paid 1 (vget bk index);
      pay b1 <- paid 1 (vset b index (bi + bki)%Q);
      pay b2 <- (if include_endpoints then paid 0 (Done b1)
                 else pay x <- paid 1 (vget b1 index); paid 1 (vset b1 index (x - 1)%Q));
      pay pi <- paid 1 (vget pred index);
      let fraction := (bki / inject_Z (Z.of_nat (length pi)))%Q in
      pay bk' <- cfoldM (fun (l : list Q) (p : nat) =>
                   pay x <- paid 1 (vget l p); paid 1 (vset l p (x + fraction)%Q)) bk pi;
      load_accumulate_c include_endpoints pred ord' b2 bk')
  end.

(** Lines 1321-1383.  A round of the loop that resets the vectors takes four steps. *)
Definition load_source_c (g : graph A) (include_endpoints : bool) (s : load_state) (i : nat)
  : counted load_state :=
  let bk := if 0 <? i then map (fun _ => 1%Q) (ld_bk s) else ld_bk s in
  let dist := if 0 <? i then map (fun _ => None) (ld_dist s) else ld_dist s in
  let pred := if 0 <? i then map (fun _ => []) (ld_pred s) else ld_pred s in
  charge (if 0 <? i then 4 * vertex_count g + 1 else 0) (
  pay dist1 <- paid 2 (vset dist i (Some 0));
  pay ' (q0, q1, ord, dist2, pred2) <-
     load_bfs_c g (S (S (vertex_count g))) 0 (ld_q0 s ++ [i]) (ld_q1 s) (ld_ord s) dist1 pred;
  pay ' (ord', b', bk') <- load_accumulate_c include_endpoints pred2 ord (ld_b s) bk;
  paid 0 (Done (mk_load q0 q1 ord' b' bk' dist2 pred2))).

(** Lines 1310-1385, [vertex_load]: four vectors are filled first. *)
Definition vertex_load_c (g : graph A) (include_endpoints : bool) : counted (list Q) :=
  let n := vertex_count g in
  charge (4 * n) (
  pay s <- cfoldM (load_source_c g include_endpoints)
            (mk_load [] [] [] (repeat 0%Q n) (repeat 1%Q n) (repeat None n) (repeat [] n))
            (seq 0 n);
  paid 0 (Done (ld_b s))).

End Generic.

(** The rounds of the outer of the two nested loops over all pairs, the steps that leave
    the inner loops, and the step that leaves the outer loop; the rounds of the inner loops
    are those of a loop over [er_pairs]. *)
Definition outer_rounds (n : nat) : nat := 2 * n + 1.

Section Er.
Context {T : Type}.

(** /repo/src/er_c.rs 128-143, [randomize]: two accesses and two [push] for each edge. *)
Definition erc_randomize_c (e : er_c T) (rs : rng) : counted (er_c T * rng) :=
  pay g <- clear_edges_c (erc_graph e);
  charge (outer_rounds (vertex_count g)) (
  pay ' (g', rs') <- cfoldM (fun s ij =>
      let '(g, rs) := s in
      pay ' (x, rs1) <- paid 1 (gen_f64 rs);
      if Qle_bool x (erc_prob e)
      then pay g1 <- paid 5 (push_both g (fst ij) (snd ij)); paid 0 (Done (g1, rs1))
      else paid 0 (Done (g, rs1))) (g, rs) (er_pairs (vertex_count g));
  paid 0 (Done (mk_erc g' (erc_prob e) (erc_c_target e), rs'))).

(** /repo/src/spacial/spacial_ensemble.rs 132-159, [randomize]: two accesses for the
    probability, then as above. *)
Definition sp_randomize_c (e : spacial T) (rs : rng) : counted (spacial T * rng) :=
  pay g <- clear_edges_c (sp_graph e);
  charge (outer_rounds (vertex_count g)) (
  pay ' (g', rs') <- cfoldM (fun s ij =>
      let '(g, rs) := s in
      pay ' (ok, rs1) <- paid 3 (sp_test e g (fst ij) (snd ij) rs);
      if ok : bool
      then pay g1 <- paid 5 (sp_push_both g (fst ij) (snd ij)); paid 0 (Done (g1, rs1))
      else paid 0 (Done (g, rs1))) (g, rs) (er_pairs (vertex_count g));
  paid 0 (Done (mk_sp g' (sp_accept e), rs'))).

End Er.

Section SmallWorld.
Context {T : Type}.
Let SC := sw_container T.
Let G := graph (sw_container T).
Let E := sw_ensemble T.

(** /repo/src/sw_graph.rs 310-313, [adj_position], and 223-226, [is_adjacent]. *)
Definition sc_adj_position_c (c : SC) (elem : nat) : counted (option nat) :=
  paid (looked (Nat.eqb elem) (sc_neighbors c)) (Done (sc_adj_position c elem)).
Definition sc_is_adjacent_c (c : SC) (x : nat) : counted bool :=
  paid (looked (Nat.eqb x) (sc_neighbors c)) (Done (sc_is_adjacent c x)).

(** /repo/src/sw_graph.rs 341-348, [push_single]: the search is in the assertion. *)
Definition sc_push_single_c (p : profile) (c : SC) (other : nat) : counted SC :=
  pay _ <- (match p with
            | Debug => pay b <- sc_is_adjacent_c c other; paid 0 (debug_assert p (negb b))
            | Release => paid 0 (Done tt)
            end);
  paid 1 (Done (sc_with c (sc_adj c ++ [mk_se other None]))).

(** /repo/src/sw_graph.rs 350-392, [rewire]. *)
Definition sc_rewire_c (p : profile) (c0 c1 c2 : SC) : counted (sw_state * (SC * SC * SC)) :=
  pay o <- sc_adj_position_c c0 (sc_id c1);
  match o with
  | None => paid 0 (Done (Sw_InvalidAdjecency, (c0, c1, c2)))
  | Some k =>
      pay b <- sc_is_adjacent_c c0 (sc_id c2);
      if b : bool then paid 0 (Done (Sw_BlockedByExistingEdge, (c0, c1, c2)))
      else
        pay e <- paid 1 (vget (sc_adj c0) k);
        pay _ <- paid 0 (debug_assert p (se_is_root e));
        pay o1 <- sc_adj_position_c c1 (sc_id c0);
        pay k1 <- paid 0 (expect o1);
        pay l1 <- paid 1 (swap_remove (sc_adj c1) k1);
        paid 2 (Done (Sw_Rewire (sc_id c0) (sc_id c1) (sc_id c2),
              (sc_with c0 (upd (sc_adj c0) k (se_rewire e (sc_id c2))),
               sc_with c1 l1,
               sc_with c2 (sc_adj c2 ++ [mk_se (sc_id c0) None]))))
  end.

(** /repo/src/sw_graph.rs 398-442, [reset]. *)
Definition sc_reset_c (p : profile) (c0 c1 : SC) : counted (result (nat * SC * SC) sw_state) :=
  pay o0 <- sc_adj_position_c c0 (sc_id c1);
  match o0 with
  | None => paid 0 (Done (Err (Sw_GError EdgeDoesNotExist)))
  | Some k0 =>
      pay o1 <- sc_adj_position_c c1 (sc_id c0);
      pay k1 <- paid 0 (expect o1);
      pay e0 <- paid 1 (vget_asserted (sc_adj c0) k0);
      pay e1 <- paid 1 (vget_asserted (sc_adj c1) k1);
      pay _ <- paid 0 (debug_assert p (negb (se_is_root e1)));
      if se_is_at_root e0 then paid 0 (Done (Err Sw_Nothing))
      else
        pay o <- paid 0 (expect (se_orig e0));
        pay b <- sc_is_adjacent_c c0 o;
        if b : bool then paid 0 (Done (Err Sw_BlockedByExistingEdge))
        else
          pay e0' <- paid 1 (se_reset e0);
          pay l1 <- paid 1 (swap_remove (sc_adj c1) k1);
          paid 1 (Done (Ok (se_to e0', sc_with c0 (upd (sc_adj c0) k0 e0'), sc_with c1 l1)))
  end.

(** /repo/src/sw_graph.rs 453-468, [reset_edge]. *)
Definition sw_reset_edge_c (p : profile) (g : G) (i0 i1 : nat) : counted (sw_state * G) :=
  pay ' (c0, c1) <- paid 2 (get_2_mut p g i0 i1);
  pay r <- sc_reset_c p c0 c1;
  match r with
  | Err s => paid 0 (Done (s, g))
  | Ok (v, c0', c1') =>
      let g1 := with_vertices g (put_2 (vertices g) i0 i1 c0' c1') in
      pay c2 <- paid 1 (vget (vertices g1) v);
      pay c2' <- sc_push_single_c p c2 i0;
      paid 0 (Done (Sw_Reset i0 i1 v, with_vertices g1 (upd (vertices g1) v c2')))
  end.

(** /repo/src/sw_graph.rs 476-483, [rewire_edge]. *)
Definition sw_rewire_edge_c (p : profile) (g : G) (i0 i1 i2 : nat) : counted (sw_state * G) :=
  if i1 =? i2 then paid 1 (Done (Sw_Nothing, g))
  else
    pay ' (c0, c1, c2) <- paid 3 (get_3_mut p g i0 i1 i2);
    pay ' (s, (c0', c1', c2')) <- sc_rewire_c p c0 c1 c2;
    paid 0 (Done (s, with_vertices g (upd (upd (upd (vertices g) i0 c0') i1 c1') i2 c2'))).

(** /repo/src/sw.rs 299-309, [randomize_edge]. *)
Definition sw_randomize_edge_c (p : profile) (e : E) (i0 i1 : nat) (rs : rng)
  : counted (sw_state * E * rng) :=
  pay ' (x, rs1) <- paid 1 (gen_f64 rs);
  if Qle_bool x (sw_r_prob e) then
    pay h <- paid 0 (usub p (vertex_count (sw_graph e)) 1);
    pay ' (k, rs2) <- paid 1 (draw_remaining i0 h rs1);
    pay ' (s, g) <- sw_rewire_edge_c p (sw_graph e) i0 i1 k;
    paid 0 (Done (s, sw_set e g, rs2))
  else
    pay ' (s, g) <- sw_reset_edge_c p (sw_graph e) i0 i1;
    paid 0 (Done (s, sw_set e g, rs1)).

(** /repo/src/sw.rs 463-487, [randomize].  The third item of the iterator is asked for in an
    assertion. *)
Definition sw_randomize_vertex_c (p : profile) (s : E * rng) (i : nat) : counted (E * rng) :=
  let '(e, rs) := s in
  pay c <- paid 1 (vget (vertices (sw_graph e)) i);
  let roots := map se_to (filter se_is_root (sc_adj c)) in
  charge (looked_times se_is_root (match p with Debug => 3 | Release => 2 end) (sc_adj c)) (
  pay first <- paid 0 (expect (nth_error roots 0));
  pay second <- paid 0 (expect (nth_error roots 1));
  pay _ <- paid 0 (debug_assert p (length roots <=? 2));
  pay ' (s1, e1, rs1) <- sw_randomize_edge_c p e i first rs;
  pay _ <- paid 0 (debug_error_check p s1);
  pay ' (s2, e2, rs2) <- sw_randomize_edge_c p e1 i second rs1;
  pay _ <- paid 0 (debug_error_check p s2);
  paid 0 (Done (e2, rs2))).

Definition sw_randomize_c (p : profile) (e : E) (rs : rng) : counted (E * rng) :=
  cfoldM (sw_randomize_vertex_c p) (e, rs) (seq 0 (vertex_count (sw_graph e))).

End SmallWorld.
