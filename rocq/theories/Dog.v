(** The dog ensemble and Latin hypercube sampling. *)
From Verif Require Import Base Containers Graph Rng Spacial.
From Coq Require Import QArith Qround.
Set Implicit Arguments.
Local Open Scope nat_scope.

(** ** Latin hypercube sampling *)

(** /repo/src/spacial/dog_networks.rs 155-160.  The generator is threaded separately. *)
Record lhs := mk_lhs { lhs_x : list nat; lhs_y : list nat }.

(** /repo/src/spacial/dog_networks.rs 165-170, [new]. *)
Definition lhs_new (samples : nat) : lhs := mk_lhs (seq 0 samples) (seq 0 samples).

(** /repo/src/spacial/dog_networks.rs 175-177, [len]. *)
Definition lhs_len (l : lhs) : nat := length (lhs_x l).

(** [Iterator::size_hint]: not overridden in /repo/src/spacial/dog_networks.rs 182-201, so
    it is the default method of the trait. *)
Definition lhs_size_hint (l : lhs) : nat * option nat := (0, None).

(** /repo/src/spacial/dog_networks.rs 187-200, [next]. *)
Definition lhs_next (l : lhs) (rs : rng) : outcome (option (nat * nat) * lhs * rng) :=
  match lhs_x l with
  | [] => Done (None, l, rs)
  | _ :: _ =>
      do ' (ix, rs1) <- gen_range (length (lhs_x l)) rs;
      do ' (iy, rs2) <- gen_range (length (lhs_x l)) rs1;
      do x <- vget (lhs_x l) ix;
      do xs <- swap_remove (lhs_x l) ix;
      do y <- vget (lhs_y l) iy;
      do ys <- swap_remove (lhs_y l) iy;
      Done (Some (x, y), mk_lhs xs ys, rs2)
  end.

(** The results of [k] calls of [next]. *)
Fixpoint lhs_take (k : nat) (l : lhs) (rs : rng) : outcome (list (option (nat * nat)) * lhs * rng) :=
  match k with
  | 0 => Done ([], l, rs)
  | S k =>
      do ' (o, l1, rs1) <- lhs_next l rs;
      do ' (os, l2, rs2) <- lhs_take k l1 rs1;
      Done (o :: os, l2, rs2)
  end.

(** ** The ensemble *)

(** /repo/src/spacial/dog_networks.rs 8-15.  The generator is threaded separately.  The
    field [kappa] only enters the probability of an edge, which needs [exp_m1] and
    [hypot]; [dog_accept e a b u] is the test [u < prob] made with it (98-102) for
    vertices at the positions [a] and [b]. *)
Record dog (T : Type) := mk_dog {
  dog_graph : sgraph T;
  dog_accept : option pos -> option pos -> Q -> bool;
  dog_tau : Q;
  dog_lambda : nat
}.

(** /repo/src/spacial/dog_networks.rs 111-112:
    [(n as f64 * (1.0 - tau)).round() as usize] without the rounding of the
    product; negative values become 0 in the conversion.  [tau] is a number, not NaN. *)
Definition dog_special (n : nat) (tau : Q) : nat :=
  Z.to_nat (Qfloor (inject_Z (Z.of_nat n) * (1 - tau) + (1 # 2))).

(** The test [u < degree as f64 * deg_factor] of /repo/src/spacial/dog_networks.rs 129-135,
    without rounding.  If the sum of the degrees is zero the
    factor is infinite, the product NaN, and the test false. *)
Definition dog_degree_test (d sum : nat) (u : Q) : bool :=
  match sum with
  | 0 => false
  | S k => negb (Qle_bool (Z.of_nat d # Pos.of_succ_nat k) u)
  end.

Section Model.
Context {T : Type}.

(** The pairs visited by the two loops of /repo/src/spacial/dog_networks.rs 94-96. *)
Definition dog_pairs (n : nat) : list (nat * nat) :=
  flat_map (fun i => map (pair i) (seq 0 i)) (seq 0 n).

(** /repo/src/spacial/dog_networks.rs 97-107: one pair.  [Uniform::new(0.0, 1.0)] gives
    multiples of 2^-52; they are among the values of [unit_float]. *)
Definition dog_pair (p : profile) (acc : option pos -> option pos -> Q -> bool)
  (s : sgraph T * rng) (ij : nat * nat) : outcome (sgraph T * rng) :=
  let '(g, rs) := s in
  let '(i, j) := ij in
  do ' (a, b) <- get_2_mut p g i j;
  do ' (u, rs1) <- gen_f64 rs;
  if acc (spc_pos a) (spc_pos b) u then
    do r <- spc_push a b;
    match r with
    | Ok (a', b') => Done (mk_graph (next_id g) (edge_count g + 1) (put_2 (vertices g) i j a' b'), rs1)
    | Err _ => Done (mk_graph (next_id g) (edge_count g + 1) (vertices g), rs1)
    end
  else Done (g, rs1).

(** /repo/src/spacial/dog_networks.rs 131-139: one round of the inner [loop]. *)
Definition dog_try (p : profile) (node sum : nat) (g : sgraph T) (rs : rng)
  : outcome ((sgraph T + sgraph T) * rng) :=
  do ' (index, rs1) <- gen_range (vertex_count g) rs;
  do d <- expect (degree g index);
  if index =? node then Done (inl g, rs1)
  else
    do ' (u, rs2) <- gen_f64 rs1;
    if dog_degree_test d sum u then
      do ' (r, g') <- add_edge p g node index;
      match r with
      | Ok _ => Done (inr g', rs2)
      | Err _ => Done (inl g', rs2)
      end
    else Done (inl g, rs2).

(** /repo/src/spacial/dog_networks.rs 129-141: one edge for [node]. *)
Definition dog_edge (p : profile) (node : nat) (s : (sgraph T * nat) * rng)
  : outcome ((sgraph T * nat) * rng) :=
  let '((g, sum), rs) := s in
  do ' (g', rs1) <- loop (S (length rs)) (dog_try p node sum) g rs;
  Done ((g', sum + 2), rs1).

(** /repo/src/spacial/dog_networks.rs 127-142: all edges for [node].  A sample of the
    Poisson distribution is any natural number. *)
Definition dog_node (p : profile) (s : (sgraph T * nat) * rng) (node : nat)
  : outcome ((sgraph T * nat) * rng) :=
  let '((g, sum), rs) := s in
  do ' (m, rs1) <- draw rs;
  foldM (fun s _ => dog_edge p node s) ((g, sum), rs1) (seq 0 m).

(** /repo/src/spacial/dog_networks.rs 90-146, [randomize].  [Poisson::new] fails for
    [lambda = 0], [Uniform::new(0, n)] panics for [n = 0]. *)
Definition dog_randomize (p : profile) (e : dog T) (rs : rng) : outcome (dog T * rng) :=
  let g0 := clear_edges (dog_graph e) in
  let n := vertex_count g0 in
  do ' (g, rs1) <- foldM (dog_pair p (dog_accept e)) (g0, rs) (dog_pairs n);
  let num := dog_special n (dog_tau e) in
  do ' (nodes, rs2) <- shuffle (seq 0 n) rs1;
  if n <? num then Panic
  else if dog_lambda e =? 0 then Panic
  else if n =? 0 then Panic
  else
    do ' (g', _, rs3) <- foldM (dog_node p) ((g, list_sum (degree_vec g)), rs2) (firstn num nodes);
    Done (mk_dog g' (dog_accept e) (dog_tau e) (dog_lambda e), rs3).

(** /repo/src/spacial/dog_networks.rs 56-64: each vertex gets the next sample as its
    position, here without rounding.  A vertex for which there is no sample stays as it is. *)
Definition dog_place (n : nat) (g : sgraph T) (rs : rng) : outcome (sgraph T * rng) :=
  do ' (vs, _, rs') <- foldM (fun s c =>
      let '(vs, l, rs) := s in
      do ' (o, l1, rs1) <- lhs_next l rs;
      match o with
      | Some (x, y) =>
          Done (vs ++ [mk_spc (spc_id c) (spc_adj c) (spc_node c)
                         (Some (Z.of_nat x # Pos.of_nat n, Z.of_nat y # Pos.of_nat n))], l1, rs1)
      | None => Done (vs ++ [c], l1, rs1)
      end) ([], lhs_new n, rs) (vertices g);
  Done (mk_graph (next_id g) (edge_count g) vs, rs').

(** /repo/src/spacial/dog_networks.rs 66-74: a number in [0, 1/n) is added to each
    coordinate, here without rounding. *)
Definition dog_jitter (n : nat) (g : sgraph T) (rs : rng) : outcome (sgraph T * rng) :=
  do ' (vs, rs') <- foldM (fun s c =>
      let '(vs, rs) := s in
      do ' (u, rs1) <- gen_f64 rs;
      do ' (v, rs2) <- gen_f64 rs1;
      Done (vs ++ [mk_spc (spc_id c) (spc_adj c) (spc_node c)
                     (option_map (fun xy => (fst xy + u * (1 # Pos.of_nat n), snd xy + v * (1 # Pos.of_nat n))%Q)
                        (spc_pos c))], rs2)) ([], rs) (vertices g);
  Done (mk_graph (next_id g) (edge_count g) vs, rs').

(** /repo/src/spacial/dog_networks.rs 47-88, [new].  [Uniform::new(0.0, 1.0 / n)] panics for
    [n = 0], where the quotient is infinite. *)
Definition dog_new (p : profile) (mk : nat -> T) (n : nat)
  (accept : option pos -> option pos -> Q -> bool) (tau : Q) (lambda : nat) (rs : rng)
  : outcome (dog T * rng) :=
  if n =? 0 then Panic
  else
    do ' (g1, rs1) <- dog_place n (graph_new mk n) rs;
    do ' (g2, rs2) <- dog_jitter n g1 rs1;
    dog_randomize p (mk_dog g2 accept tau lambda) rs2.

End Model.
