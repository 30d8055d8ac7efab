(** Random numbers down to the words of the generator.  [Rng] has a list of draws; here the
    generator is the list of the 64-bit words it will give, and the draws are made from them as the
    crate [rand] (version 0.8) does.  [Replay] runs this on the words of [Pcg64]. *)
From Verif Require Import Base Containers Graph Rng Float ErC ErM Sw Prob.
From Coq Require Import NArith ZArith QArith SpecFloat.
Set Implicit Arguments.
Local Open Scope nat_scope.

Notation words := (list N) (only parsing).

(** [rng.next_u64()]; of a number beyond 64 bits in the list, the lower 64. *)
Definition next_u64 (ws : words) : outcome (N * words) :=
  match ws with
  | [] => NoFuel
  | w :: t => Done ((w mod 2 ^ 64)%N, t)
  end.

(** [rng.next_u32()] of [Pcg64]: the lower half. *)
Definition next_u32 (ws : words) : outcome (N * words) :=
  do ' (w, t) <- next_u64 ws; Done ((w mod 2 ^ 32)%N, t).

(** [range << range.leading_zeros()] for integers of [b] bits, [range] not zero: the sampler takes
    products whose lower half is smaller. *)
Definition zone (b range : N) : N := (range * 2 ^ (b - N.size range))%N.

(** [unsigned_max - ints_to_reject + 1] of [UniformInt] for integers of [b] bits. *)
Definition uniform_zone (b range : N) : N := (2 ^ b - (2 ^ b - range) mod range)%N.

(** [UniformInt::sample_single_inclusive] and [UniformInt::sample] of [rand] for integers of [b] bits:
    the upper half of the product of a random integer and the size of the range, drawn again unless
    the lower half is below [z].  The fuel is the number of words. *)
Fixpoint sample_below (fuel : nat) (b range z : N) (next : words -> outcome (N * words)) (ws : words)
  : outcome (N * words) :=
  match fuel with
  | 0 => NoFuel
  | S f =>
      do ' (v, t) <- next ws;
      if ((v * range) mod 2 ^ b <? z)%N then Done (((v * range) / 2 ^ b)%N, t)
      else sample_below f b range z next t
  end.
Definition sample_single (b high : nat) (next : words -> outcome (N * words)) (ws : words)
  : outcome (nat * words) :=
  let range := N.of_nat high in
  do ' (k, t) <- sample_below (S (length ws)) (N.of_nat b) range (zone (N.of_nat b) range) next ws;
  Done (N.to_nat k, t).
Definition sample_uniform (b high : nat) (next : words -> outcome (N * words)) (ws : words)
  : outcome (nat * words) :=
  let range := N.of_nat high in
  do ' (k, t) <- sample_below (S (length ws)) (N.of_nat b) range (uniform_zone (N.of_nat b) range) next ws;
  Done (N.to_nat k, t).

(** [rng.gen_range(0..high)] for [usize]. *)
Definition w_gen_range (high : nat) (ws : words) : outcome (nat * words) :=
  if high =? 0 then Panic
  else sample_single 64 high next_u64 ws.

(** [gen_index] of [rand]: indices below 2^32 are drawn as [u32]. *)
Definition w_gen_index (high : nat) (ws : words) : outcome (nat * words) :=
  if (N.of_nat high <=? 2 ^ 32 - 1)%N then
    if high =? 0 then Panic
    else sample_single 32 high next_u32 ws
  else w_gen_range high ws.

(** [Uniform::from(0..high)] and [sample], for [usize] and for [u32]. *)
Definition w_uniform (high : nat) (ws : words) : outcome (nat * words) :=
  if high =? 0 then Panic else sample_uniform 64 high next_u64 ws.
Definition w_uniform_u32 (high : nat) (ws : words) : outcome (nat * words) :=
  if high =? 0 then Panic else sample_uniform 32 high next_u32 ws.

(** [rng.gen::<f64>()]: the upper 53 bits. *)
Definition w_gen_f64 (ws : words) : outcome (Q * words) :=
  do ' (w, t) <- next_u64 ws; Done (Qmake (Z.of_N (w / 2 ^ 11)) 9007199254740992, t).

(** The same, as [f64]. *)
Definition w_gen_unit (ws : words) : outcome (spec_float * words) :=
  do ' (w, t) <- next_u64 ws; Done (binary_normalize 53 1024 (Z.of_N (w / 2 ^ 11)) (-53) false, t).

(** [SliceRandom::shuffle]. *)
Fixpoint w_shuffle_down {X} (k : nat) (l : list X) (ws : words) : outcome (list X * words) :=
  match k with
  | 0 | 1 => Done (l, ws)
  | S i => do ' (j, t) <- w_gen_index (S i) ws;
           do l' <- swap l i j;
           w_shuffle_down i l' t
  end.
Definition w_shuffle {X} (l : list X) (ws : words) : outcome (list X * words) :=
  w_shuffle_down (length l) l ws.

(** /repo/src/er_c.rs 349-358, [draw_two_from_range]. *)
Definition w_draw_two_from_range (p : profile) (high : nat) (ws : words) : outcome (nat * nat * words) :=
  do ' (first, ws1) <- w_gen_range high ws;
  do h <- usub p high 1;
  do ' (second, ws2) <- w_gen_range h ws1;
  if second <? first then Done (first, second, ws2)
  else Done (first, second + 1, ws2).

Section Model.
Context {T : Type}.

(** /repo/src/er_c.rs 128-143, [randomize], as [erc_randomize]. *)
Definition w_erc_randomize (e : er_c T) (ws : words) : outcome (er_c T * words) :=
  let g := clear_edges (erc_graph e) in
  do ' (g', ws') <- foldM (fun s ij =>
      let '(g, ws) := s in
      do ' (x, ws1) <- w_gen_f64 ws;
      if Qle_bool x (erc_prob e)
      then do g1 <- push_both g (fst ij) (snd ij); Done (g1, ws1)
      else Done (g, ws1)) (g, ws) (er_pairs (vertex_count g));
  Done (mk_erc g' (erc_prob e) (erc_c_target e), ws').

(** /repo/src/er_c.rs 154-174, [m_step]. *)
Definition w_erc_m_step (p : profile) (e : er_c T) (ws : words) : outcome (er_step_c * er_c T * words) :=
  let set g := mk_erc g (erc_prob e) (erc_c_target e) in
  do ' (a, b, ws1) <- w_draw_two_from_range p (vertex_count (erc_graph e)) ws;
  do ' (x, ws2) <- w_gen_f64 ws1;
  if Qle_bool x (erc_prob e) then
    do ' (r, g) <- add_edge p (erc_graph e) a b;
    match r with
    | Ok _ => Done (ErC_AddedEdge (a, b), set g, ws2)
    | Err _ => Done (ErC_Nothing, set g, ws2)
    end
  else
    do ' (r, g) <- remove_edge p (erc_graph e) a b;
    match r with
    | Ok _ => Done (ErC_RemovedEdge (a, b), set g, ws2)
    | Err _ => Done (ErC_Nothing, set g, ws2)
    end.

(** /repo/src/er_c.rs 239-250, [new]. *)
Definition w_erc_new (p : profile) (mk : nat -> T) (n : nat) (c_target : Q) (ws : words)
  : outcome (er_c T * words) :=
  do prob <- erc_probability p n c_target;
  w_erc_randomize (mk_erc (graph_new mk n) prob c_target) ws.

(** /repo/src/er_c.rs 128-143, [randomize], with [f64] as in the code. *)
Definition w_erc64_randomize (e : @er_c64 T) (ws : words) : outcome (@er_c64 T * words) :=
  let g := clear_edges (erc64_graph e) in
  do ' (g', ws') <- foldM (fun s ij =>
      let '(g, ws) := s in
      do ' (x, ws1) <- w_gen_unit ws;
      if SFleb x (erc64_prob e)
      then do g1 <- push_both g (fst ij) (snd ij); Done (g1, ws1)
      else Done (g, ws1)) (g, ws) (er_pairs (vertex_count g));
  Done (mk_erc64 g' (erc64_prob e) (erc64_c_target e), ws').

(** /repo/src/er_c.rs 239-250, [new], with [f64] as in the code. *)
Definition w_erc64_new (p : profile) (mk : nat -> T) (n : nat) (c_target : spec_float) (ws : words)
  : outcome (@er_c64 T * words) :=
  do prob <- erc64_probability p n c_target;
  w_erc64_randomize (mk_erc64 (graph_new mk n) prob c_target) ws.

(** /repo/src/er_m.rs 157-176, [randomize]. *)
Definition w_erm_randomize (p : profile) (e : er_m T) (ws : words) : outcome (er_m T * words) :=
  let g := clear_edges (erm_graph e) in
  do ' (all, ws') <- w_shuffle (erm_all e) ws;
  do c <- slice_to all (erm_m e);
  do current <- copy_from_slice (erm_current e) c;
  do g' <- foldM (add_edge_unwrap p) g current;
  do q <- slice_from all (erm_m e);
  do possible <- copy_from_slice (erm_possible e) q;
  Done (mk_erm g' (erm_m e) all possible current, ws').

(** /repo/src/er_m.rs 202-216, [m_step]. *)
Definition w_erm_m_step (p : profile) (e : er_m T) (ws : words) : outcome (er_step_m * er_m T * words) :=
  do ' (i, ws1) <- w_gen_range (length (erm_current e)) ws;
  do ' (j, ws2) <- w_gen_range (length (erm_possible e)) ws1;
  do a <- vget (erm_current e) i;
  do b <- vget (erm_possible e) j;
  let step := mk_esm a i b j in
  do e' <- erm_step p e step;
  Done (step, e', ws2).

(** /repo/src/er_m.rs 245-278, [new]. *)
Definition w_erm_new (p : profile) (mk : nat -> T) (n m : nat) (ws : words) : outcome (er_m T * words) :=
  do k <- usub p n 1;
  let p_edges := Nat.div (n * k) 2 in
  if m <=? p_edges then
    w_erm_randomize p (mk_erm (graph_new mk n) m (er_pairs n)
      (repeat (0, 0) (p_edges - m)) (repeat (0, 0) m)) ws
  else Panic.

(** /repo/src/sw.rs 288-296, [draw_remaining]. *)
Definition w_draw_remaining (index high : nat) (ws : words) : outcome (nat * words) :=
  do ' (num, ws') <- w_gen_range high ws;
  Done (if num <? index then num else num + 1, ws').

(** /repo/src/sw.rs 299-309, [randomize_edge]. *)
Definition w_sw_randomize_edge (p : profile) (e : sw_ensemble T) (i0 i1 : nat) (ws : words)
  : outcome (sw_state * sw_ensemble T * words) :=
  do ' (x, ws1) <- w_gen_f64 ws;
  if Qle_bool x (sw_r_prob e) then
    do h <- usub p (vertex_count (sw_graph e)) 1;
    do ' (k, ws2) <- w_draw_remaining i0 h ws1;
    do ' (s, g) <- sw_rewire_edge p (sw_graph e) i0 i1 k;
    Done (s, sw_set e g, ws2)
  else
    do ' (s, g) <- sw_reset_edge p (sw_graph e) i0 i1;
    Done (s, sw_set e g, ws1).

(** /repo/src/sw.rs 325-343, [draw_edge]. *)
Definition w_sw_draw_edge (e : sw_ensemble T) (ws : words) : outcome (nat * nat * words) :=
  do ' (r, ws') <- w_gen_range (edge_count (sw_graph e)) ws;
  let v_index := Nat.div r 2 in
  let e_index := Nat.modulo r 2 in
  do c <- container (sw_graph e) v_index;
  do x <- expect (nth_error (filter se_is_root (sc_adj c)) e_index);
  Done (v_index, se_to x, ws').

(** /repo/src/sw.rs 463-487, [randomize]. *)
Definition w_sw_randomize_vertex (p : profile) (s : sw_ensemble T * words) (i : nat)
  : outcome (sw_ensemble T * words) :=
  let '(e, ws) := s in
  do c <- vget (vertices (sw_graph e)) i;
  let roots := map se_to (filter se_is_root (sc_adj c)) in
  do first <- expect (nth_error roots 0);
  do second <- expect (nth_error roots 1);
  do _ <- debug_assert p (length roots <=? 2);
  do ' (s1, e1, ws1) <- w_sw_randomize_edge p e i first ws;
  do _ <- debug_error_check p s1;
  do ' (s2, e2, ws2) <- w_sw_randomize_edge p e1 i second ws1;
  do _ <- debug_error_check p s2;
  Done (e2, ws2).
Definition w_sw_randomize (p : profile) (e : sw_ensemble T) (ws : words) : outcome (sw_ensemble T * words) :=
  foldM (w_sw_randomize_vertex p) (e, ws) (seq 0 (vertex_count (sw_graph e))).

(** /repo/src/sw.rs 214-225, [new]. *)
Definition w_sw_new (p : profile) (mk : nat -> T) (n : nat) (r_prob : Q) (ws : words)
  : outcome (sw_ensemble T * words) :=
  do g <- sw_init_ring_2 p (graph_new mk n);
  w_sw_randomize p (mk_swe g r_prob) ws.

(** /repo/src/sw.rs 501-504, [m_step]. *)
Definition w_sw_m_step (p : profile) (e : sw_ensemble T) (ws : words) : outcome (sw_state * sw_ensemble T * words) :=
  do ' (i0, i1, ws1) <- w_sw_draw_edge e ws;
  w_sw_randomize_edge p e i0 i1 ws1.

End Model.

(** ** The generator [Pcg64] of the crate [rand_pcg] (version 0.3), which the tests use *)

(** [Lcg128Xsl64]: a state and an increment of 128 bits. *)
Record pcg64 := mk_pcg { pcg_state : N; pcg_increment : N }.

(** [step]. *)
Definition pcg_step (r : pcg64) : pcg64 :=
  mk_pcg ((pcg_state r * 47026247687942121848144207491837523525 + pcg_increment r) mod 2 ^ 128)%N (pcg_increment r).

(** Rotation of an integer of [b] bits to the right. *)
Definition rotate_right (b x k : N) : N :=
  N.lor (N.shiftr x k) (N.shiftl x ((b - k) mod b) mod 2 ^ b)%N.

(** [output_xsl_rr]: the halves of the state, combined and rotated by its six upper bits. *)
Definition pcg_output (s : N) : N :=
  rotate_right 64 (N.lxor (N.shiftr s 64) s mod 2 ^ 64)%N (N.shiftr s 122).

(** The next [k] words, and the generator after them. *)
Fixpoint pcg_words (k : nat) (r : pcg64) : words * pcg64 :=
  match k with
  | 0 => ([], r)
  | S k => let r1 := pcg_step r in
           let '(ws, r2) := pcg_words k r1 in (pcg_output (pcg_state r1) :: ws, r2)
  end.

(** [SeedableRng::seed_from_u64] of [rand_core] (version 0.6): eight words of 32 bits. *)
Fixpoint seed_words (k : nat) (s : N) : list N :=
  match k with
  | 0 => []
  | S k => let s1 := ((s * 6364136223846793005 + 11634580027462260723) mod 2 ^ 64)%N in
           rotate_right 32 (N.shiftr (N.lxor (N.shiftr s1 18) s1) 27 mod 2 ^ 32)%N (N.shiftr s1 59)
             :: seed_words k s1
  end.

(** Words of 32 bits, the lowest first. *)
Definition of_words (l : list N) : N := fold_right (fun w acc => (w + 2 ^ 32 * acc)%N) 0%N l.

(** [from_seed] and [from_state_incr]. *)
Definition pcg_seed_from_u64 (seed : N) : pcg64 :=
  let l := seed_words 8 seed in
  let inc := N.lor (of_words (skipn 4 l)) 1 in
  pcg_step (mk_pcg ((of_words (firstn 4 l) + inc) mod 2 ^ 128)%N inc).
