(** C107: the random numbers down to the words of the generator. *)
From Verif Require Import Base Containers ContainerSpec Graph Rng Markov Float ErC ErM ErMSpec Sw SwSpec Ws Ba Config ConfigSpec Spacial Prob GraphSpec GraphFacts GraphOps ContainerFacts Words WordsMore WordsChain WordsSpec WordsFacts WordsMoreFacts BaSpec BaFacts BaWords WordsChainFacts.
From Coq Require Import NArith ZArith QArith SpecFloat.
Local Open Scope nat_scope.

(** [gen_range]: the first word the sampler takes decides; the words before it are thrown away and
    those after it left.  It takes [c] words for a value. *)
Theorem C107_range : forall h ws k rest, 0 < h ->
  (w_gen_range h ws = Done (k, rest) <->
   let c := (2 ^ (64 - N.size (N.of_nat h)))%N in
   exists skipped w, ws = skipped ++ w :: rest /\
     Forall (fun v => ~ takes 64 (N.of_nat h) c (v mod 2 ^ 64)) skipped /\
     takes 64 (N.of_nat h) c (w mod 2 ^ 64) /\ k = N.to_nat (value 64 (N.of_nat h) (w mod 2 ^ 64))).
Proof. exact w_gen_range_first. Qed.
Print Assumptions C107_range.

(** [Uniform]: the same, with as many words for a value as there can be. *)
Theorem C107_uniform_range : forall h ws k rest, 0 < h -> (N.of_nat h < 2 ^ 64)%N ->
  (w_uniform h ws = Done (k, rest) <->
   let c := (2 ^ 64 / N.of_nat h)%N in
   exists skipped w, ws = skipped ++ w :: rest /\
     Forall (fun v => ~ takes 64 (N.of_nat h) c (v mod 2 ^ 64)) skipped /\
     takes 64 (N.of_nat h) c (w mod 2 ^ 64) /\ k = N.to_nat (value 64 (N.of_nat h) (w mod 2 ^ 64))).
Proof. exact w_uniform_first. Qed.
Print Assumptions C107_uniform_range.

(** Of the integers of [b] bits, a sampler takes for every value of the range the same number, [c], and
    these are consecutive: the draw is uniform if the words are. *)
Theorem C107_uniform : forall b n c k, (0 < n)%N -> (0 < c)%N -> (n * c <= 2 ^ b)%N -> (k < n)%N ->
  exists a, (a + c <= 2 ^ b)%N /\
    forall v, (takes b n c v /\ value b n v = k) <-> (a <= v < a + c)%N.
Proof. exact sampler_uniform. Qed.
Print Assumptions C107_uniform.

(** The numbers [c] of [gen_range] and of [Uniform] are such; [gen_range] takes at least half of the
    integers and [Uniform] all but fewer than [n]. *)
Theorem C107_shares : forall b n, (0 < n < 2 ^ b)%N ->
  (let c := 2 ^ (b - N.size n) in 0 < c /\ n * c <= 2 ^ b /\ 2 ^ b <= 2 * (n * c))%N /\
  (let c := 2 ^ b / n in 0 < c /\ n * c <= 2 ^ b /\ 2 ^ b < n * c + n)%N.
Proof.
  intros b n H. cbv zeta. split.
  - destruct (single_share H). split; auto. split; auto. exact (zone_half H).
  - destruct (uniform_share H). split; auto. split; auto.
    pose proof (N.mul_succ_div_gt (2 ^ b) n ltac:(lia)) as G. rewrite N.mul_succ_r in G. exact G.
Qed.
Print Assumptions C107_shares.

(** Ten values from 32 bits: 2^28 integers each; the fourth value has those from 1288490189 on, and the
    one before is not taken. *)
Example C107_uniform_case :
  (2 ^ (32 - N.size 10) = 268435456 /\ value 32 10 1288490189 = 3 /\ takes 32 10 268435456 1288490189 /\
   value 32 10 1288490188 = 2 /\ ~ takes 32 10 268435456 1288490188)%N.
Proof. unfold takes, value. vm_compute. repeat split. intros H. discriminate H. Qed.

(** [Uniform] takes 429496729 integers each, and the one before as well; it throws away the last one
    before 429496730, which would be one more for the first value. *)
Example C107_uniform_case_2 :
  (2 ^ 32 / 10 = 429496729 /\ takes 32 10 429496729 1288490188 /\ value 32 10 429496729 = 0 /\
   ~ takes 32 10 429496729 429496729 /\ value 32 10 429496730 = 1)%N.
Proof. unfold takes, value. vm_compute. repeat split. intros H. discriminate H. Qed.

(** The draws from words have the runs of the draws of [Rng]; [gen_index], [gen_range]
    and [Uniform] differ in the width of the integers and in those they take only. *)
Theorem C107_draws :
  (forall h, (N.of_nat h < 2 ^ 64)%N -> same_runs (w_gen_range h) (gen_range h)) /\
  (forall h, (N.of_nat h < 2 ^ 64)%N -> same_runs (w_gen_index h) (gen_range h)) /\
  (forall h, (N.of_nat h < 2 ^ 64)%N -> same_runs (w_uniform h) (gen_range h)) /\
  (forall h, (N.of_nat h < 2 ^ 32)%N -> same_runs (w_uniform_u32 h) (gen_range h)) /\
  same_runs w_gen_f64 gen_f64 /\ same_runs w_gen_unit gen_unit /\
  (forall X (l : list X), (N.of_nat (length l) < 2 ^ 64)%N -> same_runs (w_shuffle l) (shuffle l)) /\
  (forall l, (N.of_nat (length l) < 2 ^ 32)%N -> same_runs (w_choose_two l) (choose_two l)).
Proof.
  split; [exact same_gen_range|]. split; [exact same_gen_index|]. split; [exact same_uniform|]. split; [exact same_uniform_u32|]. split; [exact same_gen_f64|].
  split; [exact same_gen_unit|]. split; [exact (@same_shuffle)|]. exact same_choose_two.
Qed.
Print Assumptions C107_draws.

(** So have the ensembles. *)
Theorem C107_er_c {T : Type} : forall p (mk : nat -> T) n c (e : er_c T),
  same_runs (w_erc_new p mk n c) (erc_new p mk n c) /\
  same_runs (w_erc_randomize e) (erc_randomize e) /\
  ((N.of_nat (vertex_count (erc_graph e)) < 2 ^ 64)%N -> same_runs (w_erc_m_step p e) (erc_m_step p e)).
Proof.
  intros. split; [apply same_erc_new|]. split; [apply same_erc_randomize|]. apply same_erc_m_step.
Qed.
Print Assumptions C107_er_c.

Theorem C107_er_c_float {T : Type} : forall p (mk : nat -> T) n c,
  same_runs (w_erc64_new p mk n c) (erc64_new p mk n c).
Proof. exact (@same_erc64_new T). Qed.
Print Assumptions C107_er_c_float.

Theorem C107_er_m {T : Type} : forall p (mk : nat -> T) n m (e : er_m T),
  ((N.of_nat (length (er_pairs n)) < 2 ^ 64)%N -> same_runs (w_erm_new p mk n m) (erm_new p mk n m)) /\
  ((N.of_nat (length (erm_all e)) < 2 ^ 64)%N -> same_runs (w_erm_randomize p e) (erm_randomize p e)) /\
  ((N.of_nat (length (erm_current e)) < 2 ^ 64)%N -> (N.of_nat (length (erm_possible e)) < 2 ^ 64)%N ->
   same_runs (w_erm_m_step p e) (erm_m_step p e)).
Proof.
  intros. split; [apply same_erm_new|]. split; [apply same_erm_randomize|]. apply same_erm_m_step.
Qed.
Print Assumptions C107_er_m.

Theorem C107_small_world {T : Type} : forall p (mk : nat -> T) n q (e : sw_ensemble T),
  ((N.of_nat n < 2 ^ 64)%N -> same_runs (w_sw_new p mk n q) (sw_new p mk n q)) /\
  ((N.of_nat (vertex_count (sw_graph e)) < 2 ^ 64)%N -> same_runs (w_sw_randomize p e) (sw_randomize p e)) /\
  ((N.of_nat (edge_count (sw_graph e)) < 2 ^ 64)%N -> (N.of_nat (vertex_count (sw_graph e)) < 2 ^ 64)%N ->
   same_runs (w_sw_m_step p e) (sw_m_step p e)).
Proof.
  intros. split; [apply same_sw_new|]. split; [apply same_sw_randomize|]. apply same_sw_m_step.
Qed.
Print Assumptions C107_small_world.

Theorem C107_watts_strogatz {T : Type} : forall p (e : ws_ensemble T),
  simple_graph (ws_graph e) -> (N.of_nat (vertex_count (ws_graph e)) < 2 ^ 32)%N ->
  same_runs (w_ws_randomize p e) (ws_randomize p e).
Proof.
  intros p e S H. apply same_ws_randomize. intros r g E.
  destruct (init_ring_simple S E) as (_ & -> & _). exact H.
Qed.
Print Assumptions C107_watts_strogatz.

Theorem C107_barabasi_albert {T : Type} : forall p n m (e : ba T), ba_ok n m e -> (N.of_nat n < 2 ^ 64)%N ->
  (N.of_nat (2 * (edge_count (ba_source e) + m * n)) < 2 ^ 64)%N ->
  same_runs (w_ba_randomize p e) (ba_randomize p e).
Proof. intros p n m e O. exact (same_ba_randomize p (ok_ready O)). Qed.
Print Assumptions C107_barabasi_albert.

(** The insertion of one vertex, whatever the weights are. *)
Theorem C107_barabasi_albert_insert {T : Type} : forall p m (s : graph (node_container T) * list nat) i,
  (N.of_nat (list_sum (snd s)) < 2 ^ 64)%N ->
  same_runs (fun ws => w_ba_insert p m (s, ws) i) (fun rs => ba_insert p m (s, rs) i).
Proof. exact (@same_ba_insert T). Qed.
Print Assumptions C107_barabasi_albert_insert.

Theorem C107_config {T : Type} : forall p (e : config T),
  ((N.of_nat (length (cm_backup e)) < 2 ^ 64)%N -> same_runs (w_cm_randomize p e) (cm_randomize p e)) /\
  ((N.of_nat (length (cm_backup e)) < 2 ^ 32)%N ->
   (forall c, In c (vertices (cm_graph e)) -> (N.of_nat (length (nc_adj c)) < 2 ^ 64)%N) ->
   same_runs (w_cm_m_step p e) (cm_m_step p e)).
Proof. intros. split; [apply same_cm_randomize|]. apply same_cm_m_step. Qed.
Print Assumptions C107_config.

Theorem C107_spacial {T : Type} : forall p (mk : nat -> T) n accept (e : spacial T),
  same_runs (w_sp_new mk n accept) (sp_new mk n accept) /\
  same_runs (w_sp_randomize e) (sp_randomize e) /\
  ((N.of_nat (vertex_count (sp_graph e)) < 2 ^ 64)%N -> same_runs (w_sp_m_step p e) (sp_m_step p e)).
Proof.
  intros. split; [apply same_sp_new|]. split; [apply same_sp_randomize|]. apply same_sp_m_step.
Qed.
Print Assumptions C107_spacial.

(** The other constructors.  Those that may refuse either refuse whatever is drawn, or have the same
    runs. *)
Theorem C107_constructors {T : Type} : forall p (mk : nat -> T),
  (forall n m s, (N.of_nat n < 2 ^ 64)%N -> (N.of_nat (2 * (Nat.div (s * (s - 1)) 2 + m * n)) < 2 ^ 64)%N ->
   same_runs (w_ba_new p mk n m s) (ba_new p mk n m s)) /\
  (forall n m (src : graph (node_container T)), simple_graph src -> 0 < vertex_count src ->
   (N.of_nat n < 2 ^ 64)%N -> (N.of_nat (2 * (edge_count src + m * n)) < 2 ^ 64)%N ->
   same_runs (w_ba_new_from_graph p mk n m src) (ba_new_from_graph p mk n m src)) /\
  (forall A (C : AdjContainer T A) (L : AdjLaws C) n m (src : graph A), simple_graph src -> 0 < vertex_count src ->
   (N.of_nat n < 2 ^ 64)%N -> (N.of_nat (2 * (edge_count src + m * n)) < 2 ^ 64)%N ->
   same_runs (w_ba_new_from_generic_graph p mk n m src) (ba_new_from_generic_graph p mk n m src)) /\
  (forall v, (N.of_nat (list_sum v) < 2 ^ 64)%N ->
   same_runs (w_cm_from_vec_unchecked p mk v) (cm_from_vec_unchecked p mk v)) /\
  (forall v, (N.of_nat (list_sum v) < 2 ^ 64)%N ->
   ((forall ws, w_cm_from_vec p mk v ws = Done None) /\ forall rs, cm_from_vec p mk v rs = Done None) \/
   exists w f, same_runs w f /\ (forall ws, w_cm_from_vec p mk v ws = do x <- w ws; Done (Some x)) /\
     forall rs, cm_from_vec p mk v rs = do x <- f rs; Done (Some x)) /\
  (forall c n, (N.of_nat (n * c) < 2 ^ 64)%N ->
   ((forall ws, w_cm_from_const p mk c n ws = Done None) /\ forall rs, cm_from_const p mk c n rs = Done None) \/
   exists w f, same_runs w f /\ (forall ws, w_cm_from_const p mk c n ws = do x <- w ws; Done (Some x)) /\
     forall rs, cm_from_const p mk c n rs = do x <- f rs; Done (Some x)) /\
  (forall n d q, (N.of_nat n < 2 ^ 32)%N ->
   (exists no, (forall ws, w_ws_new p mk n d q ws = Done (Err no)) /\ forall rs, ws_new p mk n d q rs = Done (Err no)) \/
   exists w f, same_runs w f /\ (forall ws, w_ws_new p mk n d q ws = do x <- w ws; Done (Ok x)) /\
     forall rs, ws_new p mk n d q rs = do x <- f rs; Done (Ok x)).
Proof.
  intros p mk. split; [intros; now apply same_ba_new|]. split; [intros; now apply same_ba_from_graph|].
  split; [intros A C L n m src W; now apply (@same_ba_from_generic T A C L)|].
  split; [intros; now apply same_cm_unchecked|]. split; [|split].
  - intros v H. unfold w_cm_from_vec, cm_from_vec. destruct (degree_vec_is_valid v); [right|now left].
    exists (w_cm_from_vec_unchecked p mk v), (cm_from_vec_unchecked p mk v). split; [now apply same_cm_unchecked|auto].
  - intros c n H. unfold w_cm_from_const, cm_from_const. destruct (usub p n 1) as [s| | |]; cbn [bind].
    + destruct ((s <=? c) || negb (Nat.even (n * c)))%bool; [now left|right].
      exists (w_cm_from_vec_unchecked p mk (repeat c n)), (cm_from_vec_unchecked p mk (repeat c n)).
      split; [|auto]. apply same_cm_unchecked. now rewrite list_sum_repeat.
    + right. exists (fun _ => Panic), (fun _ => Panic). split; [apply same_stop|auto].
    + right. exists (fun _ => UB), (fun _ => UB). split; [apply same_ub|auto].
    + right. exists (fun _ => NoFuel), (fun _ => NoFuel). split; [apply same_fuel|auto].
  - intros n d q H. unfold w_ws_new, ws_new. destruct (n <? 1 + 2 * d); [left; now exists ImpossibleRingRequest|].
    destruct (init_ring p (graph_new mk n) d) as [[[u|no] g]| | |] eqn:E; cbn [bind].
    + right. exists (w_ws_randomize p (mk_wse g q d)), (ws_randomize p (mk_wse g q d)). split; [|auto].
      pose proof (@graph_new_spec T (ws_container T) _ _ mk n) as (Wn & Vn & _). cbv zeta in Wn, Vn.
      destruct (init_ring_simple Wn E) as (Wg & Vg & _). apply C107_watts_strogatz; cbn [ws_graph]; auto.
      rewrite Vg, Vn. exact H.
    + left. now exists ImpossibleEdgeRequest.
    + right. exists (fun _ => Panic), (fun _ => Panic). split; [apply same_stop|auto].
    + right. exists (fun _ => UB), (fun _ => UB). split; [apply same_ub|auto].
    + right. exists (fun _ => NoFuel), (fun _ => NoFuel). split; [apply same_fuel|auto].
Qed.
Print Assumptions C107_constructors.

(** And the chains, of any length. *)
Theorem C107_chains {T : Type} : forall p k,
  (forall e : er_c T, simple_graph (erc_graph e) -> (N.of_nat (vertex_count (erc_graph e)) < 2 ^ 64)%N ->
   same_runs (w_m_steps (w_erc_m_step p) k e) (m_steps (erc_m_step p) k e)) /\
  (forall n m (e : er_m T), erm_ok n m e -> (N.of_nat (Nat.div (n * (n - 1)) 2) < 2 ^ 64)%N ->
   same_runs (w_m_steps (w_erm_m_step p) k e) (m_steps (erm_m_step p) k e)) /\
  (forall n (e : sw_ensemble T), sw_ok n 2 (sw_graph e) -> (N.of_nat (n * 2) < 2 ^ 64)%N ->
   same_runs (w_m_steps (w_sw_m_step p) k e) (m_steps (sw_m_step p) k e)) /\
  (forall v (e : config T), cm_ok v e -> (N.of_nat (length (cm_backup e)) < 2 ^ 32)%N ->
   same_runs (w_m_steps (w_cm_m_step p) k e) (m_steps (cm_m_step p) k e)) /\
  (forall e : spacial T, simple_graph (sp_graph e) -> (N.of_nat (vertex_count (sp_graph e)) < 2 ^ 64)%N ->
   same_runs (w_m_steps (w_sp_m_step p) k e) (m_steps (sp_m_step p) k e)).
Proof.
  intros p k. split; [exact (same_erc_chain p k)|]. split; [exact (same_erm_chain p k)|].
  split; [exact (same_sw_chain p k)|]. split; [exact (same_cm_chain p k)|]. exact (same_sp_chain p k).
Qed.
Print Assumptions C107_chains.

(** For instance, with [m] edges on words: the word 2^63 gives index 10 of the 20 edges that are not
    there, and the largest word is thrown away. *)
Example C107_case :
  match w_erm_new Debug (fun _ : nat => tt) 7 1 (repeat 0%N 30) with
  | Done (e, rest) =>
      length rest = 10 /\
      match w_erm_m_step Debug e (2 ^ 64 - 1 :: 5 :: 2 ^ 64 - 1 :: 2 ^ 63 :: 7 :: nil)%N with
      | Done (s, _, rest) => (esm_i_inserted s, rest) = (10, (7 :: nil)%N)
      | _ => False
      end
  | _ => False
  end.
Proof. vm_compute. auto. Qed.

(** The ring of six vertices: the first vertex gives up the edge to the last one and keeps the other
    one; the lower halves of the next two words give the ends of the new edge; no other edge is
    rewired. *)
Example C107_case_2 :
  match w_ws_randomize Debug (mk_wse (graph_new (fun i : nat => i) 6) (1 # 2)%Q 1)
          ((2 ^ 62 :: 2 ^ 64 - 1 :: 2 ^ 30 :: 2 ^ 31 + 2 ^ 30 :: nil) ++ repeat (2 ^ 64 - 2 ^ 11) 9 ++ 7 :: nil)%N with
  | Done (e, rest) =>
      map (fun c => wc_to c) (vertices (ws_graph e)) =
        [[1]; [0; 2; 4]; [1; 3]; [2; 4]; [3; 5; 1]; [4]] /\ rest = (7 :: nil)%N
  | _ => False
  end.
Proof. vm_compute. auto. Qed.

(** The degrees 1, 2, 2, 1: the lower halves of the words say how to shuffle the six ends of edges; four
    of the nine words are thrown away. *)
Example C107_case_3 :
  match w_cm_from_vec_unchecked Debug (fun i : nat => i) [1; 2; 2; 1]
          (map (fun i => i * 2 ^ 29) (0 :: 1 :: 2 :: 3 :: 4 :: 5 :: 6 :: 7 :: 0 :: 1 :: nil))%N with
  | Done (e, rest) =>
      map (fun c => nc_adj c) (vertices (cm_graph e)) = [[1]; [0; 2]; [1; 3]; [2]] /\ rest = (2 ^ 29 :: nil)%N
  | _ => False
  end.
Proof. vm_compute. auto. Qed.

(** Two vertices attached to a triangle by two edges each: one word for the order of the two, and five
    for the ends of the four edges. *)
Example C107_case_4 :
  match complete_graph Debug (fun i : nat => i) 3 with
  | Done src =>
      match w_ba_randomize Debug (mk_ba src (graph_new (fun i : nat => i) 5) 2 (repeat 0 5))
              (2 ^ 31 :: 0 :: 2 ^ 64 - 1 :: 2 ^ 63 :: 2 ^ 63 + 2 ^ 60 :: 0 :: 7 :: nil)%N with
      | Done (e, rest) =>
          map (fun c => nc_adj c) (vertices (ba_graph e)) = [[1; 2; 3; 4]; [0; 2]; [0; 1; 3; 4]; [0; 2]; [2; 0]] /\
          rest = (7 :: nil)%N
      | _ => False
      end
  | _ => False
  end.
Proof. vm_compute. auto. Qed.

(** Three steps with three vertices on words: a pair without an edge is left alone, another one gets an
    edge, which is then taken away.  Each step takes two words for the pair and one for the coin. *)
Example C107_case_5 :
  match w_erc_new Debug (fun i : nat => i) 3 (4 # 3)%Q (repeat (2 ^ 64 - 1) 3)%N with
  | Done (e, _) =>
      match w_m_steps (w_erc_m_step Debug) 3 e
              (0 :: 0 :: 2 ^ 64 - 1 :: 2 ^ 63 - 1 :: 2 ^ 62 - 1 :: 0 :: 0 :: 0 :: 2 ^ 64 - 1 :: 7 :: nil)%N with
      | Done (steps, e', rest) =>
          steps = [ErC_Nothing; ErC_AddedEdge (1, 0); ErC_RemovedEdge (0, 1)] /\ rest = (7 :: nil)%N
      | _ => False
      end
  | _ => False
  end.
Proof. vm_compute. auto. Qed.

(** Five vertices, two of them attached to a triangle: the constructor does what [randomize] does. *)
Example C107_case_6 :
  match w_ba_new Debug (fun i : nat => i) 5 2 3
          (2 ^ 31 :: 0 :: 2 ^ 64 - 1 :: 2 ^ 63 :: 2 ^ 63 + 2 ^ 60 :: 0 :: 7 :: nil)%N,
        w_ws_new Debug (fun i : nat => i) 4 2 (1 # 2)%Q [7%N],
        w_cm_from_const Debug (fun i : nat => i) 2 4 (map (fun i => i * 2 ^ 29) (0 :: 1 :: 2 :: 3 :: 4 :: 5 :: 6 :: 7 :: nil) ++ repeat 0 70)%N with
  | Done (e, rest), no, Done (Some (c, _)) =>
      map (fun c => nc_adj c) (vertices (ba_graph e)) = [[1; 2; 3; 4]; [0; 2]; [0; 1; 3; 4]; [0; 2]; [2; 0]] /\
      rest = (7 :: nil)%N /\ no = Done (Err ImpossibleRingRequest) /\
      map (fun c => length (nc_adj c)) (vertices (cm_graph c)) = [2; 2; 2; 2]
  | _, _, _ => False
  end.
Proof. vm_compute. auto. Qed.
