(** C111: how each random draw is made from a word: bits, numbers, integers taken. *)
From Verif Require Import Base Containers Graph Rng Markov Float ErC ErM Sw Ws Ba Config Spacial Prob Words WordsMore WordsSpec WordsFacts OrderSpec OrderFacts OrderRuns KindSpec KindFacts.
From Coq Require Import NArith ZArith QArith SpecFloat.
Local Open Scope nat_scope.

Theorem C111_draws :
  (forall h, 0 < h -> asks (fun _ => range_kind 64 h) (w_gen_range h) (gen_range h)) /\
  (forall h, 0 < h -> asks (fun _ => index_kind h) (w_gen_index h) (gen_range h)) /\
  (forall h, (0 < N.of_nat h < 2 ^ 64)%N -> asks (fun _ => uniform_kind 64 h) (w_uniform h) (gen_range h)) /\
  (forall h, (0 < N.of_nat h < 2 ^ 32)%N -> asks (fun _ => uniform_kind 32 h) (w_uniform_u32 h) (gen_range h)) /\
  asks (fun _ => Upper 53) w_gen_f64 gen_f64 /\ asks (fun _ => Upper 53) w_gen_unit gen_unit /\
  (forall X (l : list X), asks (fun i => index_kind (length l - i)) (w_shuffle l) (shuffle l)) /\
  (forall X (l : list X), l <> nil -> asks (fun _ => index_kind (length l)) (w_choose_unwrap l) (choose_unwrap l)) /\
  (forall l, 2 <= length l -> asks (fun i => range_kind 32 (length l - 1 + i)) (w_choose_two l) (choose_two l)) /\
  (forall p h, 2 <= h -> asks (fun i => range_kind 64 (h - i)) (w_draw_two_from_range p h) (draw_two_from_range p h)).
Proof.
  split; [intros; now apply asks_gen_range|]. split; [intros; now apply asks_gen_index|].
  split; [intros; now apply asks_uniform|]. split; [intros; now apply asks_uniform_u32|].
  split; [now apply asks_gen_f64|]. split; [now apply asks_gen_unit|].
  split; [intros; now apply asks_shuffle|]. split; [intros; now apply asks_choose|].
  split; [intros l H; apply asks_choose_two; intros i Hi; now rewrite Nat.min_l|].
  intros; now apply asks_two.
Qed.
Print Assumptions C111_draws.

Theorem C111_er_c {T : Type} : forall p (mk : nat -> T) n c cf (e : er_c T),
  asks (fun _ => Upper 53) (w_erc_new p mk n c) (erc_new p mk n c) /\
  asks (fun _ => Upper 53) (w_erc64_new p mk n cf) (erc64_new p mk n cf) /\
  asks (fun _ => Upper 53) (w_erc_randomize e) (erc_randomize e) /\
  (2 <= vertex_count (erc_graph e) ->
   asks (step_kinds (vertex_count (erc_graph e))) (w_erc_m_step p e) (erc_m_step p e)).
Proof.
  intros. split; [apply asks_erc_new|]. split; [apply asks_erc64_new|]. split; [apply asks_erc_randomize|apply asks_erc_step].
Qed.
Print Assumptions C111_er_c.

Theorem C111_er_m {T : Type} : forall p (e : er_m T),
  asks (fun i => index_kind (length (erm_all e) - i)) (w_erm_randomize p e) (erm_randomize p e) /\
  (erm_current e <> nil -> erm_possible e <> nil ->
   asks (fun i => range_kind 64 (length (if i =? 0 then erm_current e else erm_possible e)))
     (w_erm_m_step p e) (erm_m_step p e)).
Proof. intros. split; [apply asks_erm_randomize|apply asks_erm_step]. Qed.
Print Assumptions C111_er_m.

Theorem C111_small_world {T : Type} : forall p (e : sw_ensemble T),
  2 <= vertex_count (sw_graph e) ->
  follows (sw_next (sw_r_prob e) (vertex_count (sw_graph e))) (w_sw_randomize p e) (sw_randomize p e) /\
  (0 < edge_count (sw_graph e) ->
   asks (sw_kinds (vertex_count (sw_graph e)) (edge_count (sw_graph e))) (w_sw_m_step p e) (sw_m_step p e)).
Proof. intros p e H. split; [now apply follows_sw_randomize|]. intros. now apply asks_sw_step. Qed.
Print Assumptions C111_small_world.

Theorem C111_spacial {T : Type} : forall p (mk : nat -> T) n accept (e : spacial T),
  asks (fun _ => Upper 53) (w_sp_new mk n accept) (sp_new mk n accept) /\
  asks (fun _ => Upper 53) (w_sp_randomize e) (sp_randomize e) /\
  (2 <= vertex_count (sp_graph e) ->
   asks (step_kinds (vertex_count (sp_graph e))) (w_sp_m_step p e) (sp_m_step p e)).
Proof. intros. split; [apply asks_sp_new|]. split; [apply asks_sp_randomize|apply asks_sp_step]. Qed.
Print Assumptions C111_spacial.

(** The loops that draw until a draw will do. *)
Theorem C111_rounds {T : Type} : forall p,
  (forall (g : graph (ws_container T)) o, (0 < N.of_nat (vertex_count g) < 2 ^ 32)%N ->
   asks (fun _ => uniform_kind 32 (vertex_count g)) (fun ws => w_ws_add_random_edge p (g, ws) o)
     (fun rs => ws_add_random_edge p (g, rs) o)) /\
  (forall m (g : graph (node_container T)) weights i, (0 < N.of_nat (list_sum weights) < 2 ^ 64)%N ->
   asks (fun _ => uniform_kind 64 (list_sum weights)) (fun ws => w_ba_insert p m ((g, weights), ws) i)
     (fun rs => ba_insert p m ((g, weights), rs) i)) /\
  (forall backup u, 2 <= length backup ->
   asks (fun i => range_kind 32 (length backup - 1 + i)) (w_cm_draw_round backup u) (cm_draw_round backup u)).
Proof.
  intros p. split; [intros; now apply asks_ws_add|]. split; [intros; now apply asks_ba_insert|].
  intros. now apply asks_cm_draw_round.
Qed.
Print Assumptions C111_rounds.

(** An index is not drawn as a number of 64 bits: the word 2 ^ 63 has lower bits zero. *)
Example C111_case : asks (fun _ => index_kind 3) (w_gen_index 3) (gen_range 3) /\
  ~ asks (fun _ => range_kind 64 3) (w_gen_index 3) (gen_range 3).
Proof.
  split; [apply asks_gen_index; [repeat constructor|reflexivity]|].
  intros F. specialize (F (2 ^ 63 :: nil)%N).
  change (w_gen_index 3 (2 ^ 63 :: nil)%N) with (Done (0, @nil N)) in F. cbv beta iota in F.
  destruct F as (rs & R & D). specialize (D nil). rewrite app_nil_r in D.
  inversion R as [|? ? r ws1 rs1 ? E R1]; subst. clear R.
  change (read (range_kind 64 3) (2 ^ 63 :: nil)%N) with (Some (1, @nil N)) in E. injection E as <- <-.
  discriminate D.
Qed.

(** A step with three vertices: a number below three, one below two, a float. *)
Definition three : er_c nat := mk_erc (graph_new (fun i => i) 3) (1 # 2) 1.
Example C111_case_2 :
  asks (step_kinds 3) (w_erc_m_step Debug three) (erc_m_step Debug three) /\
  reads (fun before => step_kinds 3 (length before)) nil (2 ^ 64 - 1 :: 2 ^ 63 :: 2 ^ 63 :: 10240 :: 7 :: nil)%N
    (1 :: 1 :: 5 :: nil) (7 :: nil)%N.
Proof.
  split; [apply (asks_erc_step Debug (e := three)); repeat constructor|].
  repeat (econstructor; [vm_compute; reflexivity|]). constructor.
Qed.

(** Two edges: the float of the first is above the probability, that of the second is not, so that a
    vertex is drawn behind it; the largest word is passed over. *)
Example C111_case_3 :
  reads (sw_next 0 6) nil (10240 :: 0 :: 2 ^ 64 - 1 :: 2 ^ 62 :: 7 :: nil)%N (5 :: 0 :: 1 :: nil) (7 :: nil)%N.
Proof. repeat (econstructor; [vm_compute; reflexivity|]). constructor. Qed.
