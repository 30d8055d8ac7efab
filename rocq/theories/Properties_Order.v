(** C108: the words of the generator are read in the order of the draws. *)
From Verif Require Import Base Containers Graph Rng Markov Float ErC ErM Sw Ws Ba Config Spacial Prob Words WordsMore WordsChain WordsSpec WordsFacts OrderSpec OrderFacts OrderRuns WordsChainFacts.
From Coq Require Import NArith ZArith QArith SpecFloat.
Local Open Scope nat_scope.

(** The draws. *)
Theorem C108_draws :
  (forall h, in_order (w_gen_range h) (gen_range h)) /\
  (forall h, in_order (w_gen_index h) (gen_range h)) /\
  (forall h, in_order (w_uniform h) (gen_range h)) /\
  (forall h, in_order (w_uniform_u32 h) (gen_range h)) /\
  in_order w_gen_f64 gen_f64 /\ in_order w_gen_unit gen_unit /\
  (forall X (l : list X), in_order (w_shuffle l) (shuffle l)) /\
  (forall X (l : list X), in_order (w_choose_unwrap l) (choose_unwrap l)) /\
  (forall l, in_order (w_choose_two l) (choose_two l)) /\
  (forall p h, in_order (w_draw_two_from_range p h) (draw_two_from_range p h)).
Proof.
  repeat (split; [intros; apply ordered_in_order; auto with ordered|]).
  intros. apply ordered_in_order. apply ordered_draw_two.
Qed.
Print Assumptions C108_draws.

(** The ensembles. *)
Theorem C108_er_c {T : Type} : forall p (mk : nat -> T) n c (e : er_c T),
  in_order (w_erc_new p mk n c) (erc_new p mk n c) /\
  in_order (w_erc_randomize e) (erc_randomize e) /\
  in_order (w_erc_m_step p e) (erc_m_step p e).
Proof.
  intros. split; [apply ordered_in_order, ordered_erc_new|].
  split; [apply ordered_in_order, ordered_erc_randomize|]. apply ordered_in_order, ordered_erc_m_step.
Qed.
Print Assumptions C108_er_c.

Theorem C108_er_c_float {T : Type} : forall p (mk : nat -> T) n c,
  in_order (w_erc64_new p mk n c) (erc64_new p mk n c).
Proof. intros. apply ordered_in_order, ordered_erc64_new. Qed.
Print Assumptions C108_er_c_float.

Theorem C108_er_m {T : Type} : forall p (mk : nat -> T) n m (e : er_m T),
  in_order (w_erm_new p mk n m) (erm_new p mk n m) /\
  in_order (w_erm_randomize p e) (erm_randomize p e) /\
  in_order (w_erm_m_step p e) (erm_m_step p e).
Proof.
  intros. split; [apply ordered_in_order, ordered_erm_new|].
  split; [apply ordered_in_order, ordered_erm_randomize|]. apply ordered_in_order, ordered_erm_m_step.
Qed.
Print Assumptions C108_er_m.

Theorem C108_small_world {T : Type} : forall p (mk : nat -> T) n q (e : sw_ensemble T),
  in_order (w_sw_new p mk n q) (sw_new p mk n q) /\
  in_order (w_sw_randomize p e) (sw_randomize p e) /\
  in_order (w_sw_m_step p e) (sw_m_step p e).
Proof.
  intros. split; [apply ordered_in_order, ordered_sw_new|].
  split; [apply ordered_in_order, ordered_sw_randomize|]. apply ordered_in_order, ordered_sw_m_step.
Qed.
Print Assumptions C108_small_world.

Theorem C108_watts_strogatz {T : Type} : forall p (e : ws_ensemble T),
  in_order (w_ws_randomize p e) (ws_randomize p e).
Proof. intros. apply ordered_in_order, ordered_ws_randomize. Qed.
Print Assumptions C108_watts_strogatz.

Theorem C108_barabasi_albert {T : Type} : forall p (e : ba T),
  in_order (w_ba_randomize p e) (ba_randomize p e).
Proof. intros. apply ordered_in_order, ordered_ba_randomize. Qed.
Print Assumptions C108_barabasi_albert.

Theorem C108_config {T : Type} : forall p (e : config T),
  in_order (w_cm_randomize p e) (cm_randomize p e) /\
  in_order (w_cm_m_step p e) (cm_m_step p e).
Proof.
  intros. split; [apply ordered_in_order, ordered_cm_randomize|]. apply ordered_in_order, ordered_cm_m_step.
Qed.
Print Assumptions C108_config.

Theorem C108_spacial {T : Type} : forall p (mk : nat -> T) n accept (e : spacial T),
  in_order (w_sp_new mk n accept) (sp_new mk n accept) /\
  in_order (w_sp_randomize e) (sp_randomize e) /\
  in_order (w_sp_m_step p e) (sp_m_step p e).
Proof.
  intros. split; [apply ordered_in_order, ordered_sp_new|].
  split; [apply ordered_in_order, ordered_sp_randomize|]. apply ordered_in_order, ordered_sp_m_step.
Qed.
Print Assumptions C108_spacial.

(** The other constructors; those that may refuse do so whatever is drawn. *)
Theorem C108_constructors {T : Type} : forall p (mk : nat -> T),
  (forall n m s, in_order (w_ba_new p mk n m s) (ba_new p mk n m s)) /\
  (forall n m src, in_order (w_ba_new_from_graph p mk n m src) (ba_new_from_graph p mk n m src)) /\
  (forall A (C : AdjContainer T A) n m (src : graph A),
   in_order (w_ba_new_from_generic_graph p mk n m src) (ba_new_from_generic_graph p mk n m src)) /\
  (forall v, in_order (w_cm_from_vec_unchecked p mk v) (cm_from_vec_unchecked p mk v)) /\
  (forall v,
   ((forall ws, w_cm_from_vec p mk v ws = Done None) /\ forall rs, cm_from_vec p mk v rs = Done None) \/
   exists w f, in_order w f /\ (forall ws, w_cm_from_vec p mk v ws = do x <- w ws; Done (Some x)) /\
     forall rs, cm_from_vec p mk v rs = do x <- f rs; Done (Some x)) /\
  (forall c n,
   ((forall ws, w_cm_from_const p mk c n ws = Done None) /\ forall rs, cm_from_const p mk c n rs = Done None) \/
   exists w f, in_order w f /\ (forall ws, w_cm_from_const p mk c n ws = do x <- w ws; Done (Some x)) /\
     forall rs, cm_from_const p mk c n rs = do x <- f rs; Done (Some x)) /\
  (forall n d q,
   (exists no, (forall ws, w_ws_new p mk n d q ws = Done (Err no)) /\ forall rs, ws_new p mk n d q rs = Done (Err no)) \/
   exists w f, in_order w f /\ (forall ws, w_ws_new p mk n d q ws = do x <- w ws; Done (Ok x)) /\
     forall rs, ws_new p mk n d q rs = do x <- f rs; Done (Ok x)).
Proof.
  intros p mk. split; [intros; apply ordered_in_order, ordered_ba_new|].
  split; [intros; apply ordered_in_order, ordered_ba_from_graph|].
  split; [intros; apply ordered_in_order, ordered_ba_from_generic|].
  split; [intros; apply ordered_in_order, ordered_cm_unchecked|]. split; [|split].
  - intros v. unfold w_cm_from_vec, cm_from_vec. destruct (degree_vec_is_valid v); [right|now left].
    exists (w_cm_from_vec_unchecked p mk v), (cm_from_vec_unchecked p mk v).
    split; [apply ordered_in_order, ordered_cm_unchecked|auto].
  - intros c n. unfold w_cm_from_const, cm_from_const. destruct (usub p n 1) as [s| | |]; cbn [bind].
    + destruct ((s <=? c) || negb (Nat.even (n * c)))%bool; [now left|right].
      exists (w_cm_from_vec_unchecked p mk (repeat c n)), (cm_from_vec_unchecked p mk (repeat c n)).
      split; [apply ordered_in_order, ordered_cm_unchecked|auto].
    + right. exists (fun _ => Panic), (fun _ => Panic). split; [apply ordered_in_order, ordered_stop|auto].
    + right. exists (fun _ => UB), (fun _ => UB). split; [apply ordered_in_order, ordered_ub|auto].
    + right. exists (fun _ => NoFuel), (fun _ => NoFuel). split; [apply ordered_in_order, ordered_fuel|auto].
  - intros n d q. unfold w_ws_new, ws_new. destruct (n <? 1 + 2 * d); [left; now exists ImpossibleRingRequest|].
    destruct (init_ring p (graph_new mk n) d) as [[[u|no] g]| | |]; cbn [bind].
    + right. exists (w_ws_randomize p (mk_wse g q d)), (ws_randomize p (mk_wse g q d)).
      split; [apply ordered_in_order, ordered_ws_randomize|auto].
    + left. now exists ImpossibleEdgeRequest.
    + right. exists (fun _ => Panic), (fun _ => Panic). split; [apply ordered_in_order, ordered_stop|auto].
    + right. exists (fun _ => UB), (fun _ => UB). split; [apply ordered_in_order, ordered_ub|auto].
    + right. exists (fun _ => NoFuel), (fun _ => NoFuel). split; [apply ordered_in_order, ordered_fuel|auto].
Qed.
Print Assumptions C108_constructors.

(** Chains of Markov steps. *)
Theorem C108_chains {T : Type} : forall p k,
  (forall e : er_c T, in_order (w_m_steps (w_erc_m_step p) k e) (m_steps (erc_m_step p) k e)) /\
  (forall e : er_m T, in_order (w_m_steps (w_erm_m_step p) k e) (m_steps (erm_m_step p) k e)) /\
  (forall e : sw_ensemble T, in_order (w_m_steps (w_sw_m_step p) k e) (m_steps (sw_m_step p) k e)) /\
  (forall e : config T, in_order (w_m_steps (w_cm_m_step p) k e) (m_steps (cm_m_step p) k e)) /\
  (forall e : spacial T, in_order (w_m_steps (w_sp_m_step p) k e) (m_steps (sp_m_step p) k e)).
Proof.
  intros p k. repeat split; intros e; apply ordered_in_order, ordered_m_steps; intros s.
  - apply ordered_erc_m_step.
  - apply ordered_erm_m_step.
  - apply ordered_sw_m_step.
  - apply ordered_cm_m_step.
  - apply ordered_sp_m_step.
Qed.
Print Assumptions C108_chains.

(** Two draws in the order of the program are in order; the same draws the other way round are not,
    though each gives what it gave. *)
Definition two_draws (rs : list nat) : outcome (nat * nat * list nat) :=
  do ' (a, t) <- gen_range 2 rs; do ' (b, t') <- gen_range 3 t; Done (a, b, t').
Definition two_ahead (ws : list N) : outcome (nat * nat * list N) :=
  do ' (a, t) <- w_gen_range 2 ws; do ' (b, t') <- w_gen_range 3 t; Done (a, b, t').
Definition two_back (ws : list N) : outcome (nat * nat * list N) :=
  do ' (b, t) <- w_gen_range 3 ws; do ' (a, t') <- w_gen_range 2 t; Done (a, b, t').

Lemma two_draws_first rs x : two_draws rs = Done (x, nil) -> exists r1 r2, rs = r1 :: r2 :: nil /\ fst x = r1 mod 2.
Proof.
  destruct rs as [|r1 [|r2 [|r3 rs]]]; try discriminate. cbn [two_draws]. unfold two_draws, gen_range.
  cbn [Nat.eqb draw bind]. intros E. injection E as <-. eauto.
Qed.

Lemma two_reads ask w1 w2 r1 r2 : reads ask nil (w1 :: w2 :: nil) (r1 :: r2 :: nil) nil ->
  read (ask nil) (w1 :: nil) = Some (r1, nil).
Proof.
  intros R. inversion R as [|? ? ? ws1 ? ? E1 R1]; subst. inversion R1 as [|? ? ? ws2 ? ? E2 R2]; subst.
  destruct (read_shorter E2) as (v & -> & V). destruct (read_shorter E1) as (u & Eu & U).
  destruct u as [|u0 [|u1 u]]; [now destruct U| |].
  2: { cbn [app] in Eu. injection Eu as _ _ Eu. destruct u, v; try discriminate Eu. now destruct V. }
  cbn [app] in Eu. injection Eu as -> Eu. rewrite <- Eu in E1. clear - E1.
  cbn [read] in *. destruct (ask nil) as [b n z|k].
  - destruct (_ <? _)%N; [congruence|].
    destruct (_ <? _)%N; [|discriminate E1]. injection E1 as _ E1. discriminate E1.
  - congruence.
Qed.

Example C108_case : in_order two_ahead two_draws /\ ~ in_order two_back two_draws.
Proof.
  split; [apply ordered_in_order; unfold two_ahead, two_draws; order|].
  intros (ask & _ & F).
  pose proof (F (0 :: 0 :: nil)%N) as A. pose proof (F (0 :: 2 ^ 63 :: nil)%N) as B.
  change (two_back (0 :: 0 :: nil)%N) with (Done (0, 0, @nil N)) in A.
  change (two_back (0 :: 2 ^ 63 :: nil)%N) with (Done (1, 0, @nil N)) in B.
  destruct A as (rs & R & D). destruct B as (rs' & R' & D').
  specialize (D nil). specialize (D' nil). rewrite app_nil_r in D, D'.
  apply two_draws_first in D as (a & b & -> & E). apply two_draws_first in D' as (a' & b' & -> & E').
  apply two_reads in R, R'. rewrite R in R'. injection R' as <-. cbn [fst] in E, E'. rewrite <- E in E'. discriminate E'.
Qed.

(** Words that are not taken are passed over: here the largest. *)
Example C108_case_2 :
  reads (fun before => match before with nil => Below 64 3 (zone 64 3) | _ => Upper 53 end) nil
    (2 ^ 64 - 1 :: 2 ^ 63 :: 10240 :: 7 :: nil)%N (1 :: 5 :: nil) (7 :: nil)%N.
Proof. econstructor; [vm_compute; reflexivity|]. econstructor; [vm_compute; reflexivity|]. constructor. Qed.
