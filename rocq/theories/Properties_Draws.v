(** Theorems about the random numbers that are used. *)
From Verif Require Import Base Containers Graph Rng ErC ErM Sw Ws Config Ba Spacial Dog Prob Markov SafeSpec DrawsSpec DrawsFacts DrawsCount.
From Coq Require Import QArith SpecFloat.
Import ListNotations.
Local Open Scope nat_scope.

(** ** C106 *)

(** What a program of calls does is settled by the draws it uses, and it uses the first ones, for
    each ensemble, every program and both builds.  So the loops that draw until they are lucky
    are not bounded by the number of draws they are given here: a loop that ends, ends alike with
    any others after those it used. *)
Theorem C106_er_c {T : Type} : forall p (e : er_c T) l, settled (fun rs => program (erc_do p) (e, rs) l).
Proof. intros. apply settled_program. intros. apply settled_erc_do. Qed.
Print Assumptions C106_er_c.

Theorem C106_er_m {T : Type} : forall p (e : er_m T) l, settled (fun rs => program (erm_do p) (e, rs) l).
Proof. intros. apply settled_program. intros. apply settled_erm_do. Qed.
Print Assumptions C106_er_m.

Theorem C106_config {T : Type} : forall p (e : config T) l, settled (fun rs => program (cm_do p) (e, rs) l).
Proof. intros. apply settled_program. intros. apply settled_cm_do. Qed.
Print Assumptions C106_config.

Theorem C106_small_world {T : Type} : forall p (e : sw_ensemble T) l,
  settled (fun rs => program (sw_do p) (e, rs) l).
Proof. intros. apply settled_program. intros. apply settled_sw_do. Qed.
Print Assumptions C106_small_world.

Theorem C106_watts_strogatz {T : Type} : forall p (e : ws_ensemble T) l,
  settled (fun rs => program (ws_do p) (e, rs) l).
Proof. intros. apply settled_program. intros. apply settled_ws_do. Qed.
Print Assumptions C106_watts_strogatz.

Theorem C106_barabasi_albert {T : Type} : forall p (e : ba T) l,
  settled (fun rs => program (ba_do p) (e, rs) l).
Proof. intros. apply settled_program. intros. apply settled_ba_do. Qed.
Print Assumptions C106_barabasi_albert.

Theorem C106_spacial {T : Type} : forall p (e : spacial T) l,
  settled (fun rs => program (sp_do p) (e, rs) l).
Proof. intros. apply settled_program. intros. apply settled_sp_do. Qed.
Print Assumptions C106_spacial.

(** [DogEnsemble] has [randomize] only. *)
Theorem C106_dog {T : Type} : forall p (e : dog T) k,
  settled (fun rs => foldM (fun s _ => dog_randomize p (fst s) (snd s)) (e, rs) (seq 0 k)).
Proof. intros. apply settled_foldM. intros x a. simpl. apply settled_dog_randomize. Qed.
Print Assumptions C106_dog.

(** The same for the functions that make an ensemble; where they return a [Result] or an
    [Option], it is unwrapped. *)
Theorem C106_new {T : Type} : forall p (mk : nat -> T) n k d (q : Q) v source accept tau lambda,
  settled (erc_new p mk n q) /\ settled (erm_new p mk n k) /\ settled (sp_new mk n accept) /\
  settled (sw_new p mk n q) /\
  settled (fun rs => do r <- sw_new_with_distance p mk n d q rs; unwrap r) /\
  settled (fun rs => do r <- ws_new p mk n d q rs; unwrap r) /\
  settled (cm_from_vec_unchecked p mk v) /\
  settled (fun rs => do r <- cm_from_vec p mk v rs; expect r) /\
  settled (fun rs => do r <- cm_from_const p mk k n rs; expect r) /\
  settled (ba_new p mk n k d) /\ settled (ba_new_from_graph p mk n k source) /\
  settled (dog_new p mk n accept tau lambda).
Proof.
  intros p mk n k d q v source accept tau lambda.
  assert (W : forall E (f : list nat -> outcome (E * list nat)), settled f ->
    settled (fun rs => do r <- (do x <- f rs; Done (Some x)); expect r)).
  { intros E f S. eapply settled_ext; [|exact S]. intros rs. destruct (f rs); reflexivity. }
  assert (V : forall E F (f : list nat -> outcome (E * list nat)), settled f ->
    settled (fun rs => do r <- (do x <- f rs; Done (Ok (E := F) x)); unwrap r)).
  { intros E F f S. eapply settled_ext; [|exact S]. intros rs. destruct (f rs); reflexivity. }
  repeat apply conj.
  - apply settled_pure. intros. apply settled_erc_randomize.
  - unfold erm_new. settle. apply settled_erm_randomize.
  - unfold sp_new. settle; [apply settled_sp_place|apply settled_sp_randomize].
  - unfold sw_new. settle. apply settled_sw_randomize.
  - unfold sw_new_with_distance. destruct (init_ring p (graph_new mk n) d) as [[[u|x] g]| | |]; simpl;
      auto using settled_stop, settled_undefined, settled_fuel.
    apply (V _ _ (sw_randomize p (mk_swe g q))). apply settled_sw_randomize.
  - unfold ws_new. destruct (n <? 1 + 2 * d); [apply settled_stop|].
    destruct (init_ring p (graph_new mk n) d) as [[[u|x] g]| | |]; simpl;
      auto using settled_stop, settled_undefined, settled_fuel.
    apply (V _ _ (ws_randomize p (mk_wse g q d))). apply settled_ws_randomize.
  - apply settled_cm_randomize.
  - unfold cm_from_vec. destruct (degree_vec_is_valid v); [|apply settled_stop].
    apply (W _ (cm_from_vec_unchecked p mk v)). apply settled_cm_randomize.
  - unfold cm_from_const. destruct (usub p n 1) as [s| | |]; simpl;
      auto using settled_stop, settled_undefined, settled_fuel.
    destruct (_ || _)%bool; [apply settled_stop|].
    apply (W _ (cm_from_vec_unchecked p mk (repeat k n))). apply settled_cm_randomize.
  - unfold ba_new. settle. apply settled_ba_randomize.
  - unfold ba_new_from_graph. settle. apply settled_ba_randomize.
  - unfold dog_new. settle; [apply settled_dog_place|apply settled_dog_jitter|apply settled_dog_randomize].
Qed.
Print Assumptions C106_new.

(** The same with the probabilities in floating point arithmetic. *)
Theorem C106_float {T : Type} : forall p (e : er_c64 T) (s : sw_ensemble64 T) (w : ws_ensemble64 T) k,
  settled (erc64_randomize e) /\ settled (m_steps (erc64_m_step p) k e) /\
  settled (sw64_randomize p s) /\ settled (m_steps (sw64_m_step p) k s) /\
  settled (ws64_randomize p w).
Proof.
  intros p e s w k. repeat apply conj.
  - apply settled_erc64_randomize.
  - apply settled_m_steps. apply settled_erc64_step.
  - apply settled_sw64_randomize.
  - apply settled_m_steps. apply settled_sw64_step.
  - apply settled_ws64_randomize.
Qed.
Print Assumptions C106_float.

(** How many draws are used, where this does not depend on luck: [randomize] of the ensembles
    over all pairs takes one for each pair, that of [ErEnsembleM] one less than there are pairs; a
    Markov step takes two or three. *)
Theorem C106_counts {T : Type} : forall p (e : er_c T) (m : er_m T) (s : spacial T) k,
  (let n := vertex_count (erc_graph e) in uses (n * (n - 1) / 2) (erc_randomize e)) /\
  uses 3 (erc_m_step p e) /\
  uses (length (erm_all m) - 1) (erm_randomize p m) /\ uses 2 (erm_m_step p m) /\
  (let n := vertex_count (sp_graph s) in uses (n * (n - 1) / 2) (sp_randomize s)) /\
  uses 3 (sp_m_step p s) /\ uses (3 * k) (sp_m_steps_quiet p s k).
Proof.
  intros p e m s k. repeat apply conj.
  - apply uses_erc_randomize.
  - apply uses_erc_step.
  - apply uses_erm_randomize.
  - apply uses_erm_step.
  - apply uses_sp_randomize.
  - apply uses_sp_step.
  - apply uses_sp_steps.
Qed.
Print Assumptions C106_counts.

(** The small-world ensemble takes one draw for every edge, and one more if that one is at most the
    probability; a step takes one more before, for the edge. *)
Theorem C106_counts_small_world {T : Type} : forall p (e : sw_ensemble T),
  (forall rs e' rest, sw_randomize p e rs = Done (e', rest) ->
    exists dss, rs = concat dss ++ rest /\ length dss = 2 * vertex_count (sw_graph e) /\
      Forall (edge_draws (sw_r_prob e)) dss) /\
  (forall rs x rest, sw_m_step p e rs = Done (x, rest) ->
    exists r ds, rs = r :: ds ++ rest /\ edge_draws (sw_r_prob e) ds).
Proof. intros p e. split; [apply uses_sw_randomize|apply uses_sw_step]. Qed.
Print Assumptions C106_counts_small_world.

(** The configuration model shuffles its half edges until they fit, and draws two of them until
    they belong to two vertices. *)
Theorem C106_counts_config {T : Type} : forall p (e : config T),
  (forall rs e' rest, cm_randomize p e rs = Done (e', rest) ->
    exists k, 1 <= k /\ length rs = k * (length (cm_backup e) - 1) + length rest) /\
  (forall rs x rest, cm_m_step p e rs = Done (x, rest) ->
    exists k, 2 <= k /\ length rs = 2 * k + length rest).
Proof. intros p e. split; [apply uses_cm_randomize|apply uses_cm_step]. Qed.
Print Assumptions C106_counts_config.

(** The first shuffle of the half edges of two vertices with two each and two with one does not
    fit, the second does: ten draws of the thirteen are used, and the last three are left. *)
Example C106_example : exists e,
  cm_from_vec_unchecked (T := nat) Debug (fun i => i) [2; 2; 1; 1] [5; 4; 3; 2; 1; 0; 0; 0; 0; 0; 7; 8; 9] = Done (e, [7; 8; 9]).
Proof. vm_compute. eexists. reflexivity. Qed.

(** A panic is settled too: with a single half edge there is nothing to join it to. *)
Example C106_example_panic :
  cm_from_vec_unchecked (T := nat) Debug (fun i => i) [1; 1; 1] [0; 0; 5] = Panic.
Proof. vm_compute. reflexivity. Qed.
