(** Theorems about mixing steps, undoing and sorting. *)
From Verif Require Import Base BaseFacts Containers ContainerSpec ContainerFacts Graph GraphSpec GraphFacts GraphOps
  Rng RngFacts Markov EnsembleFacts ErC ErCSpec ErCFacts ErM ErMSpec ErMFacts Config ConfigSpec ConfigFacts ConfigRun ConfigStep
  ConfigRounds Sw SwSpec SwFacts SwChain SwConnect Sorting SessionSpec SessionFacts
  Properties_ErC Properties_ErM Properties_Config Properties_Sw.
From Coq Require Import QArith.
Local Open Scope nat_scope.

(** ** C93: at any time the steps not yet undone can be undone. *)

Theorem C93_er_c {T : Type} : forall p (e0 e : er_c T) l,
  simple_graph (erc_graph e0) ->
  session (erc_m_step p) (erc_undo_step p) (erc_undo_step_quiet p) erc_sort_adj e0 e l ->
  simple_graph (erc_graph e) /\
  recoverable (erc_undo_step p) (erc_undo_step_quiet p) erc_sort_adj erc_inverse erc_like e0 e l /\
  (l = [] -> erc_like e0 e).
Proof.
  intros p e0 e l W.
  apply (@session_recoverable _ _ _ (erc_m_step p) (erc_undo_step p) (erc_undo_step_quiet p) erc_sort_adj
    (fun e : er_c T => simple_graph (erc_graph e)) erc_like erc_inverse); auto.
  - apply erc_like_refl.
  - apply erc_like_trans.
  - intros s rs r s' rs' Ws Es. apply (erc_m_step_simple Ws Es).
  - intros s rs r s' rs' Ws Es h Wh Lh. destruct (erc_step_undo Ws Es Wh Lh) as (u & h' & Eu & G & W' & L').
    destruct (erc_step_undo_quiet Ws Es Wh Lh) as (h2 & E2 & _). exists u, h'. splits; auto.
    destruct (erc_m_step_cases Ws Es) as (_ & _ & H).
    destruct r as [|[a b]|[a b]|]; cbn in *; try tauto.
    + congruence.
    + apply bind_done in Eu as ([r g] & Er & Eu). rewrite Er in E2 |- *. cbn [bind] in *. destruct r; congruence.
    + apply bind_done in Eu as ([r g] & Er & Eu). rewrite Er in E2 |- *. cbn [bind] in *. destruct r; congruence.
  - apply erc_sort_ok.
Qed.
Print Assumptions C93_er_c.

Theorem C93_er_m {T : Type} : forall p n m (e0 e : er_m T) l,
  erm_ok n m e0 ->
  session (erm_m_step p) (erm_undo_step p) (erm_undo_step_quiet p) erm_sort_adj e0 e l ->
  erm_ok n m e /\
  recoverable (erm_undo_step p) (erm_undo_step_quiet p) erm_sort_adj
    (fun s u => u = esm_inverted s) erm_like e0 e l /\
  (l = [] -> erm_like e0 e).
Proof.
  intros p n m e0 e l W.
  apply (@session_recoverable _ _ _ (erm_m_step p) (erm_undo_step p) (erm_undo_step_quiet p) erm_sort_adj
    (erm_ok n m) erm_like (fun s u => u = esm_inverted s)); auto.
  - apply SessionFacts.erm_like_refl.
  - apply erm_like_trans.
  - intros s rs r s' rs' Ws Es. apply (erm_m_step_spec Ws Es).
  - intros s rs r s' rs' Ws Es h Wh Lh. destruct (erm_step_undo Ws Es Wh Lh) as (u & h' & Eu & G & W' & L').
    exists u, h'. splits; auto. unfold erm_undo_step in Eu. cbv zeta in Eu.
    apply bind_done in Eu as (h1 & E1 & E2). unfold erm_undo_step_quiet. congruence.
  - apply erm_sort_ok.
Qed.
Print Assumptions C93_er_m.

Theorem C93_config {T : Type} : forall p v (e0 e : config T) l,
  cm_ok v e0 ->
  session (cm_m_step p) (cm_undo_step p) (cm_undo_step_quiet p) cm_sort_adj e0 e l ->
  cm_ok v e /\
  recoverable (cm_undo_step p) (cm_undo_step_quiet p) cm_sort_adj (fun _ u => u = Ok tt) cm_like e0 e l /\
  (l = [] -> cm_like e0 e).
Proof.
  intros p v e0 e l W.
  apply (@session_recoverable _ _ _ (cm_m_step p) (cm_undo_step p) (cm_undo_step_quiet p) cm_sort_adj
    (cm_ok v) cm_like (fun _ u => u = Ok tt)); auto.
  - apply SessionFacts.cm_like_refl.
  - apply cm_like_trans.
  - intros s rs r s' rs' Ws Es. apply (step_done Ws Es).
  - intros s rs r s' rs' Ws Es h Wh Lh. destruct (step_undo Ws Es Wh Lh) as (h' & E1 & E2 & W' & L').
    exists (Ok tt), h'. auto.
  - apply cm_sort_ok.
Qed.
Print Assumptions C93_config.

Theorem C93_small_world {T : Type} : forall p n (e0 e : sw_ensemble T) l,
  sw_ok n 2 (sw_graph e0) ->
  session (sw_m_step p) (sw_undo_step p) (sw_undo_step_quiet p) sw_sort_adj e0 e l ->
  sw_ok n 2 (sw_graph e) /\
  recoverable (sw_undo_step p) (sw_undo_step_quiet p) sw_sort_adj sw_inverse sw_like e0 e l /\
  (l = [] -> sw_like e0 e).
Proof.
  intros p n e0 e l W Se. apply sw_ok_inv in W.
  destruct (@session_recoverable _ _ _ (sw_m_step p) (sw_undo_step p) (sw_undo_step_quiet p) sw_sort_adj
    (fun e : sw_ensemble T => sw_inv n 2 (sw_graph e)) sw_like sw_inverse) with (e0 := e0) (e := e) (l := l) as [I R]; auto.
  - apply sw_like_refl.
  - apply sw_like_trans.
  - intros s rs r s' rs' I Es. pose proof (m_step_spec p rs I (m_step_pos I Es)) as S.
    rewrite Es in S. destruct S as (i0 & i1 & _ & C & Q). apply (changed_inv I C).
  - intros s rs r s' rs' I Es h Wh Lh. pose proof (m_step_spec p rs I (m_step_pos I Es)) as S.
    rewrite Es in S. destruct S as (i0 & i1 & _ & C & Q).
    destruct (undo_changed p I C Q Wh Lh) as (u & h' & A1 & A2 & A3 & A4 & A5 & _). exists u, h'. auto.
  - apply sw_sort_ok.
  - split; auto. apply sw_ok_inv, I.
Qed.
Print Assumptions C93_small_world.

(** In the two Erdős–Rényi ensembles the order of the neighbours has no influence on the steps. *)

Theorem C93_er_c_same_steps {T : Type} : forall p,
  same_steps (erc_m_step p) (fun e : er_c T => simple_graph (erc_graph e)) erc_like.
Proof.
  intros p. apply steps_alike.
  - intros s rs r s' rs' Ws Es. apply (erc_m_step_simple Ws Es).
  - intros e f rs r e' rs'. apply erc_step_alike.
Qed.
Print Assumptions C93_er_c_same_steps.

Theorem C93_er_m_same_steps {T : Type} : forall p n m,
  same_steps (erm_m_step p) (fun e : er_m T => erm_ok n m e) erm_like.
Proof.
  intros p n m. apply steps_alike.
  - intros s rs r s' rs' Ws Es. apply (erm_m_step_spec Ws Es).
  - intros e f rs r e' rs'. apply erm_step_alike.
Qed.
Print Assumptions C93_er_m_same_steps.

(** Randomizing forgets the order: the results are equal, not only up to order. *)
Theorem C93_randomize {T : Type} : forall p rs,
  (forall e f : er_c T, simple_graph (erc_graph e) -> simple_graph (erc_graph f) -> erc_like e f ->
     erc_randomize f rs = erc_randomize e rs) /\
  (forall e f : er_m T, simple_graph (erm_graph e) -> simple_graph (erm_graph f) -> erm_like e f ->
     erm_randomize p f rs = erm_randomize p e rs) /\
  (forall e f : config T, simple_graph (cm_graph e) -> simple_graph (cm_graph f) -> cm_like e f ->
     cm_randomize p f rs = cm_randomize p e rs).
Proof.
  intros p rs. splits.
  - intros e f We Wf ((_ & _ & P & _) & E1 & E2). unfold erc_randomize.
    rewrite (cleared_same We Wf P), E1, E2. reflexivity.
  - intros e f We Wf ((_ & _ & P & _) & E1 & E2 & E3 & E4). unfold erm_randomize.
    rewrite (cleared_same We Wf P), E1, E2, E3, E4. reflexivity.
  - intros e f We Wf ((_ & _ & P & _) & E1 & E2 & E3). unfold cm_randomize.
    rewrite (cleared_same We Wf P), E1, E3. reflexivity.
Qed.
Print Assumptions C93_randomize.

(** A ring with seven vertices; one step away from it; the same, sorted. *)
Definition ex_ses0 : sw_ensemble nat :=
  match sw_new Debug (fun i => i) 7 0 (repeat 1 14) with
  | Done (e, _) => e | _ => mk_swe (graph_new (fun i => i) 0) 0
  end.
Definition ex_ses1 : sw_ensemble nat :=
  match sw_m_step Debug ex_ses0 [0; 0; 3] with Done (_, e, _) => e | _ => ex_ses0 end.
Definition ex_ses2 : sw_ensemble nat :=
  match sw_sort_adj ex_ses1 with Done e => e | _ => ex_ses0 end.

Lemma ex_ses_history : sw_history Debug 7 ex_ses0 /\ sw_history Debug 7 ex_ses1.
Proof.
  assert (E : sw_new Debug (fun i => i) 7 0 (repeat 1 14) = Done (ex_ses0, [])) by (vm_compute; reflexivity).
  assert (E1 : sw_m_step Debug ex_ses0 [0; 0; 3] = Done (Sw_Rewire 0 1 4, ex_ses1, [])) by (vm_compute; reflexivity).
  split; [eapply swh_new; exact E|]. eapply swh_step; [eapply swh_new; exact E|exact E1].
Qed.

(** In the other two a step draws an edge by its place in a list of neighbours: after sorting, the
    same draws can make another step. *)
Theorem C93_config_order_refuted : exists v (e f : config nat) rs,
  cm_history Debug v e /\ cm_sort_adj e = Done f /\ cm_like e f /\
  exists s t e' f' rs', cm_m_step Debug e rs = Done (s, e', rs') /\
    cm_m_step Debug f rs = Done (t, f', rs') /\ s <> t /\
    ~ same_topology (cm_graph e') (cm_graph f').
Proof.
  set (r := cm_from_vec Debug (fun i : nat => i) [1; 1; 1; 1; 2] [1; 0; 0; 0; 0]).
  assert (H : exists e, r = Done (Some (e, []))) by (eexists; vm_compute; reflexivity).
  destruct H as [e E]. pose proof E as E0. exists [1; 1; 1; 1; 2], e.
  assert (Hh : cm_history Debug [1; 1; 1; 1; 2] e) by (eapply cmh_from_vec; exact E).
  destruct (cm_sort_ok (proj1 (C48_history _ _ _ Hh))) as (f & Ef & Of & Lf).
  exists f, [0; 0; 0; 0]. splits; auto.
  vm_compute in E. injection E as <-. vm_compute in Ef. injection Ef as <-.
  do 5 eexists. split; [vm_compute; reflexivity|]. split; [vm_compute; reflexivity|].
  split; [discriminate|]. intros (_ & _ & _ & P). specialize (P 3). vm_compute in P.
  apply Permutation_length_1 in P. discriminate.
Qed.
Print Assumptions C93_config_order_refuted.

Theorem C93_small_world_order_refuted : exists (e f : sw_ensemble nat) rs,
  sw_history Debug 7 e /\ sw_sort_adj e = Done f /\ sw_like e f /\
  exists s t e' f' rs', sw_m_step Debug e rs = Done (s, e', rs') /\
    sw_m_step Debug f rs = Done (t, f', rs') /\ s <> t /\
    ~ same_topology (sw_graph e') (sw_graph f').
Proof.
  exists ex_ses1, ex_ses2, [0; 0; 2]. destruct ex_ses_history as [_ H].
  assert (O : sw_inv 7 2 (sw_graph ex_ses1)) by (refine (sw_history_inv _ H); lia).
  destruct (sw_sort_ok O) as (f & Ef & _ & Lf).
  assert (f = ex_ses2) as -> by (unfold ex_ses2; rewrite Ef; reflexivity).
  splits; auto.
  do 5 eexists. split; [vm_compute; reflexivity|]. split; [vm_compute; reflexivity|].
  split; [discriminate|]. intros (_ & _ & _ & P). specialize (P 2). vm_compute in P.
  apply Permutation_length in P. discriminate.
Qed.
Print Assumptions C93_small_world_order_refuted.

(** A step, sorting, a second step, undoing that one quietly: the first one is left. *)
Example C93_case : sw_ok 7 2 (sw_graph ex_ses0) /\
  (exists e, session (sw_m_step Debug) (sw_undo_step Debug) (sw_undo_step_quiet Debug) sw_sort_adj
    ex_ses0 e [Sw_Rewire 0 1 4]) /\
  nbrs (sw_graph ex_ses0) 0 = [1; 2; 5; 6] /\ nbrs (sw_graph ex_ses1) 0 = [4; 2; 5; 6] /\
  nbrs (sw_graph ex_ses2) 0 = [2; 4; 5; 6].
Proof.
  destruct ex_ses_history as [H _]. split; [|split; [|vm_compute; auto]].
  - refine (C40_history _ _ _ _ H); lia.
  - eexists.
    eapply ses_undo_quiet with (r := Sw_Rewire 0 2 3).
    + eapply ses_step with (rs := [0; 0; 2]).
      * eapply ses_sort with (e := ex_ses1).
        -- eapply ses_step with (rs := [0; 0; 3]); [apply ses_start|]. vm_compute. reflexivity.
        -- instantiate (1 := ex_ses2). vm_compute. reflexivity.
      * vm_compute. reflexivity.
    + vm_compute. reflexivity.
Qed.
