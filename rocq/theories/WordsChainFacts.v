(** Chains of Markov steps and constructors on the words of the generator. *)
From Verif Require Import Base BaseFacts Sums Containers ContainerSpec ContainerFacts Graph GraphSpec GraphFacts GraphOps GraphBuild Rng RngFacts Runs Markov EnsembleFacts ErC ErCFacts ErM ErMSpec ErMFacts Sw SwSpec SwFacts SwChain Ws Ba BaSpec BaFacts Config ConfigSpec ConfigFacts ConfigStep Spacial SpacialFacts Words WordsMore WordsChain WordsSpec WordsFacts WordsMoreFacts BaWords OrderSpec OrderFacts OrderRuns.
From Coq Require Import NArith QArith.
Set Implicit Arguments.
Unset Strict Implicit.
Local Open Scope nat_scope.

Section Chains.
Context {E R : Type} (w : E -> list N -> outcome (R * E * list N)) (f : E -> list nat -> outcome (R * E * list nat)).

Definition ordered_m_steps (O : forall s, ordered (w s) (f s)) k : forall s, ordered (w_m_steps w k s) (m_steps f k s).
Proof.
  induction k as [|k IH]; intros s; [apply (ordered_done ([] : list R, s))|].
  eapply ordered_ext; [| |apply (ordered_bind (O s) (fun x : R * E => ordered_bind (IH (snd x))
    (fun y : list R * E => ordered_done (fst x :: fst y, snd y))))].
  - intros ws. cbn [w_m_steps]. destruct (w s ws) as [[[r s1] t]| | |]; cbn [bind fst snd]; auto.
    destruct (w_m_steps w k s1 t) as [[[]]| | |]; reflexivity.
  - intros rs. cbn [m_steps]. destruct (f s rs) as [[[r s1] t]| | |]; cbn [bind fst snd]; auto.
    destruct (m_steps f k s1 t) as [[[]]| | |]; reflexivity.
Defined.

Lemma same_m_steps (P : E -> Prop) : (forall s, P s -> same_runs (w s) (f s)) ->
  (forall s rs r s' rs', P s -> f s rs = Done (r, s', rs') -> P s') ->
  forall k s, P s -> same_runs (w_m_steps w k s) (m_steps f k s).
Proof.
  intros A K. induction k as [|k IH]; intros s H; [apply (same_done ([] : list R, s))|].
  eapply same_ext; [| |apply (same_bind_if (P := fun x : R * E => P (snd x)) (A s H)
    (kw := fun x ws => do ' (y, t) <- w_m_steps w k (snd x) ws; Done ((fst x :: fst y, snd y), t))
    (kf := fun x ws => do ' (y, t) <- m_steps f k (snd x) ws; Done ((fst x :: fst y, snd y), t)))].
  - intros ws. cbn [w_m_steps]. destruct (w s ws) as [[[r s1] t]| | |]; cbn [bind fst snd]; auto.
    destruct (w_m_steps w k s1 t) as [[[]]| | |]; reflexivity.
  - intros rs. cbn [m_steps]. destruct (f s rs) as [[[r s1] t]| | |]; cbn [bind fst snd]; auto.
    destruct (m_steps f k s1 t) as [[[]]| | |]; reflexivity.
  - intros rs [r s1] rest Es. cbn [snd]. eauto.
  - intros [r s1] H1. cbn [snd fst] in *. apply same_bind; auto. intros [l s2]. apply same_done.
Qed.
End Chains.

Section Ensembles.
Context {T : Type}.

Lemma same_erc_chain p k (e : er_c T) : simple_graph (erc_graph e) -> (N.of_nat (vertex_count (erc_graph e)) < 2 ^ 64)%N ->
  same_runs (w_m_steps (w_erc_m_step p) k e) (m_steps (erc_m_step p) k e).
Proof.
  intros W H.
  apply same_m_steps with (P := fun s : er_c T => simple_graph (erc_graph s) /\ (N.of_nat (vertex_count (erc_graph s)) < 2 ^ 64)%N); auto.
  - intros s [_ A]. apply same_erc_m_step, A.
  - intros s rs r s' rs' [A B] Es. split; [exact (erc_m_step_simple A Es)|].
    destruct (erc_m_step_cases A Es) as (_ & _ & C). destruct r as [|[a b]|[a b]|]; subst; auto; try tauto.
    + destruct (add_edge_ok A C) as (_ & _ & -> & _). exact B.
    + destruct (remove_edge_ok A C) as (_ & _ & -> & _). exact B.
Qed.

Lemma same_sp_chain p k (e : spacial T) : simple_graph (sp_graph e) -> (N.of_nat (vertex_count (sp_graph e)) < 2 ^ 64)%N ->
  same_runs (w_m_steps (w_sp_m_step p) k e) (m_steps (sp_m_step p) k e).
Proof.
  intros W H.
  apply same_m_steps with (P := fun s : spacial T => simple_graph (sp_graph s) /\ (N.of_nat (vertex_count (sp_graph s)) < 2 ^ 64)%N); auto.
  - intros s [_ A]. apply same_sp_m_step, A.
  - intros s rs r s' rs' [A B] Es. split; [exact (sp_m_step_simple A Es)|].
    destruct (sp_m_step_cases A Es) as (_ & _ & C). destruct r as [|[a b]|[a b]|]; subst; auto; try tauto.
    + destruct (add_edge_ok A C) as (_ & _ & -> & _). exact B.
    + destruct (remove_edge_ok A C) as (_ & _ & -> & _). exact B.
Qed.

Lemma same_erm_chain p k n m (e : er_m T) : erm_ok n m e -> (N.of_nat (Nat.div (n * (n - 1)) 2) < 2 ^ 64)%N ->
  same_runs (w_m_steps (w_erm_m_step p) k e) (m_steps (erm_m_step p) k e).
Proof.
  intros O H. apply same_m_steps with (P := fun s : er_m T => erm_ok n m s); auto.
  - intros s A. destruct (erm_ok_lengths A) as (L1 & L2 & L3). rewrite <- L3 in H. apply same_erm_m_step; lia.
  - intros s rs r s' rs' A Es. apply (erm_m_step_spec A Es).
Qed.

Lemma same_sw_chain p k n (e : sw_ensemble T) : sw_ok n 2 (sw_graph e) -> (N.of_nat (n * 2) < 2 ^ 64)%N ->
  same_runs (w_m_steps (w_sw_m_step p) k e) (m_steps (sw_m_step p) k e).
Proof.
  intros O H. apply sw_ok_inv in O.
  apply same_m_steps with (P := fun s : sw_ensemble T => sw_inv n 2 (sw_graph s)); auto.
  - intros s (_ & V & Ec & _). apply same_sw_m_step; rewrite ?V, ?Ec; lia.
  - intros s rs r s' rs' I Es. pose proof (m_step_spec p rs I (m_step_pos I Es)) as G.
    rewrite Es in G. destruct G as (i0 & i1 & _ & C & _). apply (changed_inv I C).
Qed.

Lemma same_cm_chain p k v (e : config T) : cm_ok v e -> (N.of_nat (length (cm_backup e)) < 2 ^ 32)%N ->
  same_runs (w_m_steps (w_cm_m_step p) k e) (m_steps (cm_m_step p) k e).
Proof.
  intros O H.
  apply same_m_steps with (P := fun s : config T => cm_ok v s /\ (N.of_nat (length (cm_backup s)) < 2 ^ 32)%N); auto.
  - intros s [A B]. apply same_cm_m_step; auto. intros c Hc. apply In_nth_error in Hc as (i & Ei).
    destruct (co_degrees A) as (_ & D). specialize (D i). rewrite (nbrs_nth Ei), <- (co_backup A i) in D.
    cbn in D. rewrite D. pose proof (count_occ_bound Nat.eq_dec i (cm_backup s)).
    change (2 ^ 32)%N with 4294967296%N in B. change (2 ^ 64)%N with 18446744073709551616%N. lia.
  - intros s rs r s' rs' [A B] Es.
    destruct (Nat.eq_dec (edge_count (cm_graph s)) 0) as [Z|Z].
    { rewrite (step_no_edges p rs A Z) in Es. discriminate Es. }
    pose proof (step_runs True p A ltac:(lia) rs) as G. cbv beta in G. rewrite Es in G.
    destruct G as ((A1 & A2) & _). cbn [fst snd] in A1, A2. split; auto. unfold step_effect in A2. destruct r as [|[a b] [c d]]; [cbv iota in A2; subst s'; exact B|].
    destruct A2 as (_ & _ & _ & _ & _ & _ & _ & _ & _ & _ & ->). exact B.
Qed.

(** ** Constructors *)

Lemma complete_edges p (mk : nat -> T) s g : 2 <= s -> complete_graph p mk s = Done g ->
  edge_count g = Nat.div (s * (s - 1)) 2.
Proof.
  intros H E. unfold complete_graph in E. destruct s as [|s]; [lia|].
  destruct p; cbv zeta iota in E; apply (f_equal (fun o => match o with Done g => edge_count g | _ => 0 end)) in E; symmetry; exact E.
Qed.

Lemma same_ba_new p (mk : nat -> T) n m s : (N.of_nat n < 2 ^ 64)%N ->
  (N.of_nat (2 * (Nat.div (s * (s - 1)) 2 + m * n)) < 2 ^ 64)%N ->
  same_runs (w_ba_new p mk n m s) (ba_new p mk n m s).
Proof.
  intros Hn Hm. unfold w_ba_new, ba_new. destruct (Nat.leb_spec 2 s) as [A|A]; [|apply same_stop].
  destruct (Nat.ltb_spec s n) as [B|B]; [|apply same_stop]. cbn [negb].
  apply same_pure_if with (P := fun g => complete_graph p mk s = Done g); auto. intros g Eg.
  destruct (new_ready m A B Eg) as (Re & V). apply (same_ba_randomize p Re); auto. cbn [ba_source].
  rewrite (complete_edges A Eg). exact Hm.
Qed.

Lemma same_ba_source p (mk : nat -> T) n m (src : graph (node_container T)) : simple_graph src ->
  (forall i, i < vertex_count src -> nbrs src i <> []) -> 0 < vertex_count src < n -> (N.of_nat n < 2 ^ 64)%N ->
  (N.of_nat (2 * (edge_count src + m * n)) < 2 ^ 64)%N ->
  same_runs (fun ws => do g <- ba_copy (graph_new mk n) src; w_ba_randomize p (mk_ba src g m (repeat 0 n)) ws)
    (fun rs => do g <- ba_copy (graph_new mk n) src; ba_randomize p (mk_ba src g m (repeat 0 n)) rs).
Proof.
  intros W D Hv Hn Hm. apply same_pure_if with (P := fun g => ba_copy (graph_new mk n) src = Done g); auto.
  intros g Eg. apply (same_ba_randomize p (proj1 (copy_ready m W D Hv Eg))); auto.
Qed.

Lemma same_ba_from_graph p (mk : nat -> T) n m (src : graph (node_container T)) : simple_graph src ->
  0 < vertex_count src -> (N.of_nat n < 2 ^ 64)%N -> (N.of_nat (2 * (edge_count src + m * n)) < 2 ^ 64)%N ->
  same_runs (w_ba_new_from_graph p mk n m src) (ba_new_from_graph p mk n m src).
Proof.
  intros W Hv Hn Hm. unfold w_ba_new_from_graph, ba_new_from_graph.
  destruct (forallb _ (vertices src)) eqn:D; [|apply same_stop].
  rewrite (no_isolated W) in D. destruct (Nat.ltb_spec (vertex_count src) n); [|apply same_stop]. cbn [negb].
  apply same_ba_source; auto.
Qed.

Lemma same_ba_from_generic {A} {C : AdjContainer T A} {L : AdjLaws C} p (mk : nat -> T) n m (src : graph A) : simple_graph src ->
  0 < vertex_count src -> (N.of_nat n < 2 ^ 64)%N -> (N.of_nat (2 * (edge_count src + m * n)) < 2 ^ 64)%N ->
  same_runs (w_ba_new_from_generic_graph p mk n m src) (ba_new_from_generic_graph p mk n m src).
Proof.
  intros W Hv Hn Hm. unfold w_ba_new_from_generic_graph, ba_new_from_generic_graph.
  destruct (forallb _ (vertices src)) eqn:D; [|apply same_stop].
  rewrite (no_isolated W) in D. destruct (Nat.ltb_spec (vertex_count src) n); [|apply same_stop]. cbn [negb].
  destruct (graph_from_spec W) as (W' & V' & Ec' & _ & N'). apply same_ba_source; auto; try lia.
  intros i Hi. rewrite N'. apply D. lia.
Qed.

Lemma list_sum_repeat c k : list_sum (repeat c k) = k * c.
Proof.
  induction k as [|k IH]; auto. cbn [repeat]. change (list_sum (c :: repeat c k)) with (c + list_sum (repeat c k)). lia.
Qed.

Lemma same_cm_unchecked p (mk : nat -> T) v : (N.of_nat (list_sum v) < 2 ^ 64)%N ->
  same_runs (w_cm_from_vec_unchecked p mk v) (cm_from_vec_unchecked p mk v).
Proof. intros H. apply same_cm_randomize. cbn [cm_backup]. rewrite edge_halfs_length. exact H. Qed.

Definition ordered_ba_new p (mk : nat -> T) n m s : ordered (w_ba_new p mk n m s) (ba_new p mk n m s).
Proof. unfold w_ba_new, ba_new. order. apply ordered_ba_randomize. Defined.
Definition ordered_ba_from_graph p (mk : nat -> T) n m src : ordered (w_ba_new_from_graph p mk n m src) (ba_new_from_graph p mk n m src).
Proof. unfold w_ba_new_from_graph, ba_new_from_graph. order. apply ordered_ba_randomize. Defined.
Definition ordered_ba_from_generic {A} {C : AdjContainer T A} p (mk : nat -> T) n m (src : graph A) :
  ordered (w_ba_new_from_generic_graph p mk n m src) (ba_new_from_generic_graph p mk n m src).
Proof. unfold w_ba_new_from_generic_graph, ba_new_from_generic_graph. order. apply ordered_ba_randomize. Defined.
Definition ordered_cm_unchecked p (mk : nat -> T) v : ordered (w_cm_from_vec_unchecked p mk v) (cm_from_vec_unchecked p mk v).
Proof. apply ordered_cm_randomize. Defined.

End Ensembles.
