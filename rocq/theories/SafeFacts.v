(** Memory safety: programs of the ensembles never do anything undefined. *)
From Verif Require Import Base BaseFacts Containers ContainerSpec ContainerFacts Graph GraphSpec GraphFacts GraphOps GraphBuild Traversal Components Rng RngFacts Runs ErC ErCFacts ErM ErMSpec ErMFacts Sw Ws Config ConfigSpec ConfigFacts Ba BaSpec BaFacts Spacial SpacialFacts SafeSpec.
From Coq Require Import QArith.
Set Implicit Arguments.
Unset Strict Implicit.
Local Open Scope nat_scope.

(** ** The logic *)

Lemma safe_done {X} (P : X -> Prop) x : P x -> safe P (Done x).
Proof. intros H. split; [discriminate|]. intros y E. injection E as <-. auto. Qed.

Lemma safe_panic {X} (P : X -> Prop) : safe P Panic.
Proof. split; discriminate. Qed.

Lemma safe_nofuel {X} (P : X -> Prop) : safe P NoFuel.
Proof. split; discriminate. Qed.

Lemma safe_bind {X Y} (P : X -> Prop) (Q : Y -> Prop) m k :
  safe P m -> (forall x, P x -> safe Q (k x)) -> safe Q (bind m k).
Proof.
  intros [N H] K. destruct m as [x| | |]; cbn [bind]; [auto|apply safe_panic|congruence|apply safe_nofuel].
Qed.

Lemma safe_weaken {X} (P Q : X -> Prop) m : (forall x, P x -> Q x) -> safe P m -> safe Q m.
Proof. intros I [N H]. split; auto. Qed.

Lemma safe_foldM {X S} (P : S -> Prop) (f : S -> X -> outcome S) l :
  (forall s x, In x l -> P s -> safe P (f s x)) -> forall s, P s -> safe P (foldM f s l).
Proof.
  induction l as [|x l IH]; intros H s Hs; cbn [foldM]; [apply safe_done; auto|].
  apply (@safe_bind _ _ P); [apply H; cbn; auto|]. intros s' Hs'. apply IH; auto.
  intros; apply H; cbn; auto.
Qed.

Lemma safe_loop {St X} (P : St -> Prop) (Q : X -> Prop) (body : St -> rng -> outcome ((St + X) * rng)) :
  (forall s rs, P s -> safe (fun r => match fst r with inl s' => P s' | inr x => Q x end) (body s rs)) ->
  forall fuel s rs, P s -> safe (fun r => Q (fst r)) (loop fuel body s rs).
Proof.
  intros H. induction fuel as [|f IH]; intros s rs Hs; cbn [loop]; [apply safe_nofuel|].
  eapply safe_bind; [apply H; auto|]. intros [[s'|x] rs1]; cbn [fst]; intros K; [apply IH; auto|apply safe_done; auto].
Qed.

Lemma safe_drain {S I} (next : S -> outcome (option (I * S))) :
  (forall s, safe (fun _ => True) (next s)) -> forall fuel s, safe (fun _ => True) (drain next fuel s).
Proof.
  intros H. induction fuel as [|f IH]; intros s; cbn [drain]; [apply safe_nofuel|].
  eapply safe_bind; [apply H|]. intros [[i s']|] _; [|apply safe_done; auto].
  eapply safe_bind; [apply IH|]. intros t _. apply safe_done; auto.
Qed.

Lemma safe_runs {X} live (P : X -> Prop) m rs : runs live P m -> safe (fun r => P (fst r)) (m rs).
Proof.
  intros H. specialize (H rs). destruct (m rs) as [[x rs']| | |] eqn:E.
  - apply safe_done. cbn. apply H.
  - destruct H.
  - destruct H.
  - apply safe_nofuel.
Qed.

Lemma safe_vget {X} (l : list X) i : safe (fun x => nth_error l i = Some x) (vget l i).
Proof. unfold vget. destruct (nth_error l i) eqn:E; [apply safe_done; auto|apply safe_panic]. Qed.

Lemma safe_vset {X} (l : list X) i x : safe (fun l' => l' = upd l i x /\ i < length l) (vset l i x).
Proof. unfold vset. destruct (Nat.ltb_spec i (length l)); [apply safe_done; auto|apply safe_panic]. Qed.

Lemma safe_expect {X} (o : option X) : safe (fun x => o = Some x) (expect o).
Proof. destruct o; [apply safe_done; auto|apply safe_panic]. Qed.

Lemma safe_unwrap {X E} (r : result X E) : safe (fun x => r = Ok x) (unwrap r).
Proof. destruct r; [apply safe_done; auto|apply safe_panic]. Qed.

Lemma safe_usub p a b : safe (fun r => b <= a -> r = a - b) (usub p a b).
Proof.
  unfold usub. destruct (Nat.leb_spec b a); [apply safe_done; auto|].
  destruct p; [apply safe_panic|apply safe_done; lia].
Qed.

Lemma safe_gen_range high rs : safe (fun r => fst r < high) (gen_range high rs).
Proof.
  split; [apply gen_range_no_ub|]. intros [x rs'] E. apply gen_range_done in E as [H _]. auto.
Qed.

Lemma safe_gen_f64 rs : safe (fun _ => True) (gen_f64 rs).
Proof. unfold gen_f64, draw. destruct rs; [apply safe_nofuel|apply safe_done; auto]. Qed.

Lemma safe_swap {X} (l : list X) i j : safe (fun l' => Permutation l l') (swap l i j).
Proof.
  split.
  - unfold swap, vget. destruct (nth_error l i); [|discriminate]. destruct (nth_error l j); discriminate.
  - intros l' E. assert (H : i < length l /\ j < length l).
    { unfold swap, vget in E. destruct (nth_error l i) eqn:Ei; [|discriminate].
      destruct (nth_error l j) eqn:Ej; [|discriminate]. split; eapply nth_error_lt; eauto. }
    destruct (swap_done (proj1 H) (proj2 H)) as (l2 & E2 & _ & P & _). congruence.
Qed.

Lemma safe_shuffle_down {X} k : forall (l : list X) rs, safe (fun r => Permutation l (fst r)) (shuffle_down k l rs).
Proof.
  induction k as [|k IH]; intros l rs; [apply safe_done; auto|]. cbn [shuffle_down].
  destruct k as [|k]; [apply safe_done; auto|].
  eapply safe_bind; [apply safe_gen_range|]. intros [j t] _.
  eapply safe_bind; [apply safe_swap|]. intros l' P. eapply safe_weaken; [|apply IH].
  intros r Q. eapply perm_trans; eauto.
Qed.

Lemma safe_shuffle {X} (l : list X) rs : safe (fun r => Permutation l (fst r)) (shuffle l rs).
Proof. apply safe_shuffle_down. Qed.

Lemma safe_choose {X} (l : list X) rs : safe (fun r => In (fst r) l) (choose_unwrap l rs).
Proof.
  unfold choose_unwrap. eapply safe_bind; [apply safe_gen_range|]. intros [k rs1] _.
  eapply safe_bind; [apply safe_vget|]. intros x E. apply safe_done. exact (nth_error_In _ _ E).
Qed.

Lemma safe_draw_two p high rs :
  safe (fun r => apart high (fst r)) (draw_two_from_range p high rs).
Proof.
  split.
  - unfold draw_two_from_range. eapply safe_bind with (Q := fun _ => True); [apply safe_gen_range|]. intros [x rs1] _.
    eapply safe_bind; [apply safe_usub|]. intros h _.
    eapply safe_bind; [apply safe_gen_range|]. intros [y rs2] _. destruct (y <? x); apply safe_done; auto.
  - intros [[a b] rs'] E. apply draw_two_spec in E. exact E.
Qed.

(** Leaves a function. *)
Ltac sret :=
  match goal with
  | |- safe _ Panic => apply safe_panic
  | |- safe _ NoFuel => apply safe_nofuel
  | |- safe _ (Done _) => apply safe_done; cbn; auto
  end.

(** ** Edges of a simple graph *)

(** A pair of vertices that may be given to [add_edge]. *)
Definition allowed (p : profile) (n : nat) (ij : nat * nat) : Prop := p = Release -> apart n ij.

Lemma apart_allowed p n ij : apart n ij -> allowed p n ij.
Proof. intros H _. auto. Qed.

Lemma apart_dec n i j : apart n (i, j) \/ ~ apart n (i, j).
Proof. unfold apart. cbn. lia. Qed.

Section Graph.
Context {T A : Type} {C : AdjContainer T A} {L : AdjLaws C}.
Implicit Types g : graph A.

Definition keeps n g : Prop := simple_graph g /\ vertex_count g = n.

Lemma add_edge_ub g i j : simple_graph g ->
  add_edge Release g i j = UB <-> ~ apart (vertex_count g) (i, j).
Proof.
  intros W. split.
  - intros E K. destruct K as (Hi & Hj & N). cbn [fst snd] in *.
    destruct (adj_dec g i j) as [H|H].
    + rewrite add_edge_present in E by auto. discriminate.
    + destruct (add_edge_absent Release W Hi Hj N H) as (g' & E' & _). congruence.
  - intros K. unfold add_edge. rewrite get_2_mut_bad_release; auto.
Qed.

Lemma remove_edge_ub g i j : simple_graph g ->
  remove_edge Release g i j = UB <-> ~ apart (vertex_count g) (i, j).
Proof.
  intros W. split.
  - intros E K. destruct K as (Hi & Hj & N). cbn [fst snd] in *.
    destruct (adj_dec g i j) as [H|H].
    + destruct (remove_edge_present Release W H) as (g' & E' & _). congruence.
    + rewrite remove_edge_absent in E by auto. discriminate.
  - intros K. unfold remove_edge. rewrite get_2_mut_bad_release; auto.
Qed.

Lemma safe_add_edge p n g i j : keeps n g -> allowed p n (i, j) ->
  safe (fun r => keeps n (snd r) /\ apart n (i, j) /\
     match fst r with
     | Ok _ => ~ adj g i j /\ forall x y, adj (snd r) x y <-> adj g x y \/ is_pair i j x y
     | Err _ => adj g i j /\ snd r = g
     end) (add_edge p g i j).
Proof.
  intros [W V] H. subst n. split.
  - destruct p; [|rewrite add_edge_ub by auto; intros K; apply K; auto].
    destruct (@apart_dec (vertex_count g) i j) as [K|K].
    + destruct K as (Hi & Hj & N). cbn in Hi, Hj, N. destruct (adj_dec g i j) as [A1|A1].
      * rewrite add_edge_present by auto. discriminate.
      * destruct (add_edge_absent Debug W Hi Hj N A1) as (g' & -> & _). discriminate.
    + unfold add_edge. rewrite get_2_mut_bad_debug by auto. discriminate.
  - intros [r g'] E. cbn [fst snd]. destruct (add_edge_range W E) as (Hi & Hj & N).
    destruct (add_edge_simple W E) as (W' & V' & _). split; [split; auto|]. split; [repeat split; cbn; auto|].
    destruct r as [[]|].
    + destruct (add_edge_ok W E) as (N0 & _ & _ & _ & _ & A1). exact (conj N0 A1).
    + destruct (adj_dec g i j) as [A1|A1].
      * rewrite add_edge_present in E by auto. injection E as <- <-. auto.
      * destruct (add_edge_absent p W Hi Hj N A1) as (g2 & E2 & _). congruence.
Qed.

Lemma safe_remove_edge p n g i j : keeps n g -> allowed p n (i, j) ->
  safe (fun r => keeps n (snd r) /\ apart n (i, j) /\
     match fst r with
     | Ok _ => adj g i j /\ forall x y, adj (snd r) x y <-> adj g x y /\ ~ is_pair i j x y
     | Err _ => ~ adj g i j /\ snd r = g
     end) (remove_edge p g i j).
Proof.
  intros [W V] H. subst n. split.
  - destruct p; [|rewrite remove_edge_ub by auto; intros K; apply K; auto].
    destruct (@apart_dec (vertex_count g) i j) as [K|K].
    + destruct K as (Hi & Hj & N). cbn in Hi, Hj, N. destruct (adj_dec g i j) as [A1|A1].
      * destruct (remove_edge_present Debug W A1) as (g' & -> & _). discriminate.
      * rewrite remove_edge_absent by auto. discriminate.
    + unfold remove_edge. rewrite get_2_mut_bad_debug by auto. discriminate.
  - intros [r g'] E. cbn [fst snd]. destruct (remove_edge_range W E) as (Hi & Hj & N).
    destruct (remove_edge_simple W E) as (W' & V' & _). split; [split; auto|]. split; [repeat split; cbn; auto|].
    destruct r as [[]|].
    + destruct (remove_edge_ok W E) as (N0 & _ & _ & _ & _ & A1). exact (conj N0 A1).
    + destruct (adj_dec g i j) as [A1|A1].
      * destruct (remove_edge_present p W A1) as (g2 & E2 & _). congruence.
      * rewrite remove_edge_absent in E by auto. injection E as <- <-. auto.
Qed.

Lemma safe_sort n g : keeps n g -> safe (keeps n) (sort_adj g).
Proof.
  intros [W V]. destruct (sort_adj_spec W) as (g' & -> & W' & (V' & _) & _). apply safe_done. split; congruence.
Qed.

Lemma safe_write n g i t : keeps n g -> safe (keeps n) (at_mut_set g i t).
Proof.
  intros [W V]. destruct (Nat.lt_ge_cases i (vertex_count g)) as [H|H].
  - destruct (at_mut_set_spec t W H) as (g' & -> & W' & V' & _). apply safe_done. split; congruence.
  - rewrite at_mut_set_out by auto. apply safe_panic.
Qed.

Lemma keeps_new mk n : keeps n (graph_new mk n).
Proof. destruct (@graph_new_spec T A C L mk n) as (W & V & _). split; auto. Qed.

Lemma keeps_clear n g : keeps n g -> keeps n (clear_edges g).
Proof. intros [W V]. destruct (clear_edges_spec W) as (W' & V' & _). split; congruence. Qed.

End Graph.

Lemma safe_program {E Call} (P : E -> Prop) (call : E -> Call -> rng -> outcome (E * rng)) l :
  (forall e c rs, In c l -> P e -> safe (fun r => P (fst r)) (call e c rs)) ->
  forall s, P (fst s) -> safe (fun r => P (fst r)) (program call s l).
Proof.
  intros H s Hs. unfold program. apply (@safe_foldM _ _ (fun s => P (fst s))); auto.
Qed.

Lemma careful_In {Call} (arguments : Call -> list (nat * nat)) p n l c ij :
  careful arguments p n l -> In c l -> In ij (arguments c) -> allowed p n ij.
Proof.
  intros H Hc Hij E. specialize (H E). rewrite Forall_forall in H. specialize (H c Hc).
  rewrite Forall_forall in H. auto.
Qed.

(** ** [ErEnsembleC] *)

Section ErC.
Context {T : Type}.

Lemma erc_randomize_short (e : er_c T) rs :
  simple_graph (erc_graph e) -> length rs < length (er_pairs (vertex_count (erc_graph e))) ->
  erc_randomize e rs = NoFuel.
Proof.
  intros W Len. unfold erc_randomize.
  destruct (clear_edges_spec W) as (W0 & V0 & C0 & P0 & N0). cbv zeta. rewrite V0.
  set (l := er_pairs (vertex_count (erc_graph e))) in *.
  set (a := firstn (length rs) l). set (b := skipn (length rs) l).
  assert (El : l = a ++ b) by (symmetry; apply firstn_skipn).
  destruct (@erc_loop_spec T (erc_prob e) a (clear_edges (erc_graph e)) rs) as (g' & E & W' & V' & _); auto.
  { intros i j H. assert (In (i, j) l) as H2 by (rewrite El; apply in_app_iff; auto).
    apply er_pairs_In in H2. splits; try (rewrite V0); try tauto. unfold adj. rewrite N0. auto. }
  { pose proof (er_pairs_NoDup (vertex_count (erc_graph e))) as ND. fold l in ND. rewrite El in ND.
    apply NoDup_app_iff in ND. tauto. }
  { unfold a. rewrite firstn_length. lia. }
  fold (@erc_loop T (erc_prob e)). rewrite El, foldM_app, E. cbn [bind].
  assert (La : length a = length rs) by (unfold a; rewrite firstn_length; lia).
  rewrite La, skipn_all. destruct b as [|[i j] b'] eqn:Eb; [|reflexivity].
  apply (f_equal (@length _)) in El. rewrite app_length in El. cbn in El. lia.
Qed.

Lemma safe_erc_randomize n (e : er_c T) rs : keeps n (erc_graph e) ->
  safe (fun r => keeps n (erc_graph (fst r))) (erc_randomize e rs).
Proof.
  intros [W V]. destruct (Nat.le_gt_cases (length (er_pairs (vertex_count (erc_graph e)))) (length rs)) as [H|H].
  - destruct (erc_randomize_spec W H) as (e' & -> & W' & V' & _). apply safe_done. cbn. split; congruence.
  - rewrite erc_randomize_short by auto. apply safe_nofuel.
Qed.

Lemma safe_erc_step p n (e : er_c T) rs : keeps n (erc_graph e) ->
  safe (fun r => keeps n (erc_graph (snd (fst r))) /\ Forall (apart n) (erc_names (fst (fst r)))) (erc_m_step p e rs).
Proof.
  intros K. unfold erc_m_step. rewrite (proj2 K). eapply safe_bind; [apply safe_draw_two|]. intros [[a b] rs1] Hab.
  eapply safe_bind; [apply safe_gen_f64|]. intros [x rs2] _. cbn [fst] in Hab. destruct (Qle_bool _ _).
  - eapply safe_bind; [apply (safe_add_edge K); apply apart_allowed; auto|].
    intros [[[]|] g] (K' & _); apply safe_done; cbn; auto.
  - eapply safe_bind; [apply (safe_remove_edge K); apply apart_allowed; auto|].
    intros [[[]|] g] (K' & _); apply safe_done; cbn; auto.
Qed.

Lemma safe_erc_undo p n (e : er_c T) s : keeps n (erc_graph e) -> (forall ij, In ij (erc_names s) -> allowed p n ij) ->
  safe (fun r => keeps n (erc_graph (snd r))) (erc_undo_step p e s) /\
  safe (fun e' => keeps n (erc_graph e')) (erc_undo_step_quiet p e s).
Proof.
  intros K H. destruct s as [|[a b]|[a b]|err]; unfold erc_undo_step, erc_undo_step_quiet; cbn [erc_names] in H.
  - split; apply safe_done; exact K.
  - specialize (H _ (or_introl eq_refl)). split; (eapply safe_bind; [apply (safe_remove_edge K H)|]);
      intros [[[]|] g] (K' & _); sret; try exact K'.
  - specialize (H _ (or_introl eq_refl)). split; (eapply safe_bind; [apply (safe_add_edge K H)|]);
      intros [[[]|] g] (K' & _); sret; try exact K'.
  - split; [apply safe_done; exact K|apply safe_panic].
Qed.

Lemma erc_undo_ub (e : er_c T) s : simple_graph (erc_graph e) ->
  (erc_undo_step Release e s = UB <-> ~ Forall (apart (vertex_count (erc_graph e))) (erc_names s)) /\
  (erc_undo_step_quiet Release e s = UB <-> ~ Forall (apart (vertex_count (erc_graph e))) (erc_names s)).
Proof.
  intros W. set (n := vertex_count (erc_graph e)). assert (K : keeps n (erc_graph e)) by (split; auto).
  assert (D : Forall (apart n) (erc_names s) \/ ~ Forall (apart n) (erc_names s)).
  { destruct s as [|[a b]|[a b]|err]; cbn; auto; destruct (@apart_dec n a b) as [H|H]; auto;
      right; intros F; apply H; inversion F; auto. }
  destruct D as [D|D].
  - destruct (@safe_erc_undo Release n e s K) as [[S1 _] [S2 _]].
    { intros ij Hij. apply apart_allowed. rewrite Forall_forall in D. auto. }
    split; split; intros; tauto.
  - split; split; auto; intros _; destruct s as [|[a b]|[a b]|err]; cbn [erc_names] in D;
      try (solve [destruct D; apply Forall_nil]); cbn [erc_undo_step erc_undo_step_quiet];
      first [rewrite (proj2 (@remove_edge_ub _ _ _ _ (erc_graph e) a b W))
            |rewrite (proj2 (@add_edge_ub _ _ _ _ (erc_graph e) a b W))]; auto; intros F; apply D; auto.
Qed.

Lemma safe_erc_connect p n (e : er_c T) : keeps n (erc_graph e) ->
  safe (fun e' => keeps n (erc_graph e')) (erc_make_connected p e).
Proof.
  intros [W V]. destruct (Nat.eq_dec n 0) as [Z|Z].
  - unfold erc_make_connected, suggest_connections. rewrite V, Z. cbn. apply safe_panic.
  - destruct (@erc_make_connected_spec T p e) as (e' & s & -> & _ & W' & _ & V' & _); auto; [lia|].
    apply safe_done. split; congruence.
Qed.

Lemma safe_erc_probability p n c : safe (fun _ => True) (erc_probability p n c).
Proof. unfold erc_probability. eapply safe_bind; [apply safe_usub|]. intros; apply safe_done; auto. Qed.

Lemma safe_erc_do p n (e : er_c T) c rs : keeps n (erc_graph e) ->
  (forall ij, In ij (erc_arguments c) -> allowed p n ij) ->
  safe (fun r => keeps n (erc_graph (fst r))) (erc_do p e c rs).
Proof.
  intros K H. destruct c as [| |s|s| |q| |i t]; cbn [erc_do erc_arguments] in *.
  - apply safe_erc_randomize; auto.
  - eapply safe_bind; [apply (@safe_erc_step p n); auto|]. intros [[s e'] rs'] [K' _]. apply safe_done; auto.
  - eapply safe_bind; [apply (safe_erc_undo K H)|]. intros [s' e'] K'. apply safe_done; auto.
  - eapply safe_bind; [apply (safe_erc_undo K H)|]. intros e' K'. apply safe_done; auto.
  - eapply safe_bind; [apply (safe_erc_connect p K)|]. intros e' K'. apply safe_done; auto.
  - unfold erc_set_target_connectivity. eapply safe_bind with (P := fun e' => keeps n (erc_graph e')).
    + eapply safe_bind; [apply safe_erc_probability|]. intros; apply safe_done; auto.
    + intros e' K'. apply safe_done; auto.
  - eapply safe_bind; [apply (safe_sort K)|]. intros e' K'. apply safe_done; auto.
  - eapply safe_bind; [apply (safe_write i t K)|]. intros e' K'. apply safe_done; auto.
Qed.

Lemma safe_erc p (mk : nat -> T) n c rs l : careful erc_arguments p n l ->
  safe (fun r => keeps n (erc_graph (fst r))) (do s <- erc_new p mk n c rs; program (erc_do p) s l).
Proof.
  intros H. eapply safe_bind with (P := fun r => keeps n (erc_graph (fst r))).
  - unfold erc_new. eapply safe_bind; [apply safe_erc_probability|]. intros pr _.
    apply safe_erc_randomize. cbn. apply keeps_new.
  - intros s K. apply safe_program with (P := fun e => keeps n (erc_graph e)); auto.
    intros e c1 rs1 Hc Ke. apply safe_erc_do; auto. intros ij Hij. eapply careful_In; eauto.
Qed.

End ErC.

(** ** [ErEnsembleM] *)

Section ErM.
Context {T : Type}.

Record erm_tame n (e : er_m T) : Prop := {
  et_graph : keeps n (erm_graph e);
  et_all : Forall (apart n) (erm_all e);
  et_possible : Forall (apart n) (erm_possible e);
  et_current : Forall (apart n) (erm_current e)
}.

Lemma Forall_perm {X} (P : X -> Prop) l l' : Permutation l l' -> Forall P l -> Forall P l'.
Proof.
  intros H F. rewrite Forall_forall in *. intros x Hx. apply F. eapply Permutation_in; [|eauto]. symmetry; auto.
Qed.

Lemma Forall_upd {X} (P : X -> Prop) (x : X) : forall l i, Forall P l -> P x -> Forall P (upd l i x).
Proof.
  induction l as [|y l IH]; intros [|i] F Px; cbn; auto; inversion F; subst; constructor; auto.
Qed.

Lemma safe_add_unwrap p n (g : graph (node_container T)) ij : keeps n g -> allowed p n ij ->
  safe (keeps n) (add_edge_unwrap p g ij).
Proof.
  intros K H. unfold add_edge_unwrap. destruct ij as [i j].
  eapply safe_bind; [apply (safe_add_edge K H)|]. intros [r g'] (K' & _).
  eapply safe_bind; [apply safe_unwrap|]. intros x _. apply safe_done; auto.
Qed.

Lemma safe_remove_unwrap p n (g : graph (node_container T)) ij : keeps n g -> allowed p n ij ->
  safe (fun g' => keeps n g' /\ adj g (fst ij) (snd ij)) (remove_edge_unwrap p g ij).
Proof.
  intros K H. unfold remove_edge_unwrap. destruct ij as [i j].
  eapply safe_bind; [apply (safe_remove_edge K H)|]. intros [r g'] (K' & _ & R).
  eapply safe_bind; [apply safe_unwrap|]. intros x E. cbn [fst snd] in *. rewrite E in R. apply safe_done; tauto.
Qed.

Lemma safe_erm_randomize p n (e : er_m T) rs : erm_tame n e ->
  safe (fun r => erm_tame n (fst r)) (erm_randomize p e rs).
Proof.
  intros K. unfold erm_randomize. eapply safe_bind; [apply safe_shuffle|]. intros [all rs'] P. cbn [fst] in P.
  apply (@Forall_perm _ (apart n)) in P; [|apply K].
  unfold slice_to, slice_from, copy_from_slice. destruct (erm_m e <=? length all); [|apply safe_panic]. cbn [bind].
  destruct (_ =? _); [|apply safe_panic]. cbn [bind].
  assert (F1 : Forall (apart n) (firstn (erm_m e) all)).
  { rewrite Forall_forall in *. intros x Hx. apply P. rewrite <- (firstn_skipn (erm_m e)). apply in_app_iff; auto. }
  assert (F2 : Forall (apart n) (skipn (erm_m e) all)).
  { rewrite Forall_forall in *. intros x Hx. apply P. rewrite <- (firstn_skipn (erm_m e)). apply in_app_iff; auto. }
  eapply safe_bind with (P := keeps n).
  - apply safe_foldM; [|apply keeps_clear; apply K]. intros g ij Hij Kg. apply safe_add_unwrap; auto.
    apply apart_allowed. rewrite Forall_forall in F1. auto.
  - intros g Kg. destruct (_ =? _); [|apply safe_panic]. cbn [bind]. apply safe_done. constructor; auto.
Qed.

Lemma safe_erm_step p n (e : er_m T) s : erm_tame n e ->
  allowed p n (esm_removed s) -> (adj (erm_graph e) (fst (esm_removed s)) (snd (esm_removed s)) -> allowed p n (esm_inserted s)) ->
  safe (erm_tame n) (erm_step p e s).
Proof.
  intros K H1 H2. unfold erm_step.
  eapply safe_bind; [apply (safe_remove_unwrap (et_graph K) H1)|]. intros g1 [K1 A1].
  eapply safe_bind; [apply (safe_add_unwrap K1 (H2 A1))|]. intros g2 K2.
  eapply safe_bind; [apply safe_vget|]. intros a Ea. eapply safe_bind; [apply safe_vget|]. intros b Eb.
  apply safe_done. pose proof (et_current K) as Fc. pose proof (et_possible K) as Fp.
  constructor; cbn; auto; try apply K; apply Forall_upd; auto.
  - rewrite Forall_forall in Fc. apply Fc. exact (nth_error_In _ _ Ea).
  - rewrite Forall_forall in Fp. apply Fp. exact (nth_error_In _ _ Eb).
Qed.

Lemma safe_erm_m_step p n (e : er_m T) rs : erm_tame n e ->
  safe (fun r => erm_tame n (snd (fst r)) /\ Forall (apart n) (erm_names (fst (fst r)))) (erm_m_step p e rs).
Proof.
  intros K. unfold erm_m_step. eapply safe_bind; [apply safe_gen_range|]. intros [i rs1] _.
  eapply safe_bind; [apply safe_gen_range|]. intros [j rs2] _.
  eapply safe_bind; [apply safe_vget|]. intros a Ea. eapply safe_bind; [apply safe_vget|]. intros b Eb.
  pose proof (et_current K) as Fc. pose proof (et_possible K) as Fp. rewrite Forall_forall in Fc, Fp.
  cbv beta in Ea, Eb. apply nth_error_In in Ea, Eb.
  eapply safe_bind; [apply (@safe_erm_step p n)|].
  - auto.
  - apply apart_allowed. cbn. auto.
  - intros _. apply apart_allowed. cbn. auto.
  - intros e' K'. apply safe_done. cbn. split; auto. apply Forall_cons; auto.
Qed.

Lemma safe_erm_undo p n (e : er_m T) s : erm_tame n e -> (forall ij, In ij (erm_names s) -> allowed p n ij) ->
  safe (fun r => erm_tame n (snd r)) (erm_undo_step p e s) /\
  safe (erm_tame n) (erm_undo_step_quiet p e s).
Proof.
  intros K H. assert (S : safe (erm_tame n) (erm_step p e (esm_inverted s))).
  { apply safe_erm_step; auto; [|intros _]; apply H; cbn; auto. }
  unfold erm_undo_step, erm_undo_step_quiet. split; auto. eapply safe_bind; [apply S|].
  intros e' K'. apply safe_done; auto.
Qed.

Lemma remove_unwrap_ub (g : graph (node_container T)) i j : simple_graph g ->
  remove_edge_unwrap Release g (i, j) = UB <-> ~ apart (vertex_count g) (i, j).
Proof.
  intros W. unfold remove_edge_unwrap. cbn [fst snd]. rewrite <- (@remove_edge_ub _ _ _ _ g i j W).
  destruct (remove_edge Release g i j) as [[[[]|] g']| | |]; cbn; split; intros; congruence.
Qed.

Lemma add_unwrap_ub (g : graph (node_container T)) i j : simple_graph g ->
  add_edge_unwrap Release g (i, j) = UB <-> ~ apart (vertex_count g) (i, j).
Proof.
  intros W. unfold add_edge_unwrap. cbn [fst snd]. rewrite <- (@add_edge_ub _ _ _ _ g i j W).
  destruct (add_edge Release g i j) as [[[[]|] g']| | |]; cbn; split; intros; congruence.
Qed.

Lemma erm_undo_ub (e : er_m T) s : simple_graph (erm_graph e) ->
  let n := vertex_count (erm_graph e) in
  let bad := ~ apart n (esm_inserted s) \/
     (adj (erm_graph e) (fst (esm_inserted s)) (snd (esm_inserted s)) /\ ~ apart n (esm_removed s)) in
  (erm_undo_step Release e s = UB <-> bad) /\ (erm_undo_step_quiet Release e s = UB <-> bad).
Proof.
  intros W n bad. assert (S : erm_step Release e (esm_inverted s) = UB <-> bad).
  { destruct s as [[a b] i [c d] j]. unfold erm_step, esm_inverted, bad. cbn [esm_removed esm_inserted fst snd].
    pose proof (@remove_unwrap_ub (erm_graph e) c d W) as R. fold n in R. rewrite <- R.
    destruct (remove_edge_unwrap Release (erm_graph e) (c, d)) as [g1| | |] eqn:E; cbn [bind].
    - apply remove_edge_unwrap_done in E. destruct (remove_edge_ok W E) as (A1 & W1 & V1 & _).
      pose proof (@add_unwrap_ub g1 a b W1) as R1. rewrite V1 in R1. fold n in R1. rewrite <- R1.
      destruct (add_edge_unwrap Release g1 (a, b)) as [g2| | |]; cbn [bind].
      + unfold vget. destruct (nth_error _ _); cbn [bind]; [|intuition discriminate].
        destruct (nth_error _ _); cbn [bind]; intuition discriminate.
      + intuition discriminate.
      + tauto.
      + intuition discriminate.
    - split; [discriminate|]. intros [H|[H _]]; [discriminate|].
      unfold remove_edge_unwrap in E. destruct (remove_edge_present Release W H) as (g' & E' & _).
      cbn [fst snd] in E. rewrite E' in E. discriminate.
    - tauto.
    - split; [discriminate|]. intros [H|[H _]]; [discriminate|].
      unfold remove_edge_unwrap in E. destruct (remove_edge_present Release W H) as (g' & E' & _).
      cbn [fst snd] in E. rewrite E' in E. discriminate. }
  unfold erm_undo_step, erm_undo_step_quiet. split; auto.
  rewrite <- S. destruct (erm_step _ _ _); cbn; split; congruence.
Qed.

Lemma er_pairs_apart n : Forall (apart n) (er_pairs n).
Proof. apply Forall_forall. intros [i j] H. apply er_pairs_In in H. unfold apart. cbn. lia. Qed.

Lemma safe_erm_do p n (e : er_m T) c rs : erm_tame n e -> (forall ij, In ij (erm_arguments c) -> allowed p n ij) ->
  safe (fun r => erm_tame n (fst r)) (erm_do p e c rs).
Proof.
  intros K H. destruct c as [| |s|s| |i t]; cbn [erm_do erm_arguments] in *.
  - apply safe_erm_randomize; auto.
  - eapply safe_bind; [apply (safe_erm_m_step p rs K)|]. intros [[s e'] rs'] [K' _]. apply safe_done; auto.
  - eapply safe_bind; [apply (safe_erm_undo K H)|]. intros [s' e'] K'. apply safe_done; auto.
  - eapply safe_bind; [apply (safe_erm_undo K H)|]. intros e' K'. apply safe_done; auto.
  - eapply safe_bind; [apply (safe_sort (et_graph K))|]. intros g K'. apply safe_done. constructor; cbn; auto; apply K.
  - eapply safe_bind; [apply (safe_write i t (et_graph K))|]. intros g K'. apply safe_done. constructor; cbn; auto; apply K.
Qed.

(** The placeholders of [new] are overwritten before they are used. *)
Lemma safe_erm_start p (mk : nat -> T) n m rs :
  safe (fun r => erm_tame n (fst r)) (erm_new p mk n m rs).
Proof.
  unfold erm_new. eapply safe_bind; [apply safe_usub|]. intros k _. destruct (m <=? _); [|apply safe_panic].
  unfold erm_randomize. cbn [erm_all erm_graph erm_m erm_current erm_possible].
  eapply safe_bind; [apply safe_shuffle|]. intros [all rs'] P. cbn [fst] in P.
  apply (@Forall_perm _ (apart n)) in P; [|apply er_pairs_apart].
  unfold slice_to, slice_from, copy_from_slice. destruct (m <=? length all); [|apply safe_panic]. cbn [bind].
  destruct (_ =? _); [|apply safe_panic]. cbn [bind].
  assert (F1 : Forall (apart n) (firstn m all)).
  { rewrite Forall_forall in *. intros x Hx. apply P. rewrite <- (firstn_skipn m). apply in_app_iff; auto. }
  assert (F2 : Forall (apart n) (skipn m all)).
  { rewrite Forall_forall in *. intros x Hx. apply P. rewrite <- (firstn_skipn m). apply in_app_iff; auto. }
  eapply safe_bind with (P := keeps n).
  - apply safe_foldM; [|apply keeps_clear; apply keeps_new]. intros g ij Hij Kg. apply safe_add_unwrap; auto.
    apply apart_allowed. rewrite Forall_forall in F1. auto.
  - intros g Kg. destruct (_ =? _); [|apply safe_panic]. cbn [bind]. apply safe_done. constructor; auto.
Qed.

Lemma safe_erm p (mk : nat -> T) n m rs l : careful erm_arguments p n l ->
  safe (fun r => keeps n (erm_graph (fst r))) (do s <- erm_new p mk n m rs; program (erm_do p) s l).
Proof.
  intros H. eapply safe_bind; [apply safe_erm_start|].
  intros s K. eapply safe_weaken; [|apply safe_program with (P := erm_tame n); auto].
  - intros r Kr. apply Kr.
  - intros e c1 rs1 Hc Ke. apply safe_erm_do; auto. intros ij Hij. eapply careful_In; eauto.
Qed.

End ErM.

(** ** [SpacialEnsemble] *)

Section Spacial.
Context {T : Type}.

Lemma safe_sp_randomize n (e : spacial T) rs : keeps n (sp_graph e) ->
  safe (fun r => keeps n (sp_graph (fst r))) (sp_randomize e rs).
Proof.
  intros [W V]. destruct (Nat.le_gt_cases (length (er_pairs (vertex_count (sp_graph e)))) (length rs)) as [H|H].
  - destruct (sp_randomize_spec W H) as (e' & -> & W' & V' & _). apply safe_done. cbn. split; congruence.
  - rewrite sp_randomize_short by auto. apply safe_nofuel.
Qed.

Lemma safe_sp_test n (e : spacial T) g i j rs : keeps n g -> apart n (i, j) -> safe (fun _ => True) (sp_test e g i j rs).
Proof.
  intros [W V] (Hi & Hj & _). cbn [fst snd] in Hi, Hj. rewrite <- V in Hi, Hj. unfold sp_test, get_unchecked.
  destruct (container_lt W Hi) as (ci & -> & _). destruct (container_lt W Hj) as (cj & -> & _). cbn [bind].
  eapply safe_bind; [apply safe_gen_f64|]. intros [u rs1] _. apply safe_done; auto.
Qed.

Lemma safe_sp_step p n (e : spacial T) rs : keeps n (sp_graph e) ->
  safe (fun r => keeps n (sp_graph (snd (fst r))) /\ Forall (apart n) (sp_names (fst (fst r)))) (sp_m_step p e rs).
Proof.
  intros K. unfold sp_m_step. rewrite (proj2 K). eapply safe_bind; [apply safe_draw_two|]. intros [[a b] rs1] Hab.
  cbn [fst] in Hab. eapply safe_bind; [apply (@safe_sp_test n); auto|]. intros [ok rs2] _. destruct ok.
  - eapply safe_bind; [apply (safe_add_edge K); apply apart_allowed; auto|].
    intros [[[]|] g] (K' & _); apply safe_done; cbn; auto.
  - eapply safe_bind; [apply (safe_remove_edge K); apply apart_allowed; auto|].
    intros [[[]|] g] (K' & _); apply safe_done; cbn; auto.
Qed.

Lemma safe_sp_steps_quiet p n k (e : spacial T) rs : keeps n (sp_graph e) ->
  safe (fun r => keeps n (sp_graph (fst r))) (sp_m_steps_quiet p e k rs).
Proof.
  intros K. unfold sp_m_steps_quiet. apply (@safe_foldM _ _ (fun r => keeps n (sp_graph (fst r)))); auto.
  intros [e1 rs1] x _ K1. cbn [fst] in K1. rewrite (proj2 K1).
  eapply safe_bind; [apply safe_draw_two|]. intros [[a b] rs2] Hab.
  cbn [fst] in Hab. eapply safe_bind; [apply (@safe_sp_test n); auto|]. intros [ok rs3] _. destruct ok.
  - eapply safe_bind; [apply (safe_add_edge K1); apply apart_allowed; auto|].
    intros [r g] (K' & _); apply safe_done; cbn; auto.
  - eapply safe_bind; [apply (safe_remove_edge K1); apply apart_allowed; auto|].
    intros [r g] (K' & _); apply safe_done; cbn; auto.
Qed.

Lemma safe_sp_undo p n (e : spacial T) s : keeps n (sp_graph e) -> (forall ij, In ij (sp_names s) -> allowed p n ij) ->
  safe (fun r => keeps n (sp_graph (snd r))) (sp_undo_step p e s) /\
  safe (fun e' => keeps n (sp_graph e')) (sp_undo_step_quiet p e s).
Proof.
  intros K H. destruct s as [|[a b]|[a b]|]; unfold sp_undo_step, sp_undo_step_quiet; cbn [sp_names] in H.
  - split; apply safe_done; exact K.
  - specialize (H _ (or_introl eq_refl)). split; (eapply safe_bind; [apply (safe_remove_edge K H)|]);
      intros [[[]|] g] (K' & _); cbn [unwrap bind]; sret; try exact K'.
  - specialize (H _ (or_introl eq_refl)). split; (eapply safe_bind; [apply (safe_add_edge K H)|]);
      intros [[[]|] g] (K' & _); cbn [unwrap bind]; sret; try exact K'.
  - split; [apply safe_done; exact K|apply safe_panic].
Qed.

Lemma sp_undo_ub (e : spacial T) s : simple_graph (sp_graph e) ->
  (sp_undo_step Release e s = UB <-> ~ Forall (apart (vertex_count (sp_graph e))) (sp_names s)) /\
  (sp_undo_step_quiet Release e s = UB <-> ~ Forall (apart (vertex_count (sp_graph e))) (sp_names s)).
Proof.
  intros W. set (n := vertex_count (sp_graph e)). assert (K : keeps n (sp_graph e)) by (split; auto).
  assert (D : Forall (apart n) (sp_names s) \/ ~ Forall (apart n) (sp_names s)).
  { destruct s as [|[a b]|[a b]|]; cbn; auto; destruct (@apart_dec n a b) as [H|H]; auto;
      right; intros F; apply H; inversion F; auto. }
  destruct D as [D|D].
  - destruct (@safe_sp_undo Release n e s K) as [[S1 _] [S2 _]].
    { intros ij Hij. apply apart_allowed. rewrite Forall_forall in D. auto. }
    split; split; intros; tauto.
  - split; split; auto; intros _; destruct s as [|[a b]|[a b]|]; cbn [sp_names] in D;
      try (solve [destruct D; apply Forall_nil]); cbn [sp_undo_step sp_undo_step_quiet];
      first [rewrite (proj2 (@remove_edge_ub _ _ _ _ (sp_graph e) a b W))
            |rewrite (proj2 (@add_edge_ub _ _ _ _ (sp_graph e) a b W))]; auto; intros F; apply D; auto.
Qed.

Lemma safe_sp_do p n (e : spacial T) c rs : keeps n (sp_graph e) ->
  (forall ij, In ij (sp_arguments c) -> allowed p n ij) ->
  safe (fun r => keeps n (sp_graph (fst r))) (sp_do p e c rs).
Proof.
  intros K H. destruct c as [| |k|s|s| |i t]; cbn [sp_do sp_arguments] in *.
  - apply safe_sp_randomize; auto.
  - eapply safe_bind; [apply (@safe_sp_step p n); auto|]. intros [[s e'] rs'] [K' _]. apply safe_done; auto.
  - apply safe_sp_steps_quiet; auto.
  - eapply safe_bind; [apply (safe_sp_undo K H)|]. intros [s' e'] K'. apply safe_done; auto.
  - eapply safe_bind; [apply (safe_sp_undo K H)|]. intros e' K'. apply safe_done; auto.
  - eapply safe_bind; [apply (safe_sort K)|]. intros e' K'. apply safe_done; auto.
  - eapply safe_bind; [apply (safe_write i t K)|]. intros e' K'. apply safe_done; auto.
Qed.

Lemma place_long (l : list (spacial_container pos T)) : forall vs rs r,
  foldM (fun s c =>
      let '(vs, rs) := s in
      do ' (x, rs1) <- gen_f64 rs;
      do ' (y, rs2) <- gen_f64 rs1;
      Done (vs ++ [mk_spc (spc_id c) (spc_adj c) (spc_node c) (Some (x, y))], rs2)) (vs, rs) l = r ->
  r = NoFuel \/ 2 * length l <= length rs.
Proof.
  induction l as [|c l IH]; intros vs rs r E; [right; cbn; lia|]. cbn [foldM] in E.
  destruct rs as [|x [|y rs]]; [left; subst; reflexivity|left; subst; reflexivity|].
  unfold gen_f64 in E. cbn [draw bind] in E. apply IH in E as [E|E]; auto. right. cbn [length]. lia.
Qed.

Lemma safe_sp p (mk : nat -> T) n accept rs l : careful sp_arguments p n l ->
  safe (fun r => keeps n (sp_graph (fst r))) (do s <- sp_new mk n accept rs; program (sp_do p) s l).
Proof.
  intros H. eapply safe_bind with (P := fun r => keeps n (sp_graph (fst r))).
  - unfold sp_new. eapply safe_bind with (P := fun r => keeps n (fst r)).
    + destruct (Nat.le_gt_cases (2 * n) (length rs)) as [Hl|Hl].
      * destruct (@sp_place_spec T mk n rs Hl) as (g & -> & W & V & _). apply safe_done. split; auto.
      * unfold sp_place. pose proof (@graph_new_spec T (spacial_container pos T) _ _ mk n) as (W & V & _).
        cbv zeta in W, V.
        destruct (foldM _ _ _) as [x| | |] eqn:E; cbn [bind]; apply place_long in E as [E|E];
          try discriminate; try apply safe_nofuel; rewrite (sg_len W), V in E; lia.
    + intros [g rs1] K. apply safe_sp_randomize. auto.
  - intros s K. apply safe_program with (P := fun e => keeps n (sp_graph e)); auto.
    intros e c1 rs1 Hc Ke. apply safe_sp_do; auto. intros ij Hij. eapply careful_In; eauto.
Qed.

End Spacial.

(** ** [ConfigurationModel] *)

Section Config.
Context {T : Type}.

Record cm_tame n (e : config T) : Prop := {
  ct_graph : keeps n (cm_graph e);
  ct_degrees : length (cm_degrees e) = n;
  ct_backup : Forall (fun x => x < n) (cm_backup e)
}.

Lemma safe_scan node l : forall c,
  safe (fun o => match o with Some k => exists x, nth_error l k = Some x /\ node <> x | None => True end) (cm_scan node l c).
Proof.
  induction c as [|c IH]; cbn [cm_scan]; (eapply safe_bind; [apply safe_vget|]); intros x E; cbv beta in E;
    destruct (Nat.eqb_spec node x); auto; apply safe_done; cbn; eauto.
Qed.

Lemma safe_swap_remove {X} (l : list X) i : safe (fun l' => forall x, In x l' -> In x l) (swap_remove l i).
Proof.
  split.
  - unfold swap_remove. destruct (rev l); [discriminate|]. destruct (i <? length l); discriminate.
  - intros l' E x Hx. destruct (nth_error l i) as [y|] eqn:Ey.
    + destruct (@swap_remove_spec _ l i y Ey) as (l2 & E2 & P). assert (l2 = l') by congruence. subst.
      eapply Permutation_in; [symmetry; apply P|]. cbn; auto.
    + apply nth_error_None in Ey. unfold swap_remove in E. destruct (rev l); [discriminate|].
      destruct (Nat.ltb_spec i (length l)); [lia|discriminate].
Qed.

Lemma safe_add_multiple p n f : forall (g : graph (node_container T)) halfs, keeps n g -> (forall x, In x halfs -> x < n) ->
  safe (fun r => keeps n (snd (fst r)) /\ forall x, In x (snd r) -> x < n) (cm_add_multiple f p g halfs).
Proof.
  induction f as [|f IH]; intros g halfs K H; cbn [cm_add_multiple]; [apply safe_nofuel|].
  eapply safe_bind; [apply safe_expect|]. intros [h1 node1] E.
  assert (Eh : halfs = h1 ++ [node1]).
  { destruct halfs as [|y hs] eqn:Eh; [discriminate|]. destruct (@pop_some _ halfs) as (r & x & E1 & E2); [congruence|].
    subst halfs. rewrite E2 in E. injection E as <- <-. auto. }
  assert (H1 : forall x, In x h1 -> x < n) by (intros x Hx; apply H; rewrite Eh; apply in_app_iff; auto).
  assert (Hn1 : node1 < n) by (apply H; rewrite Eh; apply in_app_iff; cbn; auto).
  eapply safe_bind; [apply safe_usub|]. intros c _. eapply safe_bind; [apply safe_scan|].
  intros [k|] Hk; [|apply safe_done; cbn; auto]. destruct Hk as (node2 & Ek & Nk).
  unfold vget at 1. rewrite Ek. cbn [bind]. eapply safe_bind; [apply safe_swap_remove|]. intros h2 H2.
  cbv beta in H2. assert (Hn2 : node2 < n) by (apply H1; eapply nth_error_In; eauto).
  eapply safe_bind; [apply (@safe_add_edge _ _ _ _ p n g node1 node2 K)|].
  { apply apart_allowed. repeat split; auto. }
  intros [[[]|] g'] (K' & _); [|apply safe_done; cbn; auto].
  destruct (1 <? length h2); [apply IH; auto|apply safe_done; cbn; auto].
Qed.

Lemma safe_cm_randomize p n (e : config T) rs : cm_tame n e -> safe (fun r => cm_tame n (fst r)) (cm_randomize p e rs).
Proof.
  intros K. unfold cm_randomize. eapply safe_bind; [apply safe_shuffle|]. intros [backup rs1] P. cbn [fst] in P.
  apply (@Forall_perm _ (fun x => x < n)) in P; [|apply K].
  assert (K0 : keeps n (clear_edges (cm_graph e))) by (apply keeps_clear; apply K).
  destruct backup as [|b bs] eqn:Eb; [apply safe_done; constructor; cbn; auto; apply K|]. rewrite <- Eb in *.
  eapply safe_bind with (P := fun r => keeps n (fst (fst (fst r))) /\ Forall (fun x => x < n) (snd (fst (fst r)))).
  - apply safe_loop with (P := fun s => keeps n (fst (fst s)) /\ Forall (fun x => x < n) (snd (fst s)) /\
      forall x, In x (snd s) -> x < n) (Q := fun s => keeps n (fst (fst s)) /\ Forall (fun x => x < n) (snd (fst s))).
    + intros [[g bk] hs] rs2 (Kg & Kb & Kh). cbn [fst snd] in *. unfold cm_round.
      eapply safe_bind; [apply (safe_add_multiple p (S (length hs)) Kg Kh)|]. intros [[added g1] h1] [K1 H1].
      cbn [fst snd] in *.
      eapply safe_bind with (P := fun r => keeps n (fst (fst (fst r))) /\ Forall (fun x => x < n) (snd (fst (fst r))) /\
        forall x, In x (snd (fst r)) -> x < n).
      * destruct added; [apply safe_done; cbn; auto|]. eapply safe_bind; [apply safe_shuffle|].
        intros [bk' rs3] Q. cbn [fst] in Q. apply (@Forall_perm _ (fun x => x < n)) in Q; auto. apply safe_done. cbn.
        splits; auto. apply keeps_clear; auto. rewrite Forall_forall in Q. auto.
      * intros [s' rs3] (K3 & F3 & H3). cbn [fst snd] in *. destruct (snd s') eqn:Es; apply safe_done; cbn; auto.
        rewrite Es. auto.
    + cbn. splits; auto. rewrite Forall_forall in P. auto.
  - intros [[[g' bk'] hs'] rs2] [K' F']. apply safe_done. constructor; cbn in *; auto. apply K.
Qed.

Lemma edge_halfs_lt v : Forall (fun x => x < length v) (edge_halfs v).
Proof. apply Forall_forall. intros x Hx. eapply halfs_lt; [apply edge_halfs_count|auto]. Qed.

Lemma safe_choose_two l rs : safe (fun r => forall x, In x (fst r) -> In x l) (choose_two l rs).
Proof.
  unfold choose_two. destruct (length l) as [|[|len]].
  - apply safe_done. cbn. tauto.
  - eapply safe_bind; [apply safe_gen_range|]. intros [t rs1] _. eapply safe_bind; [apply safe_vget|]. intros x E.
    cbv beta in E. apply nth_error_In in E. apply safe_done. cbn. intros y [<-|[]]. auto.
  - eapply safe_bind; [apply safe_gen_range|]. intros [t1 rs1] _. eapply safe_bind; [apply safe_gen_range|]. intros [t2 rs2] _.
    eapply safe_bind; [apply safe_vget|]. intros x Ex. eapply safe_bind; [apply safe_vget|]. intros y Ey.
    cbv beta in Ex, Ey. apply nth_error_In in Ex, Ey. apply safe_done. cbn [fst]. intros z [<-|[<-|[]]]; auto.
Qed.

Lemma safe_cm_draw n backup rs fuel : Forall (fun x => x < n) backup ->
  safe (fun r => apart n (fst r)) (loop fuel (cm_draw_round backup) tt rs).
Proof.
  intros F. rewrite Forall_forall in F. apply safe_loop with (P := fun _ => True) (Q := apart n); auto.
  intros [] rs1 _. unfold cm_draw_round. eapply safe_bind; [apply safe_choose_two|]. intros [l rs2] Hl. cbn [fst] in Hl.
  eapply safe_bind; [apply safe_vget|]. intros a Ea. eapply safe_bind; [apply safe_vget|]. intros b Eb.
  cbv beta in Ea, Eb. apply nth_error_In in Ea, Eb.
  destruct (Nat.eqb_spec a b); apply safe_done; cbn; auto. repeat split; cbn; auto.
Qed.

Lemma safe_done_ok n (m : outcome (result unit graph_error * graph (node_container T))) :
  safe (fun r => keeps n (snd r)) m -> safe (keeps n) (done_ok m).
Proof.
  intros H. unfold done_ok. eapply safe_bind; [apply H|]. intros [r g] K. eapply safe_bind; [apply safe_unwrap|].
  intros x _. apply safe_done; auto.
Qed.

Lemma safe_add p n (g : graph (node_container T)) i j : keeps n g -> allowed p n (i, j) ->
  safe (fun r => keeps n (snd r)) (add_edge p g i j).
Proof. intros K H. eapply safe_weaken; [|apply (safe_add_edge K H)]. intros r Hr. apply Hr. Qed.

Lemma safe_rem p n (g : graph (node_container T)) i j : keeps n g -> allowed p n (i, j) ->
  safe (fun r => keeps n (snd r)) (remove_edge p g i j).
Proof. intros K H. eapply safe_weaken; [|apply (safe_remove_edge K H)]. intros r Hr. apply Hr. Qed.

Lemma tame_set n (e : config T) g : cm_tame n e -> keeps n g -> cm_tame n (mk_cm g (cm_degrees e) (cm_halfs e) (cm_backup e)).
Proof. intros K Kg. constructor; cbn; auto; apply K. Qed.

Lemma container_adj n (g : graph (node_container T)) v c w : keeps n g -> nth_error (vertices g) v = Some c -> In w (nc_adj c) ->
  apart n (v, w).
Proof.
  intros [W V] E I. assert (A : adj g v w).
  { unfold adj. rewrite (nbrs_nth E). exact I. }
  destruct (adj_lt W A). rewrite V in *. repeat split; cbn; auto. intros ->. exact (sg_irrefl W w A).
Qed.

Lemma safe_cm_step p n (e : config T) rs : cm_tame n e ->
  safe (fun r => cm_tame n (snd (fst r)) /\ Forall (apart n) (cm_names (fst (fst r)))) (cm_m_step p e rs).
Proof.
  intros K. pose proof (ct_graph K) as Kg. unfold cm_m_step.
  eapply safe_bind; [apply (@safe_cm_draw n); apply K|]. intros [[v0 v1] rs1] Hv. cbn [fst] in Hv.
  eapply safe_bind; [apply safe_vget|]. intros c0 E0. eapply safe_bind; [apply safe_choose|]. intros [j rs2] Hj. cbn [fst] in Hj.
  eapply safe_bind; [apply safe_vget|]. intros c1 E1. eapply safe_bind; [apply safe_choose|]. intros [l rs3] Hl. cbn [fst] in Hl.
  cbv beta in E0, E1.
  assert (A0 : apart n (v0, j)) by (eapply container_adj; eauto).
  assert (A1 : apart n (v1, l)) by (eapply container_adj; eauto).
  destruct (Nat.eqb_spec v1 v0), (Nat.eqb_spec j l); cbn [orb]; try (apply safe_done; cbn; auto; fail).
  assert (A2 : apart n (j, l)) by (unfold apart in *; cbn in *; tauto).
  eapply safe_bind; [apply (@safe_add p n); auto; apply apart_allowed; auto|]. intros [[[]|] g1] K1; cbn [snd] in K1;
    [|apply safe_done; cbn; split; auto; apply tame_set; auto].
  eapply safe_bind; [apply (@safe_add p n); eauto; apply apart_allowed; auto|]. intros [[[]|] g2] K2; cbn [snd] in K2.
  - eapply safe_bind; [apply safe_done_ok, safe_rem; [eauto|apply apart_allowed; auto]|]. intros g3 K3.
    eapply safe_bind; [apply safe_done_ok, safe_rem; [eauto|apply apart_allowed; auto]|]. intros g4 K4.
    apply safe_done. cbn [fst snd cm_names]. split; [apply tame_set; auto|]. auto 6.
  - eapply safe_bind; [apply safe_done_ok, safe_rem; [eauto|apply apart_allowed; auto]|]. intros g3 K3.
    apply safe_done. cbn. split; auto. apply tame_set; auto.
Qed.

Lemma safe_cm_undo p n (e : config T) s : cm_tame n e -> (forall ij, In ij (cm_names s) -> allowed p n ij) ->
  safe (fun r => cm_tame n (snd r)) (cm_undo_step p e s) /\ safe (cm_tame n) (cm_undo_step_quiet p e s).
Proof.
  intros K H. pose proof (ct_graph K) as Kg. destruct s as [|[a b] [c d]]; unfold cm_undo_step, cm_undo_step_quiet.
  { split; apply safe_done; auto. }
  cbn [fst snd]. assert (H1 := H (a, b)). assert (H2 := H (c, d)). assert (H3 := H (a, c)). assert (H4 := H (b, d)).
  cbn [cm_names In] in H1, H2, H3, H4. clear H.
  assert (B1 : allowed p n (a, b)) by (apply H1; auto). assert (B2 : allowed p n (c, d)) by (apply H2; auto).
  assert (B3 : allowed p n (a, c)) by (apply H3; auto). assert (B4 : allowed p n (b, d)) by (apply H4; auto 6).
  clear H1 H2 H3 H4. split.
  - eapply safe_bind; [apply (@safe_add p n); eauto|]. intros [[[]|] g1] K1; cbn [snd] in K1;
      [|apply safe_done; cbn; apply tame_set; auto].
    eapply safe_bind; [apply (@safe_add p n); eauto|]. intros [[[]|] g2] K2; cbn [snd] in K2.
    2: { eapply safe_bind; [apply safe_done_ok, (@safe_rem p n); eauto|]. intros g3 K3. apply safe_done. apply tame_set; auto. }
    eapply safe_bind; [apply (@safe_rem p n); eauto|]. intros [[[]|] g3] K3; cbn [snd] in K3.
    2: { eapply safe_bind; [apply safe_done_ok, (@safe_rem p n); eauto|]. intros g4 K4.
         eapply safe_bind; [apply safe_done_ok, (@safe_rem p n); eauto|]. intros g5 K5. apply safe_done. apply tame_set; auto. }
    eapply safe_bind; [apply (@safe_rem p n); eauto|]. intros [[[]|] g4] K4; cbn [snd] in K4.
    { apply safe_done. apply tame_set; auto. }
    eapply safe_bind; [apply safe_done_ok, (@safe_rem p n); eauto|]. intros g5 K5.
    eapply safe_bind; [apply safe_done_ok, (@safe_rem p n); eauto|]. intros g6 K6.
    eapply safe_bind; [apply safe_done_ok, (@safe_add p n); eauto|]. intros g7 K7. apply safe_done. apply tame_set; auto.
  - eapply safe_bind; [apply safe_done_ok, (@safe_add p n); eauto|]. intros g1 K1.
    eapply safe_bind; [apply safe_done_ok, (@safe_add p n); eauto|]. intros g2 K2.
    eapply safe_bind; [apply safe_done_ok, (@safe_rem p n); eauto|]. intros g3 K3.
    eapply safe_bind; [apply safe_done_ok, (@safe_rem p n); eauto|]. intros g4 K4. apply safe_done. apply tame_set; auto.
Qed.


Local Notation G := (graph (node_container T)).

Lemma add_cases n (g : G) i j : keeps n g ->
  ~ apart n (i, j) /\ add_edge Release g i j = UB \/
  apart n (i, j) /\ adj g i j /\ add_edge Release g i j = Done (Err EdgeExists, g) \/
  apart n (i, j) /\ ~ adj g i j /\ exists g', add_edge Release g i j = Done (Ok tt, g') /\ keeps n g' /\
    forall x y, adj g' x y <-> adj g x y \/ is_pair i j x y.
Proof.
  intros [W V]. destruct (@apart_dec n i j) as [H|H].
  - right. destruct (adj_dec g i j) as [A|A]; [left; splits; auto; apply add_edge_present; auto|]. right. splits; auto.
    assert (H' := H). destruct H' as (Hi & Hj & N). cbn [fst snd] in *. rewrite <- V in Hi, Hj.
    destruct (add_edge_absent Release W Hi Hj N A) as (g' & E & _). exists g'. split; auto.
    destruct (@safe_add_edge _ _ _ _ Release n g i j (conj W V) (fun _ => H)) as [_ S]. specialize (S _ E).
    cbn [fst snd] in S. tauto.
  - left. split; auto. apply add_edge_ub; auto. rewrite V. auto.
Qed.

Lemma rem_cases n (g : G) i j : keeps n g ->
  ~ apart n (i, j) /\ remove_edge Release g i j = UB \/
  apart n (i, j) /\ ~ adj g i j /\ remove_edge Release g i j = Done (Err EdgeDoesNotExist, g) \/
  apart n (i, j) /\ adj g i j /\ exists g', remove_edge Release g i j = Done (Ok tt, g') /\ keeps n g' /\
    forall x y, adj g' x y <-> adj g x y /\ ~ is_pair i j x y.
Proof.
  intros [W V]. destruct (@apart_dec n i j) as [H|H].
  - right. assert (H' := H). destruct H' as (Hi & Hj & N). cbn [fst snd] in *. rewrite <- V in Hi, Hj.
    destruct (adj_dec g i j) as [A|A]; [|left; splits; auto; apply remove_edge_absent; auto]. right. splits; auto.
    destruct (remove_edge_present Release W A) as (g' & E & _). exists g'. split; auto.
    destruct (@safe_remove_edge _ _ _ _ Release n g i j (conj W V) (fun _ => H)) as [_ S]. specialize (S _ E).
    cbn [fst snd] in S. tauto.
  - left. split; auto. apply remove_edge_ub; auto. rewrite V. auto.
Qed.

(** When [undo_step] of the configuration model gets two equal or two unknown vertices to
    join or to part. *)
Lemma rem_sure n (g : G) i j : keeps n g -> adj g i j -> exists g', remove_edge Release g i j = Done (Ok tt, g') /\ keeps n g' /\
    forall x y, adj g' x y <-> adj g x y /\ ~ is_pair i j x y.
Proof.
  intros K A. destruct (@rem_cases n g i j K) as [[H _]|[(_ & H & _)|(_ & _ & g' & E & K' & A')]]; [|tauto|eauto].
  destruct H. destruct K as [W V]. destruct (adj_lt W A). rewrite V in *. repeat split; cbn; auto.
  intros ->. exact (sg_irrefl W j A).
Qed.

Lemma cm_undo_ub n (e : config T) s : keeps n (cm_graph e) ->
  (cm_undo_step Release e s = UB <-> cm_undo_bad n (cm_graph e) s) /\
  (cm_undo_step_quiet Release e s = UB <-> cm_undo_bad n (cm_graph e) s).
Proof.
  intros K. destruct s as [|[a b] [c d]]; [cbn; split; split; [discriminate|tauto|discriminate|tauto]|].
  unfold cm_undo_step, cm_undo_step_quiet, done_ok. cbn [fst snd cm_undo_bad].
  destruct (@add_cases n (cm_graph e) c d K) as [[H E]|[(H & A & E)|(H & A & g1 & E & K1 & A1)]];
    rewrite E; cbn [bind unwrap].
  { tauto. }
  { split; split; try discriminate; tauto. }
  destruct (@add_cases n g1 a b K1) as [[H2 E2]|[(H2 & A2 & E2)|(H2 & A2 & g2 & E2 & K2 & A3)]];
    rewrite E2; cbn [bind unwrap].
  { tauto. }
  { destruct (@rem_sure n g1 c d K1) as (g3 & E3 & _); [apply A1; right; left; auto|]. rewrite E3. cbn [bind unwrap].
    apply A1 in A2.
    assert (N : ~ ((b = d /\ a <> c) \/ (a = c /\ adj (cm_graph e) b d)) \/ adj (cm_graph e) a b).
    { destruct A2 as [A2|A2]; auto. left. intros [[-> F]|[-> F]].
      - destruct A2 as [[-> _]|[-> ->]]; auto.
      - destruct A2 as [[_ ->]|[-> ->]]; [exact (sg_irrefl (proj1 K) _ F)|]. destruct H as (_ & _ & H). auto. }
    split; split; try discriminate; intros F; tauto. }
  assert (A2' : ~ adj (cm_graph e) a b /\ ~ is_pair c d a b) by (rewrite A1 in A2; tauto).
  destruct (@rem_cases n g2 b d K2) as [[H3 E3]|[(H3 & A4 & E3)|(H3 & A4 & g3 & E3 & K3 & A5)]];
    rewrite E3; cbn [bind unwrap].
  { assert (b = d) as ->. { destruct (Nat.eq_dec b d); auto. destruct H3. unfold apart in *; cbn in *; tauto. }
    assert (a <> c) by (intros ->; apply A2'; left; auto). tauto. }
  { destruct (@rem_sure n g2 c d K2) as (g4 & E4 & K4 & A6); [apply A3; left; apply A1; right; left; auto|].
    rewrite E4. cbn [bind unwrap].
    destruct (@rem_sure n g4 a b K4) as (g5 & E5 & _); [apply A6; split; [apply A3; right; left; auto|tauto]|].
    rewrite E5. cbn [bind unwrap]. rewrite A3, A1 in A4. destruct H3 as (_ & _ & H3). cbn in H3.
    split; split; try discriminate; tauto. }
  rewrite A3, A1 in A4.
  destruct (@rem_cases n g3 a c K3) as [[H4 E4]|[(H4 & A6 & E4)|(H4 & A6 & g4 & E4 & K4 & A7)]];
    rewrite E4; cbn [bind unwrap].
  - assert (a = c) as ->. { destruct (Nat.eq_dec a c); auto. destruct H4. unfold apart in *; cbn in *; tauto. }
    assert (adj (cm_graph e) b d).
    { destruct A4 as [[A4|[[-> _]|[-> ->]]]|[[-> ->]|[_ ->]]]; auto;
        destruct H as (_ & _ & H), H2 as (_ & _ & H2), H3 as (_ & _ & H3); cbn in *; congruence. }
    tauto.
  - assert (F : ~ ((b = d /\ a <> c) \/ (a = c /\ adj (cm_graph e) b d))).
    { destruct H3 as (_ & _ & H3), H4 as (_ & _ & H4). cbn in *. tauto. }
    split; (split; [|tauto]); [|discriminate]. intros U. exfalso. revert U.
    destruct (@rem_cases n g3 c d K3) as [[H5 _]|[(_ & _ & E5)|(_ & _ & g5 & E5 & K5 & _)]]; [tauto| |];
      rewrite E5; cbn [bind unwrap]; [discriminate|].
    destruct (@rem_cases n g5 a b K5) as [[H6 _]|[(_ & _ & E6)|(_ & _ & g6 & E6 & K6 & _)]]; [tauto| |];
      rewrite E6; cbn [bind unwrap]; [discriminate|].
    destruct (@add_cases n g6 b d K6) as [[H7 _]|[(_ & _ & E7)|(_ & _ & g7 & E7 & _)]]; [tauto| |];
      rewrite E7; cbn [bind unwrap]; discriminate.
  - destruct H3 as (_ & _ & H3), H4 as (_ & _ & H4). cbn in *. split; split; try discriminate; tauto.
Qed.

Lemma safe_cm_do p n (e : config T) c rs : cm_tame n e ->
  (forall ij, In ij (cm_arguments c) -> allowed p n ij) ->
  safe (fun r => cm_tame n (fst r)) (cm_do p e c rs).
Proof.
  intros K H.
  assert (S : forall v, safe (fun r => cm_tame n (snd (fst r))) (cm_swap_degree_vec_unchecked p e v rs)).
  { intros v. unfold cm_swap_degree_vec_unchecked. rewrite (ct_degrees K).
    destruct (Nat.eqb_spec n (length v)) as [->|N]; [|apply safe_panic].
    eapply safe_bind; [apply (@safe_cm_randomize p (length v))|].
    - constructor; cbn; auto; [apply K|apply edge_halfs_lt].
    - intros [e' rs'] K'. apply safe_done. exact K'. }
  destruct c as [| |s|s|v|v| |i t]; cbn [cm_do cm_arguments] in *.
  - apply safe_cm_randomize; auto.
  - eapply safe_bind; [apply (@safe_cm_step p n); auto|]. intros [[s e'] rs'] [K' _]. apply safe_done; auto.
  - eapply safe_bind; [apply (safe_cm_undo K H)|]. intros [s' e'] K'. apply safe_done; auto.
  - eapply safe_bind; [apply (safe_cm_undo K H)|]. intros e' K'. apply safe_done; auto.
  - unfold cm_swap_degree_vec. destruct (degree_vec_is_valid v); [|apply safe_panic].
    eapply safe_bind; [apply S|]. intros [[d e'] rs'] K'. apply safe_done; auto.
  - eapply safe_bind; [apply S|]. intros [[d e'] rs'] K'. apply safe_done; auto.
  - eapply safe_bind; [apply (safe_sort (ct_graph K))|]. intros g K'. apply safe_done. apply tame_set; auto.
  - eapply safe_bind; [apply (safe_write i t (ct_graph K))|]. intros g K'. apply safe_done. apply tame_set; auto.
Qed.

Lemma safe_cm_unchecked p (mk : nat -> T) v rs :
  safe (fun r => cm_tame (length v) (fst r)) (cm_from_vec_unchecked p mk v rs).
Proof.
  unfold cm_from_vec_unchecked. apply safe_cm_randomize. constructor; cbn; auto; [apply keeps_new|apply edge_halfs_lt].
Qed.

Lemma cm_tame_clone {A} {C : AdjContainer T A} {L : AdjLaws C} (g : graph A) : simple_graph g ->
  cm_tame (vertex_count g) (cm_clone_from_generic_graph g).
Proof.
  intros W. destruct (graph_from_spec W) as (W' & V & _). unfold cm_clone_from_generic_graph.
  assert (E : length (degree_vec g) = vertex_count g).
  { unfold degree_vec. rewrite map_length. apply (sg_len W). }
  constructor; cbn; auto; [split; auto|]. rewrite <- E. apply edge_halfs_lt.
Qed.

Lemma safe_cm_program p n s l : careful cm_arguments p n l -> cm_tame n (fst s) ->
  safe (fun r => cm_tame n (fst r)) (program (@cm_do T p) s l).
Proof.
  intros H K. apply safe_program with (P := fun e => cm_tame n e); auto.
  intros e c1 rs1 Hc Ke. apply safe_cm_do; auto. intros ij Hij. eapply careful_In; eauto.
Qed.

End Config.

(** ** [BarabasiAlbert] *)

Section Ba.
Context {T : Type}.

Lemma safe_ba_randomize p n m (e : ba T) rs : ba_ready n m e -> safe (fun r => ba_ready n m (fst r)) (ba_randomize p e rs).
Proof.
  intros R. eapply safe_weaken; [|apply (safe_runs rs (randomize_runs p R))]. intros [e' rs'] (O & _). apply ok_ready. exact O.
Qed.

Lemma safe_ba_do p n m (e : ba T) c rs : ba_ready n m e -> safe (fun r => ba_ready n m (fst r)) (ba_do p e c rs).
Proof.
  intros R. destruct c as [| |i t]; cbn [ba_do].
  - apply safe_ba_randomize; auto.
  - unfold ba_sort_adj. destruct (sort_adj_spec (br_simple R)) as (g & -> & W & (V & _) & _). cbn [bind].
    apply safe_done. constructor; cbn; auto; try apply R. rewrite V. apply R.
  - destruct (Nat.lt_ge_cases i (vertex_count (ba_graph e))) as [H|H].
    + destruct (at_mut_set_spec t (br_simple R) H) as (g & -> & W & V & _). apply safe_done.
      constructor; cbn; auto; try apply R. rewrite V. apply R.
    + rewrite at_mut_set_out by (auto; apply R). apply safe_panic.
Qed.

Lemma safe_ba_empty p m (src g : graph (node_container T)) n rs P : simple_graph src -> vertex_count src = 0 ->
  simple_graph g -> vertex_count g = n -> 0 < n -> safe P (ba_randomize p (mk_ba src g m (repeat 0 n)) rs).
Proof.
  intros Ws Z W V Hn. destruct (shuffle (seq 0 n) rs) as [[o rs']| | |] eqn:E.
  - erewrite randomize_empty_panic; eauto; [apply safe_panic|apply repeat_length].
  - apply safe_bind with (P := fun g' => vertex_count g' = n).
    + destruct (@reset_from_graph_spec T g src) as (g' & E' & W' & V' & _); auto; [cbn in *; lia|].
      cbn [ba_graph ba_source]. rewrite E'. apply safe_done. congruence.
    + intros g' V'. cbn [ba_graph ba_source]. rewrite Z, V', Nat.sub_0_r, E. apply safe_panic.
  - exfalso. apply (proj1 (@safe_shuffle _ (seq 0 n) rs)). auto.
  - apply safe_bind with (P := fun g' => vertex_count g' = n).
    + destruct (@reset_from_graph_spec T g src) as (g' & E' & W' & V' & _); auto; [cbn in *; lia|].
      cbn [ba_graph ba_source]. rewrite E'. apply safe_done. congruence.
    + intros g' V'. cbn [ba_graph ba_source]. rewrite Z, V', Nat.sub_0_r, E. apply safe_nofuel.
Qed.

Lemma safe_ba_new p (mk : nat -> T) n m s rs : safe (fun r => ba_ready n m (fst r)) (ba_new p mk n m s rs).
Proof.
  unfold ba_new. destruct (Nat.leb_spec 2 s) as [H2|]; [|apply safe_panic]. destruct (Nat.ltb_spec s n) as [Hn|]; [|apply safe_panic].
  cbn [negb]. destruct (complete_done p mk H2) as (src & E & _). rewrite E. cbn [bind].
  apply safe_ba_randomize. apply (@new_ready T mk p n m s src); auto.
Qed.

Lemma safe_ba_source p (mk : nat -> T) n m (src : graph (node_container T)) rs : simple_graph src ->
  (forall i, i < vertex_count src -> nbrs src i <> []) -> vertex_count src < n ->
  safe (fun r => ba_ready n m (fst r))
    (do g <- ba_copy (graph_new mk n) src; ba_randomize p (mk_ba src g m (repeat 0 n)) rs).
Proof.
  intros W D Hn. pose proof (@graph_new_spec T (node_container T) _ _ mk n) as (Wn & Vn & _). cbv zeta in Wn, Vn.
  destruct (@copy_spec T (graph_new mk n) src Wn W) as (g & E & Wg & Vg & _); [lia|].
  rewrite E. cbn [bind]. destruct (Nat.eq_dec (vertex_count src) 0) as [Z|Z].
  - apply safe_ba_empty; auto; try lia.
  - apply safe_ba_randomize. apply (@copy_ready T mk n m src g W D ltac:(lia) E).
Qed.

Lemma safe_ba_from_graph p (mk : nat -> T) n m (src : graph (node_container T)) rs : simple_graph src ->
  safe (fun r => ba_ready n m (fst r)) (ba_new_from_graph p mk n m src rs).
Proof.
  intros W. unfold ba_new_from_graph. destruct (forallb _ (vertices src)) eqn:D; [|apply safe_panic].
  rewrite (no_isolated W) in D. destruct (Nat.ltb_spec (vertex_count src) n); [|apply safe_panic]. cbn [negb].
  apply safe_ba_source; auto.
Qed.

Lemma safe_ba_from_generic {A} {C : AdjContainer T A} {L : AdjLaws C} p (mk : nat -> T) n m (src : graph A) rs : simple_graph src ->
  safe (fun r => ba_ready n m (fst r)) (ba_new_from_generic_graph p mk n m src rs).
Proof.
  intros W. unfold ba_new_from_generic_graph. destruct (forallb _ (vertices src)) eqn:D; [|apply safe_panic].
  rewrite (no_isolated W) in D. destruct (Nat.ltb_spec (vertex_count src) n); [|apply safe_panic]. cbn [negb].
  destruct (graph_from_spec W) as (W' & V' & _ & _ & N'). apply safe_ba_source; auto; try lia.
  intros i Hi. rewrite N'. apply D. lia.
Qed.

Lemma safe_ba_program p n m s l : ba_ready n m (fst s) -> safe (fun r => ba_ready n m (fst r)) (program (@ba_do T p) s l).
Proof.
  intros K. apply safe_program with (P := fun e => ba_ready n m e); auto.
  intros e c1 rs1 Hc Ke. apply safe_ba_do; auto.
Qed.

End Ba.
