(** How many draws the calls use. *)
From Verif Require Import Base BaseFacts Containers Graph GraphFacts Rng ErC ErM ErMFacts Sw Config Spacial Dog DrawsSpec DrawsFacts.
From Coq Require Import QArith.
Set Implicit Arguments.
Unset Strict Implicit.
Local Open Scope nat_scope.

Lemma uses_done {X} (x : X) : uses 0 (fun rs => Done (x, rs)).
Proof. intros rs y rest H. injection H as _ <-. reflexivity. Qed.
Lemma uses_stop {X} k : uses k (fun _ => Panic : outcome (X * rng)).
Proof. intros rs y rest H. discriminate H. Qed.

Lemma uses_bind {X Y} a b (f : rng -> outcome (X * rng)) (k : X -> rng -> outcome (Y * rng)) :
  uses a f -> (forall x, uses b (k x)) -> uses (a + b) (fun rs => do ' (x, rs1) <- f rs; k x rs1).
Proof.
  intros F K rs y rest H. destruct (f rs) as [[x rs1]| | |] eqn:E; try discriminate H.
  apply F in E. apply K in H. lia.
Qed.

Lemma uses_pure {X Y} b (m : outcome X) (k : X -> rng -> outcome (Y * rng)) :
  (forall x, uses b (k x)) -> uses b (fun rs => do x <- m; k x rs).
Proof. intros K rs y rest H. destruct m; try discriminate H. eapply K; eauto. Qed.

Lemma uses_foldM {X A} k (f : X * rng -> A -> outcome (X * rng)) (l : list A) :
  (forall x a, uses k (fun rs => f (x, rs) a)) -> forall x, uses (length l * k) (fun rs => foldM f (x, rs) l).
Proof.
  intros F. induction l as [|a l IH]; intros x rs y rest H; simpl in H; [injection H as _ <-; reflexivity|].
  destruct (f (x, rs) a) as [[x1 r1]| | |] eqn:E; try discriminate H. apply F in E. apply IH in H. simpl. lia.
Qed.

Lemma uses_gen_range h : uses 1 (gen_range h).
Proof. intros rs x rest H. apply gen_range_left in H. exact H. Qed.
Lemma uses_gen_f64 : uses 1 gen_f64.
Proof. intros rs x rest H. apply gen_f64_left in H. exact H. Qed.
Lemma uses_shuffle {X} (l : list X) : uses (length l - 1) (shuffle l).
Proof. intros rs x rest H. apply shuffle_left in H as [_ H]. exact H. Qed.

Ltac count :=
  repeat (cbv beta iota zeta;
  first
  [ assumption | apply uses_gen_range | apply uses_gen_f64 | apply uses_shuffle | apply uses_done | apply uses_stop
  | lazymatch goal with
    | |- uses _ (fun rs => bind (@?f rs) (fun p => let (x, r) := p in @?k x r)) =>
        first [ apply uses_bind; [|let x := fresh "x" in intros x; parts x]
              | apply uses_pure; let x := fresh "x" in intros x; parts x ]
    | |- uses _ (fun rs => bind ?m _) => apply uses_pure; let x := fresh "x" in intros x; parts x
    | |- uses _ (fun rs => if ?b then _ else _) => destruct b
    | |- uses _ (fun rs => match ?b with _ => _ end) => destruct b
    end ]).

Lemma uses_eq {X} k k' (f : rng -> outcome (X * rng)) : uses k f -> k = k' -> uses k' f.
Proof. intros H <-. exact H. Qed.

Lemma uses_two p h : uses 2 (draw_two_from_range p h).
Proof. unfold draw_two_from_range. eapply uses_eq; [count|reflexivity]. Qed.

Lemma uses_choose {X} (l : list X) : uses 1 (choose_unwrap l).
Proof. unfold choose_unwrap. eapply uses_eq; [count|reflexivity]. Qed.

Lemma clear_count {T A} {C : AdjContainer T A} (g : graph A) : vertex_count (clear_edges g) = vertex_count g.
Proof. unfold clear_edges. destruct (edge_count g =? 0); reflexivity. Qed.

Section Counts.
Context {T : Type}.

Lemma uses_erc_randomize (e : er_c T) :
  uses (vertex_count (erc_graph e) * (vertex_count (erc_graph e) - 1) / 2) (erc_randomize e).
Proof.
  unfold erc_randomize. eapply uses_eq.
  - eapply uses_bind; [apply uses_foldM with (k := 1); intros g ij; eapply uses_eq; [count|reflexivity]|].
    intros g. count.
  - pose proof (er_pairs_length (vertex_count (erc_graph e))) as P.
    rewrite clear_count.
    rewrite Nat.mul_1_r, Nat.add_0_r. rewrite <- P, Nat.mul_comm, Nat.div_mul; auto.
Qed.

Lemma uses_erc_step p (e : er_c T) : uses 3 (erc_m_step p e).
Proof.
  unfold erc_m_step. eapply uses_eq; [apply uses_bind; [apply uses_two|intros x; parts x; count]|reflexivity].
Qed.

Lemma uses_erm_randomize p (e : er_m T) : uses (length (erm_all e) - 1) (erm_randomize p e).
Proof. unfold erm_randomize. eapply uses_eq; [count|lia]. Qed.
Lemma uses_erm_step p (e : er_m T) : uses 2 (erm_m_step p e).
Proof. unfold erm_m_step. eapply uses_eq; [count|reflexivity]. Qed.

Lemma uses_sp_test (e : spacial T) g i j : uses 1 (sp_test e g i j).
Proof. unfold sp_test. eapply uses_eq; [count|reflexivity]. Qed.
Lemma uses_sp_randomize (e : spacial T) :
  uses (vertex_count (sp_graph e) * (vertex_count (sp_graph e) - 1) / 2) (sp_randomize e).
Proof.
  unfold sp_randomize. eapply uses_eq.
  - eapply uses_bind.
    + apply uses_foldM with (k := 1); intros g ij.
      apply uses_bind with (a := 1) (b := 0); [apply uses_sp_test|]. intros x. count.
    + intros g. count.
  - pose proof (er_pairs_length (vertex_count (sp_graph e))) as P.
    rewrite clear_count.
    rewrite Nat.mul_1_r, Nat.add_0_r. rewrite <- P, Nat.mul_comm, Nat.div_mul; auto.
Qed.
Lemma uses_sp_step p (e : spacial T) : uses 3 (sp_m_step p e).
Proof.
  unfold sp_m_step. eapply uses_eq.
  - apply uses_bind; [apply uses_two|intros x; parts x].
    apply uses_bind; [apply uses_sp_test|intros x; count].
  - reflexivity.
Qed.
Lemma uses_sp_steps p (e : spacial T) k : uses (3 * k) (sp_m_steps_quiet p e k).
Proof.
  unfold sp_m_steps_quiet. eapply uses_eq.
  - apply uses_foldM with (k := 3). intros x _. apply uses_bind with (a := 2) (b := 1); [apply uses_two|intros y; parts y].
    apply uses_bind with (a := 1) (b := 0); [apply uses_sp_test|intros y; count].
  - rewrite seq_length. lia.
Qed.
Lemma uses_sp_place (g : sgraph T) : uses (2 * length (vertices g)) (sp_place g).
Proof.
  unfold sp_place. eapply uses_eq.
  - apply uses_bind; [apply uses_foldM with (k := 2); intros x a; eapply uses_eq; [count|reflexivity]|].
    intros x. count.
  - lia.
Qed.

(** ** SwEnsemble *)

Lemma uses_sw_edge p (e : sw_ensemble T) i j rs s e' rest : sw_randomize_edge p e i j rs = Done (s, e', rest) ->
  sw_r_prob e' = sw_r_prob e /\ exists ds, rs = ds ++ rest /\ edge_draws (sw_r_prob e) ds.
Proof.
  unfold sw_randomize_edge. intros H. destruct rs as [|r rs]; [discriminate H|]. simpl in H.
  destruct (Qle_bool (unit_float r) (sw_r_prob e)) eqn:Q.
  - destruct (usub _ _ _) as [h| | |]; try discriminate H. simpl in H. unfold draw_remaining, gen_range in H.
    destruct (h =? 0); [discriminate H|]. destruct rs as [|k rs]; [discriminate H|]. simpl in H.
    destruct (sw_rewire_edge _ _ _ _ _) as [[? ?]| | |]; try discriminate H.
    injection H as _ <- <-. split; [reflexivity|]. exists [r; k]. split; [reflexivity|]. apply Qle_bool_iff in Q. exact Q.
  - destruct (sw_reset_edge _ _ _ _) as [[? ?]| | |]; try discriminate H. injection H as _ <- <-.
    split; [reflexivity|]. exists [r]. split; [reflexivity|]. simpl. apply Qnot_le_lt. intros L.
    apply Qle_bool_iff in L. congruence.
Qed.

Lemma uses_sw_randomize p (e : sw_ensemble T) rs e' rest : sw_randomize p e rs = Done (e', rest) ->
  exists dss, rs = concat dss ++ rest /\ length dss = 2 * vertex_count (sw_graph e) /\
    Forall (edge_draws (sw_r_prob e)) dss.
Proof.
  unfold sw_randomize. set (n := vertex_count (sw_graph e)). clearbody n. intros H0.
  assert (K : forall l e rs, foldM (sw_randomize_vertex p) (e, rs) l = Done (e', rest) ->
    exists dss, rs = concat dss ++ rest /\ length dss = 2 * length l /\ Forall (edge_draws (sw_r_prob e)) dss).
  2: { rewrite <- (seq_length n 0). apply K; auto. }
  clear e rs n H0.
  induction l as [|i l IH]; intros e rs H; [injection H as _ <-; exists []; auto|].
  change ((do s' <- sw_randomize_vertex p (e, rs) i; foldM (sw_randomize_vertex p) s' l) = Done (e', rest)) in H.
  destruct (sw_randomize_vertex p (e, rs) i) as [[e1 r1]| | |] eqn:E; try discriminate H. simpl bind in H.
  apply IH in H as (dss & -> & L & F). unfold sw_randomize_vertex in E.
  destruct (vget _ i) as [c| | |]; try discriminate E. simpl bind in E. cbv zeta in E.
  destruct (expect _) as [a| | |]; try discriminate E. simpl bind in E.
  destruct (expect _) as [b| | |]; try discriminate E. simpl bind in E.
  destruct (debug_assert _ _); try discriminate E. simpl bind in E.
  destruct (sw_randomize_edge p e i a rs) as [[[s2 e2] r2]| | |] eqn:E2; try discriminate E. simpl bind in E.
  destruct (debug_error_check _ _); try discriminate E. simpl bind in E.
  destruct (sw_randomize_edge p e2 i b r2) as [[[s3 e3] r3]| | |] eqn:E3; try discriminate E. simpl bind in E.
  destruct (debug_error_check _ _); try discriminate E. injection E as <- ->.
  apply uses_sw_edge in E2 as [P2 (d2 & -> & D2)]. apply uses_sw_edge in E3 as [P3 (d3 & -> & D3)].
  rewrite P3, P2 in F. rewrite P2 in D3.
  exists (d2 :: d3 :: dss). simpl. rewrite <- !app_assoc. splits; auto. lia.
Qed.

Lemma uses_sw_step p (e : sw_ensemble T) rs x rest : sw_m_step p e rs = Done (x, rest) ->
  exists r ds, rs = r :: ds ++ rest /\ edge_draws (sw_r_prob e) ds.
Proof.
  destruct x as [s e']. intros H. unfold sw_m_step, sw_draw_edge, gen_range in H.
  destruct (_ =? 0); [discriminate H|]. destruct rs as [|r rs]; [discriminate H|]. simpl bind in H.
  destruct (container _ _); try discriminate H. simpl bind in H.
  destruct (expect _); try discriminate H. simpl bind in H. apply uses_sw_edge in H as [_ (ds & -> & D)].
  exists r, ds. auto.
Qed.

(** ** ConfigurationModel *)

Lemma loop_uses {St X} a (body : St -> rng -> outcome ((St + X) * rng)) :
  (forall s rs r rest, body s rs = Done (r, rest) -> length rs = a + length rest) ->
  forall f s rs x rest, loop f body s rs = Done (x, rest) -> exists k, 1 <= k /\ length rs = k * a + length rest.
Proof.
  intros B. induction f as [|f IH]; intros s rs x rest H; [discriminate|]. simpl in H.
  destruct (body s rs) as [[[s'|y] r]| | |] eqn:E; try discriminate H; apply B in E; simpl in H.
  - destruct (IH _ _ _ _ H) as (k & L & K). exists (S k). simpl. lia.
  - injection H as _ <-. exists 1. lia.
Qed.

Lemma cm_step_parts p (e : config T) : exists tail,
  (forall rs, cm_m_step p e rs = do ' (v, rs1) <- loop (S (length rs)) (cm_draw_round (cm_backup e)) tt rs; tail v rs1)
  /\ forall v, uses 2 (tail v).
Proof.
  unfold cm_m_step. refine (ex_intro _ _ (conj (fun rs => eq_refl) _)).
  intros [v0 v1]. eapply uses_eq.
  - apply uses_pure. intros c0. apply uses_bind; [apply uses_choose|]. intros j.
    apply uses_pure. intros c1. apply uses_bind; [apply uses_choose|]. intros l. count.
  - reflexivity.
Qed.

Lemma uses_cm_step p (e : config T) rs x rest : cm_m_step p e rs = Done (x, rest) ->
  exists k, 2 <= k /\ length rs = 2 * k + length rest.
Proof.
  destruct (cm_step_parts p e) as (tail & E & U). rewrite E. intros H.
  destruct (loop _ _ tt rs) as [[v r1]| | |] eqn:L; try discriminate H. simpl bind in H.
  destruct (loop_uses (a := 2) (fun s r y t => @cm_draw_left (cm_backup e) r y t) L) as (k & Lk & Ek).
  apply U in H. exists (S k). lia.
Qed.

Lemma cm_round_uses p s rs (r : (graph (node_container T) * list nat * list nat) + _) rest :
  cm_round p s rs = Done (r, rest) ->
  (exists k, length rs = k * (length (snd (fst s)) - 1) + length rest) /\
  forall s', r = inl s' -> length (snd (fst s')) = length (snd (fst s)).
Proof.
  destruct s as [[g b] l]. unfold cm_round. intros H. cbn [fst snd].
  destruct (cm_add_multiple _ p g l) as [[[[] g1] h1]| | |] eqn:E; try discriminate H; simpl bind in H; cbv iota in H.
  - simpl in H. destruct h1; injection H as <- <-; (split; [exists 0; reflexivity|]); intros s' F; [discriminate F|].
    injection F as <-. reflexivity.
  - destruct (shuffle b rs) as [[b' r1]| | |] eqn:F; try discriminate H. simpl bind in H.
    apply shuffle_left in F as [Lb Lr]. simpl in H.
    destruct b'; injection H as <- <-; (split; [exists 1; lia|]); intros s' F; [discriminate F|].
    injection F as <-. exact Lb.
Qed.

Lemma uses_cm_randomize p (e : config T) rs e' rest : cm_randomize p e rs = Done (e', rest) ->
  exists k, 1 <= k /\ length rs = k * (length (cm_backup e) - 1) + length rest.
Proof.
  unfold cm_randomize. cbv zeta. intros H.
  destruct (shuffle (cm_backup e) rs) as [[b r1]| | |] eqn:E; try discriminate H. cbn [bind] in H.
  apply shuffle_left in E as [Lb Lr]. destruct b as [|x b].
  - injection H as _ <-. exists 1. lia.
  - destruct (loop _ _ _ r1) as [[[[g1 b1] h1] r2]| | |] eqn:L; try discriminate H. cbn [bind] in H. injection H as _ <-.
    assert (K : forall f s r y t, loop f (cm_round (T := T) p) s r = Done (y, t) ->
      exists k, length r = k * (length (snd (fst s)) - 1) + length t).
    { induction f as [|f IH]; intros s r y t H; [discriminate|]. cbn [loop] in H.
      destruct (cm_round p s r) as [[[s'|z] r']| | |] eqn:R; try discriminate H;
        destruct (cm_round_uses R) as [(k & Ek) Hs]; cbn [bind] in H.
      - destruct (IH _ _ _ _ H) as (k' & Ek'). rewrite (Hs s' eq_refl) in Ek'. exists (k + k'). rewrite Nat.mul_add_distr_r. lia.
      - injection H as _ <-. eauto. }
    destruct (K _ _ _ _ _ L) as (k & Ek). exists (S k). split; [lia|]. cbn [fst snd] in Ek. rewrite Lb in Ek. simpl. lia.
Qed.

(** ** DogEnsemble *)

Lemma uses_lhs_next l : uses (2 * min 1 (lhs_len l)) (lhs_next l).
Proof.
  unfold lhs_next, lhs_len. destruct (lhs_x l) as [|x xs]; [apply uses_done|].
  eapply uses_eq; [count|reflexivity].
Qed.

End Counts.
