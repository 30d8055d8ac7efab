(** With random words the calls end with probability one, as they do with random draws. *)
From Verif Require Import Base BaseFacts Containers ContainerSpec ContainerFacts Graph GraphSpec Sums GraphFacts GraphOps GraphBuild Rng RngFacts Runs
  DrawsSpec DrawsFacts DrawsCount SurelySpec SurelyFacts Config ConfigSpec ConfigFacts ConfigRun ConfigStep Words WordsSpec WordsFacts WordsEndSpec.
From Coq Require Import NArith.
Set Implicit Arguments.
Unset Strict Implicit.
Local Open Scope nat_scope.

(** [swift] without a bound on the draws. *)
Definition prompt (B : nat) {X} (Q : X -> Prop) (m : rng -> outcome (X * rng)) : Prop :=
  forall rs, match m rs with
  | Done (x, rs') => Q x /\ exists used, rs = used ++ rs' /\ forall more, m (used ++ more) = Done (x, more)
  | NoFuel => exists more x, length more <= B /\ (forall rest, m (rs ++ more ++ rest) = Done (x, rest)) /\ Q x
  | _ => False
  end.

Lemma swift_prompt {X} h B (Q : X -> Prop) m : swift h B Q m -> prompt B Q m.
Proof.
  intros H rs. specialize (H rs). destruct (m rs) as [[x rs']| | |]; auto.
  destruct H as (more & x & H1 & H2 & H3 & H4). eauto.
Qed.

Lemma prompt_ext {X} (Q : X -> Prop) m m' B : (forall rs, m rs = m' rs) -> prompt B Q m -> prompt B Q m'.
Proof.
  intros E H rs. rewrite <- E. specialize (H rs). destruct (m rs) as [[x rs']| | |]; auto.
  - destruct H as (Qx & u & Eu & H). split; auto. exists u. split; auto. intros more. rewrite <- E; auto.
  - destruct H as (more & x & H1 & H2 & H3). exists more, x. splits; auto.
    intros rest. rewrite <- E; auto.
Qed.

(** Enough draws let it return. *)
Lemma settled_prompt {X} B (f : rng -> outcome (X * rng)) : settled f ->
  (forall rs, B <= length rs -> exists x rest, f rs = Done (x, rest)) -> prompt B (fun _ => True) f.
Proof.
  intros S H rs.
  assert (L : B <= length (rs ++ repeat 0 B)) by (rewrite app_length, repeat_length; lia).
  destruct (H _ L) as (y & rest & E). destruct (f rs) as [[x t]| | |] eqn:Ef.
  - split; auto. exact (settled_returns S Ef).
  - rewrite (settled_panics S Ef) in E. discriminate.
  - rewrite (settled_undefined_too S Ef) in E. discriminate.
  - assert (N : forall x t, f rs <> Done (x, t)) by congruence.
    destruct (settled_resume S N E) as (m1 & Em & E1). exists m1, y. splits; auto.
    + rewrite <- (repeat_length 0 B), Em, app_length. lia.
    + intros o. rewrite app_assoc. destruct (settled_returns S E1) as (u & Eu & Hu).
      rewrite app_nil_r in Eu. rewrite Eu. apply Hu.
Qed.

(** What can be finished and always uses the same number of draws. *)
Lemma uses_prompt {X} B (Q : X -> Prop) (f : rng -> outcome (X * rng)) : runs True Q f -> uses B f -> prompt B Q f.
Proof.
  intros R U rs. pose proof (R rs) as H. destruct (f rs) as [[x t]| | |] eqn:E; auto.
  destruct (H I) as (more & x & Hx & Qx). exists more, x. splits; auto.
  pose proof (Hx []) as E1. rewrite app_nil_r in E1. apply U in E1. rewrite app_length in E1. cbn [length] in E1. lia.
Qed.

Lemma prompt_bind {X Y} (P : X -> Prop) (Q : Y -> Prop) m k B1 B2 :
  prompt B1 P m -> (forall x, P x -> prompt B2 Q (k x)) ->
  prompt (B1 + B2) Q (fun rs => do ' (x, rs1) <- m rs; k x rs1).
Proof.
  intros Hm Hk rs. specialize (Hm rs).
  destruct (m rs) as [[x rs1]| | |] eqn:E; cbn [bind]; try tauto.
  - destruct Hm as (Px & u & Eu & Hu). specialize (Hk x Px rs1).
    destruct (k x rs1) as [[y rs2]| | |] eqn:Ek; try tauto.
    + destruct Hk as (Qy & u2 & Eu2 & Hu2). split; auto. exists (u ++ u2). split.
      * rewrite <- app_assoc. congruence.
      * intros more. rewrite <- app_assoc, Hu. cbn [bind]. auto.
    + destruct Hk as (more & y & Lm & Hy & Qy). exists more, y. splits; auto; [lia|].
      intros rest. rewrite Eu, <- app_assoc, Hu. cbn [bind]. auto.
  - destruct Hm as (more & x & Lm & Hx & Px). specialize (Hk x Px []).
    destruct (k x []) as [[y rs2]| | |] eqn:Ek; try tauto.
    + destruct Hk as (Qy & u2 & Eu2 & Hu2). symmetry in Eu2. apply app_eq_nil in Eu2 as [-> ->].
      exists more, y. splits; auto; [lia|]. intros rest. rewrite Hx. cbn [bind]. apply (Hu2 rest).
    + destruct Hk as (more2 & y & Lm2 & Hy & Qy). exists (more ++ more2), y. splits; auto.
      * rewrite app_length. lia.
      * intros rest. rewrite <- app_assoc, Hx. cbn [bind]. apply Hy.
Qed.

Section Loop.
Context {St X : Type}.
Variable body : St -> rng -> outcome ((St + X) * rng).
Variable I : St -> Prop.
Variable Q : X -> Prop.
Variables B1 B2 : nat.
Hypothesis body_prompt : forall s, I s ->
  prompt B1 (fun r => match r with inl s' => I s' | inr x => Q x end) (body s).
Hypothesis body_uses : forall s rs s' rs1, I s -> body s rs = Done (inl s', rs1) -> length rs1 < length rs.
Hypothesis finish : forall s, I s -> exists ds x, length ds <= B2 /\ Q x /\
  forall rest, loop (S (length (ds ++ rest))) body s (ds ++ rest) = Done (x, rest).

Lemma prompt_runs {Y} B (P : Y -> Prop) m : prompt B P m -> runs True P m.
Proof.
  intros H rs. specialize (H rs). destruct (m rs) as [[y rs']| | |]; auto.
  intros _. destruct H as (more & x & _ & H1 & H2). eauto.
Qed.

Lemma prompt_loop s : I s -> prompt (B1 + B2) Q (fun rs => loop (S (length rs)) body s rs).
Proof using body_prompt body_uses finish.
  assert (fuel : forall f s rs, I s -> length rs < f -> loop f body s rs = loop (S (length rs)) body s rs).
  { apply (@loop_fuel True St X body I Q); auto. intros t Ht. apply (prompt_runs (body_prompt Ht)). }
  intros Hs rs. remember (length rs) as k eqn:Ek. revert s Hs rs Ek.
  induction k as [k IH] using lt_wf_ind. intros s Hs rs Ek. subst k.
  change (loop (S (length rs)) body s rs) with
    (do ' (r, rs1) <- body s rs; match r with inl s' => loop (length rs) body s' rs1 | inr x => Done (x, rs1) end).
  assert (U : forall rs', loop (S (length rs')) body s rs' =
    do ' (r, rs1) <- body s rs'; match r with inl s' => loop (length rs') body s' rs1 | inr x => Done (x, rs1) end)
    by reflexivity.
  pose proof (body_prompt Hs rs) as R.
  destruct (body s rs) as [[[s'|x] rs1]| | |] eqn:E; cbn [bind]; try tauto.
  - destruct R as (Hs' & u & Eu & Hu). pose proof (body_uses Hs E) as Lt.
    specialize (IH (length rs1) Lt s' Hs' rs1 eq_refl). rewrite fuel by auto.
    destruct (loop (S (length rs1)) body s' rs1) as [[x rs2]| | |]; try tauto.
    + destruct IH as (Qx & u2 & Eu2 & Hu2). split; auto. exists (u ++ u2). split.
      * rewrite <- app_assoc. congruence.
      * intros more. rewrite <- app_assoc. rewrite U, Hu. cbn [bind].
        rewrite fuel; auto. apply (body_uses Hs (Hu _)).
    + destruct IH as (more & x & Lm & Hx & Qx). exists more, x. splits; auto.
      intros rest. rewrite Eu, <- app_assoc. rewrite U, Hu. cbn [bind].
      rewrite fuel; auto. apply (body_uses Hs (Hu _)).
  - destruct R as (Qx & u & Eu & Hu). split; auto. exists u. split; auto.
    intros more. rewrite U, Hu. reflexivity.
  - destruct R as (more & r & Lm & Hr & Pr). destruct r as [s'|x].
    + destruct (finish Pr) as (ds & x & Ld & Qx & Hx). exists (more ++ ds), x. splits; auto.
      * rewrite app_length. lia.
      * intros rest. rewrite <- app_assoc. rewrite U, Hr. cbn [bind].
        rewrite fuel; auto. apply (body_uses Hs (Hr _)).
    + exists more, x. splits; auto; [lia|]. intros rest. rewrite U, Hr. reflexivity.
Qed.
End Loop.

(** ** From draws to words *)

Lemma words_back ds : map N.to_nat (map N.of_nat ds) = ds.
Proof. rewrite map_map. rewrite <- (map_id ds) at 2. apply map_ext. apply Nat2N.id. Qed.
Lemma words_there ws : map N.of_nat (map N.to_nat ws) = ws.
Proof. rewrite map_map. rewrite <- (map_id ws) at 2. apply map_ext. apply N2Nat.id. Qed.

Lemma word_low ws : Forall (fun v => v < 2 ^ 64)%N ws -> Forall (fun r => r < word_count) (map N.to_nat ws).
Proof.
  intros F. apply Forall_map. eapply Forall_impl; [|exact F]. intros v H. unfold word_count. cbv beta in *.
  revert H. generalize (2 ^ 64)%N. lia.
Qed.
Lemma word_count_pos : 0 < word_count.
Proof. unfold word_count. assert (H : (0 < 2 ^ 64)%N) by reflexivity. revert H. generalize (2 ^ 64)%N. lia. Qed.

(** With the words that are left as numbers. *)
Definition back {X} (w : list N -> outcome (X * list N)) (ds : list nat) : outcome (X * list nat) :=
  do ' (x, rest) <- w (map N.of_nat ds); Done (x, map N.to_nat rest).
Lemma back_unfinished {X} (w : list N -> outcome (X * list N)) ds : unfinished (on_words w ds) = unfinished (back w ds).
Proof. unfold on_words, back. destruct (w (map N.of_nat ds)) as [[]| | |]; reflexivity. Qed.

Lemma words_swift {X} B (Q : X -> Prop) w f : same_runs w f -> prompt B Q f -> swift word_count B Q (back w).
Proof.
  intros S P ds. unfold back at 1. destruct (w (map N.of_nat ds)) as [[x rest]| | |] eqn:E; cbn [bind].
  - destruct (words_return S E) as ((u & Eu & Hu) & rs & _ & Hrs). split.
    + specialize (P (rs ++ [])). rewrite Hrs in P. apply P.
    + exists (map N.to_nat u). split.
      * rewrite <- map_app, <- Eu. symmetry. apply words_back.
      * intros more. unfold back. rewrite map_app, words_there, Hu. cbn [bind]. now rewrite words_back.
  - destruct (words_panic S E) as (rs & H). specialize (P rs). now rewrite H in P.
  - destruct (words_undefined S E) as (rs & H). specialize (P rs). now rewrite H in P.
  - destruct (words_wait S E) as (rs & N & M). specialize (P rs).
    destruct (f rs) as [[x t]| | |] eqn:Ef; try tauto; [now destruct (N x t)|].
    destruct P as (more & x & L & Hx & Qx). destruct (M more x) as (ws' & F & L' & G).
    { specialize (Hx []). now rewrite app_nil_r in Hx. }
    exists (map N.to_nat ws'), x. rewrite map_length. splits; auto.
    + lia.
    + now apply word_low.
    + intros o. unfold back. rewrite !map_app, words_there, G. cbn [bind]. now rewrite words_back.
Qed.

Lemma words_surely {X} B (Q : X -> Prop) w f : same_runs w f -> prompt B Q f -> ends_on_words w.
Proof.
  intros S P. pose proof (words_swift S P) as W. split.
  - eapply surely_ext; [apply back_unfinished|]. eapply swift_surely; eauto using word_count_pos.
  - eexists. eapply mean_ext; [apply back_unfinished|]. eapply mean_bound; eauto using word_count_pos.
Qed.

Lemma ends_ext {X Y} (w : list N -> outcome X) (w' : list N -> outcome Y) :
  (forall ws, unfinished (w ws) = unfinished (w' ws)) -> ends_on_words w' -> ends_on_words w.
Proof.
  intros E [S [c M]]. split.
  - eapply surely_ext; [|exact S]. intros ds. apply E.
  - exists c. eapply mean_ext; [|exact M]. intros ds. apply E.
Qed.

Lemma words_never {X} w (f : rng -> outcome (X * rng)) : same_runs w f -> never_ends f -> forall ws, w ws = NoFuel.
Proof.
  intros S N ws. destruct (w ws) as [[x rest]| | |] eqn:E; auto.
  - destruct (words_return S E) as (_ & rs & _ & H). specialize (H []). rewrite N in H. discriminate.
  - destruct (words_panic S E) as (rs & H). rewrite N in H. discriminate.
  - destruct (words_undefined S E) as (rs & H). rewrite N in H. discriminate.
Qed.

(** Draws that never lead to a result can be had from words. *)
Lemma words_hang {X Y} w (f : rng -> outcome (X * rng)) (w' : list N -> outcome Y) u : same_runs w f ->
  (forall rest, f (u ++ rest) = NoFuel) -> (forall ws, unfinished (w' ws) = unfinished (w ws)) ->
  may_hang word_count (on_words w').
Proof.
  intros S H E.
  destruct (draws_wait S (rs := u)) as (ws & F & N & M).
  { rewrite <- (app_nil_r u). apply H. }
  assert (G : forall more, unfinished (w (ws ++ more)) = true).
  { intros more. destruct (w (ws ++ more)) as [[x rest]| | |] eqn:Ew; auto. exfalso.
    destruct (fixes_resume (same_words_fix S) N Ew) as (m1 & -> & E1).
    destruct (M _ _ E1) as (rs' & _ & D). specialize (D []). rewrite H in D. discriminate. }
  destruct (@trap_hangs unit word_count (fun ds => if unfinished (on_words w' ds) then NoFuel else Done tt) (map N.to_nat ws)) as (c & k0 & K).
  - now apply word_low.
  - intros rest. unfold on_words. rewrite map_app, words_there, E, G. reflexivity.
  - exists c, k0. intros k Hk. rewrite (@waiting_ext _ unit word_count _ (fun ds => if unfinished (on_words w' ds) then NoFuel else Done tt)).
    + apply K; auto.
    + intros ds. destruct (unfinished (on_words w' ds)); reflexivity.
Qed.

(** ** The Markov step of the configuration model *)

Lemma draw_two_prompt l a b : In a l -> In b l -> a <> b ->
  prompt 4 (fun r => In (fst r) l /\ In (snd r) l /\ fst r <> snd r)
    (fun rs => loop (S (length rs)) (cm_draw_round l) tt rs).
Proof.
  intros Ha Hb N.
  assert (L2 : 2 <= length l).
  { destruct l as [|x [|y l]]; cbn in *; lia. }
  apply (@prompt_loop _ _ (cm_draw_round l) (fun _ => True) _ 2 2); auto.
  - intros [] _. apply uses_prompt.
    + eapply runs_weaken; [|apply runs_draw_round; auto]. intros [[]|[x y]]; auto.
    + intros rs x rest E. now apply cm_draw_left in E.
  - intros [] rs [] rs1 _ E. apply cm_draw_left in E. lia.
  - intros [] _. destruct (draw_round_reach Ha Hb N) as (d1 & d2 & H).
    exists [d1; d2], (a, b). splits; auto. intros rest. cbn [app length loop]. rewrite H. reflexivity.
Qed.

Lemma cm_step_prompt {T} p v (e : config T) : cm_ok v e -> 0 < edge_count (cm_graph e) ->
  prompt 6 (fun r => cm_ok v (snd r) /\ step_effect e (fst r) (snd r)) (cm_m_step p e).
Proof.
  intros K He. pose proof K as [W [V D] Dv B].
  assert (Lv : forall x, In x (cm_backup e) -> nbrs (cm_graph e) x <> []).
  { intros x I Hx. apply (count_occ_In Nat.eq_dec) in I. rewrite B, <- D, Hx in I. cbn in I. lia. }
  assert (Mem : forall x y, adj (cm_graph e) x y -> In x (cm_backup e)).
  { intros x y A. apply (count_occ_In Nat.eq_dec). rewrite B, <- D. unfold adj in A.
    destruct (nbrs (cm_graph e) x); [destruct A|cbn; lia]. }
  assert (Ex : exists a b, adj (cm_graph e) a b).
  { rewrite (sg_count W) in He. unfold number_of_edges, count in He.
    destruct (filter _ _) as [|[a b] t] eqn:E; [cbn in He; lia|].
    assert (I : In (a, b) ((a, b) :: t)) by (simpl; auto). rewrite <- E in I. apply filter_In in I as [_ I].
    exists a, b. apply adjb_spec. auto. }
  destruct Ex as (a & b & Aab). pose proof (sg_sym W _ _ Aab) as Aba.
  assert (Nab : a <> b) by (intros ->; apply (sg_irrefl W _ Aab)).
  apply prompt_ext with (m := fun rs =>
    do ' (v01, rs1) <- loop (S (length rs)) (cm_draw_round (cm_backup e)) tt rs;
    do c0 <- vget (vertices (cm_graph e)) (fst v01);
    do ' (j, rs2) <- choose_unwrap (nc_adj c0) rs1;
    do c1 <- vget (vertices (cm_graph e)) (snd v01);
    do ' (l, rs3) <- choose_unwrap (nc_adj c1) rs2;
    step_tail p e (fst v01) j (snd v01) l rs3).
  { intros rs. unfold cm_m_step. destruct (loop _ _ _ rs) as [[[? ?] ?]| | |]; reflexivity. }
  apply (@prompt_bind _ _ (fun r => In (fst r) (cm_backup e) /\ In (snd r) (cm_backup e) /\ fst r <> snd r) _
    (fun rs => loop (S (length rs)) (cm_draw_round (cm_backup e)) tt rs)
    (fun v01 rs1 => do c0 <- vget (vertices (cm_graph e)) (fst v01);
      do ' (j, rs2) <- choose_unwrap (nc_adj c0) rs1;
      do c1 <- vget (vertices (cm_graph e)) (snd v01);
      do ' (l, rs3) <- choose_unwrap (nc_adj c1) rs2;
      step_tail p e (fst v01) j (snd v01) l rs3) 4 2).
  { apply (draw_two_prompt (Mem _ _ Aab) (Mem _ _ Aba) Nab). }
  intros [v0 v1] (I0 & I1 & N). cbn [fst snd] in *.
  destruct (choose_adj True W (Lv _ I0)) as (c0 & E0 & R0).
  destruct (choose_adj True W (Lv _ I1)) as (c1 & E1 & R1).
  unfold vget. rewrite E0, E1. cbn [bind].
  apply (@prompt_bind _ _ (fun j => adj (cm_graph e) v0 j) _ (choose_unwrap (nc_adj c0))
    (fun j rs2 => do ' (l, rs3) <- choose_unwrap (nc_adj c1) rs2; step_tail p e v0 j v1 l rs3) 1 1).
  { apply uses_prompt; auto. apply uses_choose. }
  intros j Aj.
  apply (@prompt_bind _ _ (fun l => adj (cm_graph e) v1 l) _ (choose_unwrap (nc_adj c1))
    (fun l rs3 => step_tail p e v0 j v1 l rs3) 1 0).
  { apply uses_prompt; auto. apply uses_choose. }
  intros l Al. destruct (step_tail_spec p K Aj Al N) as (s & e' & E & Ok' & Ef).
  intros rs. rewrite E. split; auto. exists []. split; auto.
Qed.
