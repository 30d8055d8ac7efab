(** Markov steps of the configuration model. *)
From Verif Require Import Base BaseFacts Containers ContainerSpec ContainerFacts Graph GraphSpec
  Sums GraphFacts GraphOps GraphBuild Rng RngFacts Runs EnsembleFacts Config ConfigSpec ConfigFacts ConfigRun.
Set Implicit Arguments.
Unset Strict Implicit.
Local Open Scope nat_scope.

Local Notation cnt := (count_occ Nat.eq_dec).

(** *** Drawing two vertices *)

Lemma choose_two_unfold l rs : 2 <= length l -> choose_two l rs =
  do ' (t1, rs1) <- gen_range (length l - 1) rs;
  do ' (t2, rs2) <- gen_range (length l) rs1;
  do x <- vget l (if t1 =? t2 then length l - 1 else t1);
  do y <- vget l t2;
  Done ([x; y], rs2).
Proof. intros H. unfold choose_two. destruct (length l) as [|[|k]]; auto; lia. Qed.

Lemma runs_choose_two live l : 2 <= length l ->
  runs live (fun r => exists x y, r = [x; y] /\ In x l /\ In y l) (choose_two l).
Proof.
  intros H. eapply runs_ext; [intros rs; symmetry; apply choose_two_unfold; auto|].
  apply (@runs_bind live _ _ (fun t => t < length l - 1) _ (gen_range (length l - 1))
    (fun t1 rs1 => do ' (t2, rs2) <- gen_range (length l) rs1;
       do x <- vget l (if t1 =? t2 then length l - 1 else t1);
       do y <- vget l t2; Done ([x; y], rs2))); [apply runs_gen_range; lia|].
  intros t1 H1.
  apply (@runs_bind live _ _ (fun t => t < length l) _ (gen_range (length l))
    (fun t2 rs2 =>
       do x <- vget l (if t1 =? t2 then length l - 1 else t1);
       do y <- vget l t2; Done ([x; y], rs2))); [apply runs_gen_range; lia|].
  intros t2 H2.
  assert (Hx : (if t1 =? t2 then length l - 1 else t1) < length l) by (destruct (t1 =? t2); lia).
  destruct (vget_lt l Hx) as [x Ex]. destruct (vget_lt l H2) as [y Ey]. unfold vget. rewrite Ex, Ey. cbn [bind].
  apply runs_ret. exists x, y. splits; auto; eapply nth_error_In; eauto.
Qed.

Lemma runs_draw_round live l : 2 <= length l ->
  runs live (fun r => match r with inl _ => True | inr (a, b) => In a l /\ In b l /\ a <> b end)
    (cm_draw_round l tt).
Proof.
  intros H.
  apply (@runs_bind live _ _ (fun r => exists x y, r = [x; y] /\ In x l /\ In y l) _ (choose_two l)
    (fun r rs1 => do a <- vget r 0; do b <- vget r 1;
       if a =? b then Done (inl tt, rs1) else Done (inr (a, b), rs1))); [apply runs_choose_two; auto|].
  intros r (x & y & -> & Hx & Hy). cbn [vget nth_error bind expect].
  destruct (Nat.eqb_spec x y); apply runs_ret; auto.
Qed.

Lemma choose_two_uses l r rs rs' : 2 <= length l -> choose_two l rs = Done (r, rs') -> length rs' < length rs.
Proof.
  intros H E. rewrite choose_two_unfold in E by auto.
  apply bind_done in E as ([t1 rs1] & E1 & E). apply bind_done in E as ([t2 rs2] & E2 & E).
  apply bind_done in E as (x & _ & E). apply bind_done in E as (y & _ & E). injection E as <- <-.
  apply gen_range_done in E1 as (_ & ? & -> & _). apply gen_range_done in E2 as (_ & ? & -> & _). cbn. lia.
Qed.

Lemma draw_round_reach l a b : In a l -> In b l -> a <> b ->
  exists d1 d2, forall rest, cm_draw_round l tt (d1 :: d2 :: rest) = Done (inr (a, b), rest).
Proof.
  intros Ha Hb N. destruct (In_nth_error _ _ Ha) as [i Ei]. destruct (In_nth_error _ _ Hb) as [j Ej].
  assert (Li : i < length l) by (apply nth_error_Some; congruence).
  assert (Lj : j < length l) by (apply nth_error_Some; congruence).
  assert (Nij : i <> j) by congruence.
  assert (K : forall t1 t2, t1 < length l - 1 -> t2 < length l ->
     forall rest, choose_two l (t1 :: t2 :: rest) =
       do x <- vget l (if t1 =? t2 then length l - 1 else t1); do y <- vget l t2; Done ([x; y], rest)).
  { intros t1 t2 H1 H2 rest. rewrite choose_two_unfold by lia.
    rewrite gen_range_small by lia. cbn [bind]. rewrite gen_range_small by lia. reflexivity. }
  destruct (Nat.lt_ge_cases i (length l - 1)) as [H|H].
  - exists i, j. intros rest. unfold cm_draw_round. rewrite K by lia.
    destruct (Nat.eqb_spec i j); [lia|]. unfold vget. rewrite Ei, Ej. cbn.
    destruct (Nat.eqb_spec a b); [congruence|auto].
  - exists j, j. intros rest. unfold cm_draw_round. rewrite K by lia. rewrite Nat.eqb_refl.
    replace (length l - 1) with i by lia. unfold vget. rewrite Ei, Ej. cbn.
    destruct (Nat.eqb_spec a b); [congruence|auto].
Qed.

Lemma runs_draw_two live l a b : In a l -> In b l -> a <> b ->
  runs live (fun r => In (fst r) l /\ In (snd r) l /\ fst r <> snd r)
    (fun rs => loop (S (length rs)) (cm_draw_round l) tt rs).
Proof.
  intros Ha Hb N.
  assert (L2 : 2 <= length l).
  { destruct l as [|x [|y l]]; cbn in *; lia. }
  apply (runs_loop (I := fun _ => True)); auto.
  - intros [] _. eapply runs_weaken; [|apply runs_draw_round; auto]. intros [[]|[x y]]; auto.
  - intros [] rs [] rs1 _ E. unfold cm_draw_round in E. apply bind_done in E as ([r rs2] & E1 & E).
    apply choose_two_uses in E1; auto. apply bind_done in E as (x & _ & E). apply bind_done in E as (y & _ & E).
    destruct (x =? y); [|discriminate]. injection E as <-. auto.
  - intros _ [] _. destruct (draw_round_reach Ha Hb N) as (d1 & d2 & H).
    exists [d1; d2], (a, b). splits; auto. intros rest. cbn [app length loop]. rewrite H. reflexivity.
Qed.

(** *** The step *)

Section Steps.
Context {T : Type}.
Local Notation G := (graph (node_container T)).
Implicit Types (g : G) (e : config T).

(** The graph operations of [m_step], after the draws. *)
Definition step_tail p e v0 j v1 l (rs3 : rng) : outcome (cm_step * config T * rng) :=
  let g := cm_graph e in
  let back g' := mk_cm g' (cm_degrees e) (cm_halfs e) (cm_backup e) in
  if (v1 =? v0) || (j =? l) then Done (Cm_Error, e, rs3)
  else
    do ' (r1, g1) <- add_edge p g v0 v1;
    match r1 with
    | Err _ => Done (Cm_Error, back g1, rs3)
    | Ok _ =>
        do ' (r2, g2) <- add_edge p g1 j l;
        match r2 with
        | Err _ =>
            do g3 <- done_ok (remove_edge p g2 v0 v1);
            Done (Cm_Error, back g3, rs3)
        | Ok _ =>
            do g3 <- done_ok (remove_edge p g2 v0 j);
            do g4 <- done_ok (remove_edge p g3 v1 l);
            Done (Cm_Added (v0, j) (v1, l), back g4, rs3)
        end
    end.

Lemma step_tail_spec p v e v0 j v1 l : cm_ok v e ->
  adj (cm_graph e) v0 j -> adj (cm_graph e) v1 l -> v0 <> v1 ->
  exists s e', (forall rs, step_tail p e v0 j v1 l rs = Done (s, e', rs)) /\
    cm_ok v e' /\ step_effect e s e'.
Proof.
  intros K A0 A1 N. pose proof K as [W [V D] Dv B]. unfold step_tail.
  assert (Eta : mk_cm (cm_graph e) (cm_degrees e) (cm_halfs e) (cm_backup e) = e) by (destruct e; auto).
  destruct (adj_lt W A0) as [H0 Hj]. destruct (adj_lt W A1) as [H1 Hl].
  destruct (Nat.eqb_spec v1 v0) as [->|_]; [congruence|].
  destruct (Nat.eqb_spec j l) as [->|Njl]; cbn [orb].
  { exists Cm_Error, e. split; auto. split; auto. reflexivity. }
  destruct (@add_case _ _ _ _ p (cm_graph e) v0 v1 W) as [[_ E]|(X1 & g1 & E1 & W1 & V1 & P1 & Ad1 & D1)]; auto.
  { rewrite E. cbn [bind]. rewrite Eta. exists Cm_Error, e. split; auto. split; auto. reflexivity. }
  rewrite E1. cbn [bind].
  destruct (@add_case _ _ _ _ p g1 j l W1) as [[_ E]|(X2 & g2 & E2 & W2 & V2 & P2 & Ad2 & D2)]; auto; try congruence.
  { rewrite E. cbn [bind]. rewrite (add_remove_cancel W E1). cbn [done_ok bind unwrap]. rewrite Eta.
    exists Cm_Error, e. split; auto. split; auto. reflexivity. }
  rewrite E2. cbn [bind].
  assert (N0 : v0 <> j) by (intros ->; apply (sg_irrefl W _ A0)).
  assert (N1 : v1 <> l) by (intros ->; apply (sg_irrefl W _ A1)).
  destruct (@remove_case _ _ _ _ p g2 v0 j W2) as [[X _]|(_ & g3 & E3 & W3 & V3 & P3 & Ad3 & D3)]; auto; try congruence.
  { exfalso. apply X. rewrite Ad2, Ad1. auto. }
  rewrite E3. cbn [done_ok bind unwrap].
  destruct (@remove_case _ _ _ _ p g3 v1 l W3) as [[X _]|(_ & g4 & E4 & W4 & V4 & P4 & Ad4 & D4)]; auto; try congruence.
  { exfalso. apply X. rewrite Ad3, Ad2, Ad1. split; auto. unfold ends. cbn.
    intros [[? ?]|[-> ->]]; [congruence|]. auto. }
  rewrite E4. cbn [done_ok bind unwrap]. eexists _, _. split; [reflexivity|]. split.
  - constructor; cbn; auto. split; [congruence|]. intros i. specialize (D i).
    specialize (D1 i). specialize (D2 i). specialize (D3 i). specialize (D4 i). lia.
  - cbn [step_effect cm_graph cm_degrees cm_halfs cm_backup]. splits; auto; try congruence.
    + rewrite Ad1 in X2. tauto.
    + intros x y. rewrite Ad4, Ad3, Ad2, Ad1.
      assert (Q1 : ends (v0, v1) x y -> ~ ends (v0, j) x y /\ ~ ends (v1, l) x y).
      { unfold ends. cbn. intros [[-> ->]|[-> ->]]; split; intros [[? ?]|[? ?]]; subst; try congruence; exfalso; apply X1; auto using (sg_sym W). }
      assert (Q2 : ends (j, l) x y -> ~ ends (v0, j) x y /\ ~ ends (v1, l) x y).
      { rewrite Ad1 in X2. unfold ends in *. cbn in *.
        intros [[-> ->]|[-> ->]]; split; intros [[? ?]|[? ?]]; subst; try congruence; try tauto;
        exfalso; apply X2; left; auto using (sg_sym W). }
      tauto.
Qed.

Lemma choose_adj live g i : simple_graph g -> nbrs g i <> [] ->
  exists c, nth_error (vertices g) i = Some c /\
    runs live (fun j => adj g i j) (choose_unwrap (nc_adj c)).
Proof.
  intros W N. unfold nbrs, adj in *. destruct (nth_error (vertices g) i) as [c|] eqn:E; [|congruence].
  exists c. split; auto. eapply runs_weaken; [|apply runs_choose; exact N].
  intros j Hj. unfold nbrs. rewrite E. auto.
Qed.

Lemma step_runs live p v e : cm_ok v e -> 0 < edge_count (cm_graph e) ->
  runs live (fun r => cm_ok v (snd r) /\ step_effect e (fst r) (snd r)) (cm_m_step p e).
Proof.
  intros K He. pose proof K as [W [V D] Dv B].
  assert (Lv : forall x, In x (cm_backup e) -> nbrs (cm_graph e) x <> []).
  { intros x I Hx. apply (count_occ_In Nat.eq_dec) in I. rewrite B, <- D, Hx in I. cbn in I. lia. }
  assert (Mem : forall x y, adj (cm_graph e) x y -> In x (cm_backup e)).
  { intros x y A. apply (count_occ_In Nat.eq_dec). rewrite B, <- D. unfold adj in A.
    destruct (nbrs (cm_graph e) x); [destruct A|cbn; lia]. }
  assert (Ex : exists a b, adj (cm_graph e) a b).
  { rewrite (sg_count W) in He. unfold number_of_edges, count in He.
    destruct (filter _ _) as [|[a b] t] eqn:E; [cbn in He; lia|].
    assert (I : In (a, b) ((a, b) :: t)) by (simpl; auto). rewrite <- E in I. apply filter_In in I as [_ I].
    exists a, b. apply adjb_spec. auto. }
  destruct Ex as (a & b & Aab). pose proof (sg_sym W _ _ Aab) as Aba.
  assert (Nab : a <> b) by (intros ->; apply (sg_irrefl W _ Aab)).
  apply runs_ext with (m := fun rs =>
    do ' (v01, rs1) <- loop (S (length rs)) (cm_draw_round (cm_backup e)) tt rs;
    do c0 <- vget (vertices (cm_graph e)) (fst v01);
    do ' (j, rs2) <- choose_unwrap (nc_adj c0) rs1;
    do c1 <- vget (vertices (cm_graph e)) (snd v01);
    do ' (l, rs3) <- choose_unwrap (nc_adj c1) rs2;
    step_tail p e (fst v01) j (snd v01) l rs3).
  { intros rs. unfold cm_m_step. destruct (loop _ _ _ rs) as [[[? ?] ?]| | |]; reflexivity. }
  apply (@runs_bind live _ _ (fun r => In (fst r) (cm_backup e) /\ In (snd r) (cm_backup e) /\ fst r <> snd r) _
    (fun rs => loop (S (length rs)) (cm_draw_round (cm_backup e)) tt rs)
    (fun v01 rs1 => do c0 <- vget (vertices (cm_graph e)) (fst v01);
      do ' (j, rs2) <- choose_unwrap (nc_adj c0) rs1;
      do c1 <- vget (vertices (cm_graph e)) (snd v01);
      do ' (l, rs3) <- choose_unwrap (nc_adj c1) rs2;
      step_tail p e (fst v01) j (snd v01) l rs3)).
  { apply (runs_draw_two live (Mem _ _ Aab) (Mem _ _ Aba) Nab). }
  intros [v0 v1] (I0 & I1 & N). cbn [fst snd] in *.
  destruct (choose_adj live W (Lv _ I0)) as (c0 & E0 & R0).
  destruct (choose_adj live W (Lv _ I1)) as (c1 & E1 & R1).
  unfold vget. rewrite E0, E1. cbn [bind].
  apply (@runs_bind live _ _ (fun j => adj (cm_graph e) v0 j) _ (choose_unwrap (nc_adj c0))
    (fun j rs2 => do ' (l, rs3) <- choose_unwrap (nc_adj c1) rs2; step_tail p e v0 j v1 l rs3)); auto.
  intros j Aj.
  apply (@runs_bind live _ _ (fun l => adj (cm_graph e) v1 l) _ (choose_unwrap (nc_adj c1))
    (fun l rs3 => step_tail p e v0 j v1 l rs3)); auto.
  intros l Al. destruct (step_tail_spec p K Aj Al N) as (s & e' & E & Ok' & Ef).
  apply runs_ext with (m := fun rs => Done ((s, e'), rs)); [intros; symmetry; apply E|].
  apply runs_ret. auto.
Qed.

(** Without edges there is nothing to draw. *)
Lemma step_no_edges p v e rs : cm_ok v e -> edge_count (cm_graph e) = 0 -> cm_m_step p e rs = Panic.
Proof.
  intros [W D Dv B] E. assert (Bn : cm_backup e = []).
  { pose proof (degrees_sum W D) as Sm. rewrite E in Sm. rewrite <- (backup_length B) in Sm.
    destruct (cm_backup e); [auto|cbn in Sm; lia]. }
  unfold cm_m_step. rewrite Bn. reflexivity.
Qed.

Lemma step_done p v e rs s e' rs' : cm_ok v e -> cm_m_step p e rs = Done (s, e', rs') ->
  cm_ok v e' /\ step_effect e s e'.
Proof.
  intros K E. destruct (Nat.eq_dec (edge_count (cm_graph e)) 0) as [Z|Z].
  - rewrite (step_no_edges p rs K Z) in E. discriminate.
  - assert (He : 0 < edge_count (cm_graph e)) by lia.
    apply (runs_done (step_runs True p K He) E).
Qed.

Lemma effect_shape v e s e' : cm_ok v e -> step_effect e s e' -> step_shape (length v) s.
Proof.
  intros [W [V _] _ _]. destruct s as [|[a b] [c d]]; cbn; auto.
  intros (A1 & A2 & A3 & A4 & A5 & A6 & _). destruct (adj_lt W A1), (adj_lt W A2). rewrite <- V.
  splits; auto; intros ->; solve [apply (sg_irrefl W _ A1) | apply (sg_irrefl W _ A2)].
Qed.

(** *** Undoing *)

Lemma step_trace p v e rs (e1 e2 : nat * nat) e' rs' : cm_ok v e -> cm_m_step p e rs = Done (Cm_Added e1 e2, e', rs') ->
  exists g1 g2 g3, add_edge p (cm_graph e) (fst e1) (fst e2) = Done (Ok tt, g1) /\
    add_edge p g1 (snd e1) (snd e2) = Done (Ok tt, g2) /\
    remove_edge p g2 (fst e1) (snd e1) = Done (Ok tt, g3) /\
    remove_edge p g3 (fst e2) (snd e2) = Done (Ok tt, cm_graph e').
Proof.
  intros K E. unfold cm_m_step in E.
  apply bind_done in E as ([[v0 v1] rs1] & _ & E). apply bind_done in E as (c0 & _ & E).
  apply bind_done in E as ([j rs2] & _ & E). apply bind_done in E as (c1 & _ & E).
  apply bind_done in E as ([l rs3] & _ & E).
  destruct ((v1 =? v0) || (j =? l)); [discriminate|].
  apply bind_done in E as ([r1 g1] & E1 & E). destruct r1 as [[]|]; [|discriminate].
  apply bind_done in E as ([r2 g2] & E2 & E).
  destruct r2 as [[]|]; [|apply bind_done in E as (? & _ & E); discriminate].
  apply bind_done in E as (g3 & E3 & E). apply bind_done in E as (g4 & E4 & E).
  unfold done_ok in E3, E4.
  apply bind_done in E3 as ([r3 g3'] & E3 & E3'). apply bind_done in E4 as ([r4 g4'] & E4 & E4').
  destruct r3 as [[]|]; [|discriminate]. destruct r4 as [[]|]; [|discriminate].
  cbn in E3', E4'. injection E3' as ->. injection E4' as ->. injection E as <- <- <- <-.
  exists g1, g2, g3. cbn. auto.
Qed.

Lemma step_undo p v e rs s e' rs' h : cm_ok v e -> cm_m_step p e rs = Done (s, e', rs') ->
  cm_ok v h -> cm_like e' h ->
  exists h', cm_undo_step p h s = Done (Ok tt, h') /\ cm_undo_step_quiet p h s = Done h' /\
    cm_ok v h' /\ cm_like e h'.
Proof.
  intros K E Kh (S & L1 & L2 & L3). destruct (step_done K E) as [K' Ef].
  destruct s as [|e1 e2].
  { cbn in Ef. subst e'. exists h. repeat (split; [reflexivity|]). split; auto. unfold cm_like. auto. }
  destruct (step_trace K E) as (g1 & g2 & g3 & E1 & E2 & E3 & E4).
  pose proof K as [W D Dv B].
  destruct (add_edge_ok W E1) as (_ & W1 & _). destruct (add_edge_ok W1 E2) as (_ & W2 & _).
  destruct (remove_edge_ok W2 E3) as (_ & W3 & _).
  destruct (undo_remove W3 E4 (co_simple Kh) S) as (h1 & F1 & Wh1 & S1).
  destruct (undo_remove W2 E3 Wh1 S1) as (h2 & F2 & Wh2 & S2).
  destruct (undo_add W1 E2 Wh2 S2) as (h3 & F3 & Wh3 & S3).
  destruct (undo_add W E1 Wh3 S3) as (h4 & F4 & Wh4 & S4).
  destruct e1 as [a b], e2 as [c d]. cbn [fst snd] in *.
  destruct Ef as (_ & _ & _ & _ & _ & _ & _ & P & Q1 & Q2 & Q3).
  exists (mk_cm h4 (cm_degrees h) (cm_halfs h) (cm_backup h)).
  cbn [cm_undo_step cm_undo_step_quiet fst snd]. rewrite F1. cbn [bind done_ok unwrap].
  rewrite F2. cbn [bind done_ok unwrap]. rewrite F3. cbn [bind done_ok unwrap].
  rewrite F4. cbn [bind done_ok unwrap]. split; [reflexivity|]. split; [reflexivity|]. split.
  - constructor; cbn; auto.
    + destruct S4 as (V4 & _ & _ & Pm). destruct D as [V D]. split; [congruence|].
      intros i. rewrite <- D. symmetry. apply Permutation_length; auto.
    + apply Kh.
    + apply Kh.
  - unfold cm_like. cbn. split; auto. splits; congruence.
Qed.

(** Undoing any step of the right shape. *)
Lemma undo_any p v e s : cm_ok v e -> step_shape (length v) s ->
  exists r e', cm_undo_step p e s = Done (r, e') /\ cm_ok v e' /\
    cm_degrees e' = cm_degrees e /\ cm_halfs e' = cm_halfs e /\ cm_backup e' = cm_backup e /\
    match r with
    | Err _ => same_topology (cm_graph e) (cm_graph e') /\ cm_undo_step_quiet p e s = Panic
    | Ok _ => payloads (cm_graph e') = payloads (cm_graph e) /\ cm_undo_step_quiet p e s = Done e' /\
        match s with
        | Cm_Error => e' = e
        | Cm_Added e1 e2 =>
            forall x y, adj (cm_graph e') x y <->
              (adj (cm_graph e) x y \/ ends e1 x y \/ ends e2 x y) /\
              ~ ends (fst e1, fst e2) x y /\ ~ ends (snd e1, snd e2) x y
        end
    end.
Proof.
  intros K Sh. destruct s as [|[a b] [c d]].
  { exists (Ok tt), e. cbn. splits; auto. }
  pose proof K as [W [V D] Dv B]. cbn in Sh. rewrite <- V in Sh.
  destruct Sh as (Ha & Hb & Hc & Hd & Nab & Ncd & Nac & Nbd).
  assert (Ret : forall g' : G, simple_graph g' -> vertex_count g' = vertex_count (cm_graph e) ->
    (forall k, length (nbrs g' k) = length (nbrs (cm_graph e) k)) ->
    cm_ok v (mk_cm g' (cm_degrees e) (cm_halfs e) (cm_backup e))).
  { intros g' Wg Vg Dg. constructor; cbn; auto. split; [congruence|]. intros i. rewrite Dg; auto. }
  cbn [cm_undo_step cm_undo_step_quiet fst snd].
  destruct (@add_case _ _ _ _ p (cm_graph e) c d W) as [[_ E]|(X1 & g1 & E1 & W1 & V1 & P1 & Ad1 & D1)]; auto.
  { rewrite E. cbn [bind done_ok unwrap]. eexists _, _. split; [reflexivity|]. splits; auto.
    apply same_topology_refl. }
  rewrite E1. cbn [bind done_ok unwrap].
  destruct (@add_case _ _ _ _ p g1 a b W1) as [[_ E]|(X2 & g2 & E2 & W2 & V2 & P2 & Ad2 & D2)]; auto; try congruence.
  { rewrite E. cbn [bind done_ok unwrap]. rewrite (add_remove_cancel W E1). cbn [bind done_ok unwrap].
    eexists _, _. split; [reflexivity|]. splits; auto. apply same_topology_refl. }
  rewrite E2. cbn [bind done_ok unwrap].
  destruct (@remove_case _ _ _ _ p g2 b d W2) as [[X3 E]|(X3 & g3 & E3 & W3 & V3 & P3 & Ad3 & D3)]; auto; try congruence.
  { rewrite E. cbn [bind done_ok unwrap].
    destruct (@remove_case _ _ _ _ p g2 c d W2) as [[X _]|(X4 & g4 & E4 & W4 & V4 & P4 & Ad4 & D4)]; auto; try congruence.
    { exfalso. apply X. rewrite Ad2, Ad1. unfold ends. cbn. auto. }
    rewrite E4. cbn [bind done_ok unwrap].
    assert (Ncross : ~ ends (c, d) a b).
    { intros Q. apply X2. rewrite Ad1. auto. }
    destruct (@remove_case _ _ _ _ p g4 a b W4) as [[X _]|(X5 & g5 & E5 & W5 & V5 & P5 & Ad5 & D5)]; auto; try congruence.
    { exfalso. apply X. rewrite Ad4, Ad2. split; auto. right. unfold ends. cbn. auto. }
    rewrite E5. cbn [bind done_ok unwrap]. eexists _, _. split; [reflexivity|].
    assert (Tp : same_topology (cm_graph e) g5).
    { apply same_topology_intro; auto; try congruence. intros x y. rewrite Ad5, Ad4, Ad2, Ad1.
      assert (Q1 : adj (cm_graph e) x y -> ~ ends (a, b) x y).
      { intros Q [[-> ->]|[-> ->]]; cbn in Q; apply X2; rewrite Ad1; left; auto using (sg_sym W). }
      assert (Q2 : adj (cm_graph e) x y -> ~ ends (c, d) x y).
      { intros Q [[-> ->]|[-> ->]]; cbn in Q; apply X1; auto using (sg_sym W). }
      tauto. }
    splits; auto. apply Ret; auto; try congruence. intros k. symmetry. apply Permutation_length. apply Tp. }
  rewrite E3. cbn [bind done_ok unwrap].
  destruct (@remove_case _ _ _ _ p g3 a c W3) as [[X4 E]|(X4 & g4 & E4 & W4 & V4 & P4 & Ad4 & D4)]; auto; try congruence.
  { rewrite E. cbn [bind done_ok unwrap].
    rewrite Ad3, Ad2, Ad1 in X4.
    assert (Nbc : b <> c).
    { intros <-. apply X4. split; [right; unfold ends; cbn; auto|]. unfold ends; cbn.
      intros [[? ?]|[-> _]]; [congruence|]. apply X2. rewrite Ad1. right. unfold ends. cbn. auto. }
    assert (Nad : a <> d).
    { intros <-. apply X4. split; [left; right; unfold ends; cbn; auto|]. unfold ends; cbn.
      intros [[? ?]|[_ ?]]; congruence. }
    destruct (@remove_case _ _ _ _ p g3 c d W3) as [[X _]|(_ & g5 & E5 & W5 & V5 & P5 & Ad5 & D5)]; auto; try congruence.
    { exfalso. apply X. rewrite Ad3, Ad2, Ad1. unfold ends. cbn. split; [auto|]. intros [[? ?]|[? ?]]; congruence. }
    rewrite E5. cbn [bind done_ok unwrap].
    assert (Ncross : ~ ends (c, d) a b).
    { intros Q. apply X2. rewrite Ad1. auto. }
    destruct (@remove_case _ _ _ _ p g5 a b W5) as [[X _]|(_ & g6 & E6 & W6 & V6 & P6 & Ad6 & D6)]; auto; try congruence.
    { exfalso. apply X. rewrite Ad5, Ad3, Ad2. split; auto. unfold ends. cbn. split; [auto|].
      intros [[? ?]|[? ?]]; congruence. }
    rewrite E6. cbn [bind done_ok unwrap].
    destruct (@add_case _ _ _ _ p g6 b d W6) as [[X _]|(_ & g7 & E7 & W7 & V7 & P7 & Ad7 & D7)]; auto; try congruence.
    { exfalso. rewrite Ad6, Ad5, Ad3 in X. unfold ends in X. cbn in X. tauto. }
    rewrite E7. cbn [bind done_ok unwrap]. eexists _, _. split; [reflexivity|].
    assert (Xbd : adj (cm_graph e) b d).
    { rewrite Ad2, Ad1 in X3. unfold ends in X3. cbn in X3. intuition congruence. }
    assert (Tp : same_topology (cm_graph e) g7).
    { apply same_topology_intro; auto; try congruence. intros x y. rewrite Ad7, Ad6, Ad5, Ad3, Ad2, Ad1.
      assert (Q1 : adj (cm_graph e) x y -> ~ ends (a, b) x y).
      { intros Q [[-> ->]|[-> ->]]; cbn in Q; apply X2; rewrite Ad1; left; auto using (sg_sym W). }
      assert (Q2 : adj (cm_graph e) x y -> ~ ends (c, d) x y).
      { intros Q [[-> ->]|[-> ->]]; cbn in Q; apply X1; auto using (sg_sym W). }
      assert (Q3 : ends (b, d) x y -> adj (cm_graph e) x y).
      { intros [[-> ->]|[-> ->]]; cbn; auto using (sg_sym W). }
      assert (Q4 : ends (b, d) x y \/ ~ ends (b, d) x y).
      { unfold ends. cbn. destruct (Nat.eq_dec x b), (Nat.eq_dec y d), (Nat.eq_dec x d), (Nat.eq_dec y b); tauto. }
      tauto. }
    splits; auto. apply Ret; auto; try congruence. intros k. symmetry. apply Permutation_length. apply Tp. }
  rewrite E4. cbn [bind done_ok unwrap]. eexists _, _. split; [reflexivity|].
  assert (Dg : forall k, length (nbrs g4 k) = length (nbrs (cm_graph e) k)).
  { intros k. specialize (D1 k). specialize (D2 k). specialize (D3 k). specialize (D4 k). lia. }
  splits; auto; try congruence.
  - apply Ret; auto; congruence.
  - cbn. congruence.
  - intros x y. cbn [cm_graph fst snd]. rewrite Ad4, Ad3, Ad2, Ad1. tauto.
Qed.

End Steps.
