(** Drawing graphs of the configuration model ends with probability one. *)
From Verif Require Import Base BaseFacts Containers ContainerSpec ContainerFacts Graph GraphSpec
  Sums GraphFacts GraphOps GraphBuild Rng RngFacts Runs EnsembleFacts Config ConfigSpec ConfigFacts
  ConfigRun SurelySpec SurelyFacts.
Set Implicit Arguments.
Unset Strict Implicit.
Local Open Scope nat_scope.

(** Only the remainders of the draws matter. *)
Lemma shuffle_down_low {X} k : forall (l : list X) ds, length ds = k - 1 ->
  exists ds', length ds' = k - 1 /\ Forall (fun r => r < k) ds' /\
    forall rest, shuffle_down k l (ds' ++ rest) = shuffle_down k l (ds ++ rest).
Proof.
  induction k as [|k IH]; intros l ds L.
  - exists []. destruct ds; [auto|discriminate L].
  - destruct k as [|k].
    + exists []. destruct ds; [auto|discriminate L].
    + destruct ds as [|r ds]; [discriminate L|]. cbn [Nat.sub length] in L. injection L as L.
      set (j := Nat.modulo r (S (S k))). assert (Hj : j < S (S k)) by (apply Nat.mod_upper_bound; lia).
      assert (St : forall rest, shuffle_down (S (S k)) l (r :: rest) =
        do l' <- swap l (S k) j; shuffle_down (S k) l' rest).
      { intros rest. cbn [shuffle_down]. rewrite gen_range_cons by lia. reflexivity. }
      assert (Sj : forall rest, shuffle_down (S (S k)) l (j :: rest) =
        do l' <- swap l (S k) j; shuffle_down (S k) l' rest).
      { intros rest. cbn [shuffle_down]. rewrite gen_range_small by auto. reflexivity. }
      destruct (swap l (S k) j) as [l'| | |] eqn:E.
      * destruct (IH l' ds) as (ds' & L' & F' & H'); [cbn; lia|].
        exists (j :: ds'). splits.
        -- cbn [length Nat.sub] in *. lia.
        -- constructor; auto. eapply Forall_impl; [|exact F']. cbn. lia.
        -- intros rest. cbn [app]. rewrite St, Sj. cbn [bind]. auto.
      * exists (j :: repeat 0 k). splits; [cbn; rewrite repeat_length; lia| |intros rest; cbn [app]; rewrite St, Sj; auto].
        constructor; auto. apply Forall_forall. intros y Hy. apply repeat_spec in Hy. lia.
      * exists (j :: repeat 0 k). splits; [cbn; rewrite repeat_length; lia| |intros rest; cbn [app]; rewrite St, Sj; auto].
        constructor; auto. apply Forall_forall. intros y Hy. apply repeat_spec in Hy. lia.
      * exists (j :: repeat 0 k). splits; [cbn; rewrite repeat_length; lia| |intros rest; cbn [app]; rewrite St, Sj; auto].
        constructor; auto. apply Forall_forall. intros y Hy. apply repeat_spec in Hy. lia.
Qed.

Lemma shuffle_reach_low {X} (l l' : list X) : Permutation l l' ->
  exists ds, length ds <= length l /\ Forall (fun r => r < length l) ds /\
    forall rest, shuffle l (ds ++ rest) = Done (l', rest).
Proof.
  intros P. destruct (@shuffle_down_reach X (length l) l l' (le_n _) P) as (ds & L & H).
  - intros i Hi. rewrite (proj2 (nth_error_None l i)) by auto. apply nth_error_None.
    rewrite <- (Permutation_length P). auto.
  - destruct (shuffle_down_low l L) as (ds' & L' & F' & H'). exists ds'. splits; auto; [lia|].
    intros rest. unfold shuffle. rewrite H'. auto.
Qed.

Section Model.
Context {T : Type}.
Implicit Types e : config T.
Variable h : nat.

Lemma loop_finish_low p v (ps : list T) s : Nat.Even (list_sum v) -> list_sum v <= h ->
  graphical v -> between v ps s -> exists ds s', length ds <= list_sum v /\ Forall (fun r => r < h) ds /\ built v ps s' /\
  forall rest, loop (S (length (ds ++ rest))) (cm_round p) s (ds ++ rest) = Done (s', rest).
Proof.
  intros Ev Hh Gr Bt. destruct (round_cases p Ev Bt) as [(s' & B & E)|(g1 & W1 & P1 & V1 & E)].
  - exists [], s'. splits; auto; [cbn; lia|]. intros rest. cbn [loop app]. rewrite E. reflexivity.
  - destruct s as [[g b] hs].
    assert (B : building v ps (g, b, hs)) by apply Bt. destruct Bt as (_ & -> & _).
    destruct B as (_ & _ & _ & N & Hb & _). cbn [fst snd] in E.
    destruct (graphical_arr Gr Hb) as (es & Pk & Pe & Fr).
    destruct (shuffle_reach_low Pe) as (ds & Ld & Fd & Hd). rewrite (backup_length Hb) in Ld, Fd.
    assert (Bt' : between v ps (clear_edges g1, arr es, arr es)).
    { apply building_ready, cleared; auto; [apply (perm_nonempty Pe N)|apply (cnt_perm Pe Hb)]. }
    destruct (round_arr p Ev Bt' Pk) as (s' & B' & E'); auto.
    { apply Fr. apply Bt'. }
    exists ds, s'. splits; auto.
    { eapply Forall_impl; [|exact Fd]. cbn. lia. }
    intros rest.
    assert (Lt : length rest < length (ds ++ rest)).
    { apply (shuffle_uses (l := b) (l' := arr es)); auto.
      rewrite (Permutation_length Pe). apply (between_length Ev Bt'). }
    destruct (length (ds ++ rest)) as [|k] eqn:Ek; [lia|]. cbn [loop]. rewrite E, Hd. cbn [bind].
    rewrite E'. reflexivity.
Qed.

Lemma round_swift p v (ps : list T) s : Nat.Even (list_sum v) -> 0 < h -> between v ps s ->
  swift h (list_sum v) (fun r => match r with inl s' => between v ps s' | inr s' => built v ps s' end) (cm_round p s).
Proof.
  intros Ev Hh Bt.
  apply (@swift_post h _ False (fun _ => True) _ (cm_round p s)); [apply round_runs; auto|].
  destruct (round_cases p Ev Bt) as [(s' & B & E)|(g1 & W1 & P1 & V1 & E)].
  - apply swift_ext with (m := fun rs => Done (inr s', rs)); [intros; symmetry; auto|].
    apply swift_ret. auto.
  - eapply swift_ext; [intros rs; symmetry; apply E|].
    destruct s as [[g b] hs]. destruct Bt as ((_ & _ & _ & N & Hb & _) & -> & _). cbn [fst snd].
    rewrite <- (Nat.add_0_r (list_sum v)), <- (backup_length Hb).
    apply (@swift_bind h _ _ (fun b' => Permutation b b') _ (shuffle b)
      (fun b' rs1 => Done (inl (clear_edges g1, b', b'), rs1))).
    + apply swift_shuffle. auto.
    + intros b' Pb. apply swift_ret. auto.
Qed.

Lemma cm_swift p v e : cm_ready v e -> Nat.Even (list_sum v) -> graphical v -> list_sum v <= h -> 0 < h ->
  swift h (3 * list_sum v) (fun _ => True) (cm_randomize p e).
Proof.
  intros R Ev Gr Hh Ph. destruct R as [W V D B]. unfold cm_randomize.
  replace (3 * list_sum v) with (list_sum v + (list_sum v + list_sum v)) by lia.
  apply (@swift_bind _ _ _ (fun b => Permutation (cm_backup e) b) _ (shuffle (cm_backup e))
    (fun b rs1 => match b with
       | [] => Done (mk_cm (clear_edges (cm_graph e)) (cm_degrees e) [] [], rs1)
       | _ => do ' (g', backup', halfs', rs2) <-
                loop (S (length rs1)) (cm_round p) (clear_edges (cm_graph e), b, b) rs1;
              Done (mk_cm g' (cm_degrees e) halfs' backup', rs2)
       end)).
  { rewrite <- (backup_length B). apply swift_shuffle. auto. }
  intros b Pb. pose proof (cnt_perm Pb B) as Bb.
  destruct (clear_edges_spec W) as (W' & V' & _ & P' & H').
  destruct b as [|x b2] eqn:Eb; [apply swift_ret; auto|].
  rewrite <- Eb in *.
  apply swift_ext with (m := fun rs1 => do ' (s, rs2) <-
      loop (S (length rs1)) (cm_round p) (clear_edges (cm_graph e), b, b) rs1;
      Done (mk_cm (fst (fst s)) (cm_degrees e) (snd s) (snd (fst s)), rs2)).
  { intros rs. destruct (loop _ _ _ rs) as [[[[? ?] ?] ?]| | |]; reflexivity. }
  rewrite <- (Nat.add_0_r (list_sum v + list_sum v)).
  apply (@swift_bind _ _ _ (built v (payloads (cm_graph e))) _
    (fun rs1 => loop (S (length rs1)) (cm_round p) (clear_edges (cm_graph e), b, b) rs1)
    (fun s rs2 => Done (mk_cm (fst (fst s)) (cm_degrees e) (snd s) (snd (fst s)), rs2))).
  - apply (swift_loop (I := between v (payloads (cm_graph e)))).
    + intros s Hs. apply round_swift; auto.
    + intros s rs s' rs1. apply round_uses; auto.
    + intros s Hs. apply loop_finish_low; auto.
    + apply building_ready, cleared; auto. congruence.
  - intros s _. apply swift_ret. auto.
Qed.
End Model.
