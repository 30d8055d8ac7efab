(** Programs that take random draws: what holds after every run, and whether every
    unfinished run can be finished by further draws. *)
From Verif Require Import Base BaseFacts Rng RngFacts.
Set Implicit Arguments.
Unset Strict Implicit.
Local Open Scope nat_scope.

(** [m] never panics, every result satisfies [Q], the unused draws are left over, and,
    if [live] holds, more draws let every run that has run out of draws return. *)
Definition runs (live : Prop) {X} (Q : X -> Prop) (m : rng -> outcome (X * rng)) : Prop :=
  forall rs, match m rs with
  | Done (x, rs') => Q x /\ exists used, rs = used ++ rs' /\ forall more, m (used ++ more) = Done (x, more)
  | NoFuel => live -> exists more x, (forall rest, m (rs ++ more ++ rest) = Done (x, rest)) /\ Q x
  | _ => False
  end.

Lemma runs_live (live live' : Prop) {X} (Q : X -> Prop) m : (live' -> live) -> runs live Q m -> runs live' Q m.
Proof. intros I H rs. specialize (H rs). destruct (m rs) as [[x rs']| | |]; auto. Qed.

Section Runs.
Variable live : Prop.

Lemma runs_ret {X} (Q : X -> Prop) x : Q x -> runs live Q (fun rs => Done (x, rs)).
Proof. intros H rs. split; auto. exists []. auto. Qed.

Lemma runs_ext {X} (Q : X -> Prop) m m' : (forall rs, m rs = m' rs) -> runs live Q m -> runs live Q m'.
Proof.
  intros E H rs. rewrite <- E. specialize (H rs). destruct (m rs) as [[x rs']| | |]; auto.
  - destruct H as (Qx & u & Eu & H). split; auto. exists u. split; auto. intros more. rewrite <- E; auto.
  - intros A. destruct (H A) as (more & x & H1 & H2). exists more, x. split; auto.
    intros rest. rewrite <- E; auto.
Qed.

Lemma runs_weaken {X} (P Q : X -> Prop) m : (forall x, P x -> Q x) -> runs live P m -> runs live Q m.
Proof.
  intros I H rs. specialize (H rs). destruct (m rs) as [[x rs']| | |]; auto.
  - destruct H; auto.
  - intros A. destruct (H A) as (more & x & H1 & H2). eauto.
Qed.

Lemma runs_bind {X Y} (P : X -> Prop) (Q : Y -> Prop) m k :
  runs live P m -> (forall x, P x -> runs live Q (k x)) ->
  runs live Q (fun rs => do ' (x, rs1) <- m rs; k x rs1).
Proof.
  intros Hm Hk rs. specialize (Hm rs).
  destruct (m rs) as [[x rs1]| | |] eqn:E; cbn [bind]; try tauto.
  - destruct Hm as (Px & u & Eu & Hu). specialize (Hk x Px rs1).
    destruct (k x rs1) as [[y rs2]| | |] eqn:Ek; try tauto.
    + destruct Hk as (Qy & u2 & Eu2 & Hu2). split; auto. exists (u ++ u2). split.
      * rewrite <- app_assoc. congruence.
      * intros more. rewrite <- app_assoc, Hu. cbn [bind]. auto.
    + intros A. destruct (Hk A) as (more & y & Hy & Qy). exists more, y. split; auto.
      intros rest. rewrite Eu, <- app_assoc, Hu. cbn [bind]. auto.
  - intros A. destruct (Hm A) as (more & x & Hx & Px). specialize (Hk x Px []).
    destruct (k x []) as [[y rs2]| | |] eqn:Ek; try tauto.
    + destruct Hk as (Qy & u2 & Eu2 & Hu2). symmetry in Eu2. apply app_eq_nil in Eu2 as [-> ->].
      exists more, y. split; auto. intros rest. rewrite Hx. cbn [bind]. apply (Hu2 rest).
    + destruct (Hk A) as (more2 & y & Hy & Qy). exists (more ++ more2), y. split; auto.
      intros rest. rewrite <- app_assoc, Hx. cbn [bind]. apply Hy.
Qed.

(** A step that takes no draws. *)
Lemma runs_pure {X Y} (Q : Y -> Prop) (o : outcome X) (x : X) k :
  o = Done x -> runs live Q (k x) -> runs live Q (fun rs => do x <- o; k x rs).
Proof. intros ->. cbn [bind]. auto. Qed.

Lemma runs_foldM {S E} (I : S -> Prop) (f : S * rng -> E -> outcome (S * rng)) l :
  (forall s e, I s -> In e l -> runs live I (fun rs => f (s, rs) e)) ->
  forall s, I s -> runs live I (fun rs => foldM f (s, rs) l).
Proof.
  induction l as [|e l IH]; intros H s Hs; cbn [foldM].
  - apply runs_ret; auto.
  - apply runs_ext with (m := fun rs => do ' (s1, rs1) <- f (s, rs) e; foldM f (s1, rs1) l).
    { intros rs. destruct (f (s, rs) e) as [[]| | |]; reflexivity. }
    apply (@runs_bind _ _ I I (fun rs => f (s, rs) e) (fun s1 rs1 => foldM f (s1, rs1) l)).
    + apply H; simpl; auto.
    + intros s1 Hs1. apply IH; auto. intros; apply H; simpl; auto.
Qed.

(** The same with an invariant that depends on the elements seen and not yet seen. *)
Lemma runs_foldM_along {S E} (I : list E -> S -> list E -> Prop) (f : S * rng -> E -> outcome (S * rng)) l2 :
  forall l1 s,
  (forall l e l' s, l1 ++ l2 = l ++ e :: l' -> I l s (e :: l') ->
     runs live (fun s' => I (l ++ [e]) s' l') (fun rs => f (s, rs) e)) ->
  I l1 s l2 -> runs live (fun s' => I (l1 ++ l2) s' []) (fun rs => foldM f (s, rs) l2).
Proof.
  induction l2 as [|e l2 IH]; intros l1 s H Hs; cbn [foldM].
  - apply runs_ret. rewrite app_nil_r. auto.
  - apply runs_ext with (m := fun rs => do ' (s1, rs1) <- f (s, rs) e; foldM f (s1, rs1) l2).
    { intros rs. destruct (f (s, rs) e) as [[]| | |]; reflexivity. }
    eapply (@runs_bind _ _ _ _ (fun rs => f (s, rs) e) (fun s1 rs1 => foldM f (s1, rs1) l2)).
    + apply H; auto.
    + intros s1 Hs1. replace (l1 ++ e :: l2) with ((l1 ++ [e]) ++ l2) by (rewrite <- app_assoc; auto).
      apply IH; auto. intros l x l' t Eq It. apply H; auto. rewrite <- Eq, <- app_assoc. auto.
Qed.

Lemma runs_draw : runs live (fun _ => True) draw.
Proof.
  intros [|r rs]; cbn.
  - intros _. exists [0], 0. auto.
  - split; auto. exists [r]. auto.
Qed.

Lemma runs_gen_range high : 0 < high -> runs live (fun x => x < high) (gen_range high).
Proof.
  intros H. unfold gen_range. destruct (Nat.eqb_spec high 0); [lia|].
  apply (@runs_bind _ _ (fun _ => True) _ draw (fun r rs1 => Done (Nat.modulo r high, rs1))).
  - apply runs_draw.
  - intros x _. apply runs_ret. apply Nat.mod_upper_bound; auto.
Qed.

Lemma runs_gen_f64 : runs live (fun x => exists r, x = unit_float r) gen_f64.
Proof.
  unfold gen_f64.
  apply (@runs_bind _ _ (fun _ => True) _ draw (fun r rs1 => Done (unit_float r, rs1))).
  - apply runs_draw.
  - intros x _. apply runs_ret. eauto.
Qed.

Lemma runs_done {X} (Q : X -> Prop) m rs x rs' : runs live Q m -> m rs = Done (x, rs') -> Q x.
Proof. intros H E. specialize (H rs). rewrite E in H. tauto. Qed.

Lemma runs_choose {X} (l : list X) : l <> [] -> runs live (fun x => In x l) (choose_unwrap l).
Proof.
  intros H. unfold choose_unwrap.
  apply (@runs_bind _ _ (fun k => k < length l) _ (gen_range (length l))
    (fun k rs1 => do x <- vget l k; Done (x, rs1))).
  - apply runs_gen_range. destruct l; [congruence|cbn; lia].
  - intros k Hk. unfold vget. destruct (nth_error l k) as [x|] eqn:E; [|apply nth_error_None in E; lia].
    cbn [bind]. apply runs_ret. apply nth_error_In in E. auto.
Qed.

Lemma runs_swap_step {X Y} (Q : Y -> Prop) (l : list X) i j k :
  i < length l -> j < length l -> (forall l', Permutation l l' -> runs live Q (k l')) ->
  runs live Q (fun rs => do l' <- swap l i j; k l' rs).
Proof.
  intros Hi Hj H. destruct (swap_done Hi Hj) as (l' & E & _ & P & _). eapply runs_pure; eauto.
Qed.

Lemma runs_shuffle_down {X} k : forall (l : list X), k <= length l ->
  runs live (fun l' => Permutation l l') (shuffle_down k l).
Proof.
  induction k as [|k IH]; intros l Hk; [apply runs_ret; auto|].
  destruct k as [|k]; [apply runs_ret; auto|].
  apply (@runs_bind _ _ (fun j => j < S (S k)) _ (gen_range (S (S k)))
    (fun j rs1 => do l' <- swap l (S k) j; shuffle_down (S k) l' rs1)).
  - apply runs_gen_range. lia.
  - intros j Hj. apply runs_swap_step; try lia. intros l' P.
    eapply runs_weaken; [|apply IH; rewrite <- (Permutation_length P); lia].
    intros l2 P2. etransitivity; eauto.
Qed.

Lemma runs_shuffle {X} (l : list X) : runs live (fun l' => Permutation l l') (shuffle l).
Proof. apply runs_shuffle_down; auto. Qed.

(** *** Loops *)

Section Loop.
Context {St X : Type}.
Variable body : St -> rng -> outcome ((St + X) * rng).
Variable I : St -> Prop.
Variable Q : X -> Prop.
Hypothesis body_runs : forall s, I s ->
  runs live (fun r => match r with inl s' => I s' | inr x => Q x end) (body s).
Hypothesis body_uses : forall s rs s' rs1, I s -> body s rs = Done (inl s', rs1) -> length rs1 < length rs.

Lemma loop_fuel f : forall s rs, I s -> length rs < f -> loop f body s rs = loop (S (length rs)) body s rs.
Proof using body_runs body_uses.
  induction f as [f IH] using lt_wf_ind. intros s rs Hs Hf.
  destruct f as [|f]; [lia|]. cbn [loop].
  pose proof (body_runs Hs rs) as R.
  destruct (body s rs) as [[[s'|x] rs1]| | |] eqn:E; cbn [bind]; auto.
  destruct R as [Hs' _]. pose proof (body_uses Hs E) as U.
  rewrite (IH f) by (auto; lia). destruct (Nat.eq_dec (length rs) f) as [<-|N]; [rewrite (IH (length rs)); auto; lia|].
  rewrite (IH (length rs)) by (auto; lia). auto.
Qed.

Hypothesis finish : live -> forall s, I s -> exists ds x, Q x /\
  forall rest, loop (S (length (ds ++ rest))) body s (ds ++ rest) = Done (x, rest).

Lemma runs_loop s : I s -> runs live Q (fun rs => loop (S (length rs)) body s rs).
Proof using body_runs body_uses finish.
  intros Hs rs. remember (length rs) as k eqn:Ek. revert s Hs rs Ek.
  induction k as [k IH] using lt_wf_ind. intros s Hs rs Ek. subst k.
  change (loop (S (length rs)) body s rs) with
    (do ' (r, rs1) <- body s rs; match r with inl s' => loop (length rs) body s' rs1 | inr x => Done (x, rs1) end).
  assert (U : forall rs', loop (S (length rs')) body s rs' =
    do ' (r, rs1) <- body s rs'; match r with inl s' => loop (length rs') body s' rs1 | inr x => Done (x, rs1) end)
    by reflexivity.
  pose proof (body_runs Hs rs) as R.
  destruct (body s rs) as [[[s'|x] rs1]| | |] eqn:E; cbn [bind]; try tauto.
  - destruct R as (Hs' & u & Eu & Hu). pose proof (body_uses Hs E) as Lt.
    specialize (IH (length rs1) Lt s' Hs' rs1 eq_refl). rewrite loop_fuel by auto.
    destruct (loop (S (length rs1)) body s' rs1) as [[x rs2]| | |]; try tauto.
    + destruct IH as (Qx & u2 & Eu2 & Hu2). split; auto. exists (u ++ u2). split.
      * rewrite <- app_assoc. congruence.
      * intros more. rewrite <- app_assoc. rewrite U, Hu. cbn [bind].
        rewrite loop_fuel; auto. apply (body_uses Hs (Hu _)).
    + intros A. destruct (IH A) as (more & x & Hx & Qx). exists more, x. split; auto.
      intros rest. rewrite Eu, <- app_assoc. rewrite U, Hu. cbn [bind].
      rewrite loop_fuel; auto. apply (body_uses Hs (Hu _)).
  - destruct R as (Qx & u & Eu & Hu). split; auto. exists u. split; auto.
    intros more. rewrite U, Hu. reflexivity.
  - intros A. destruct (R A) as (more & r & Hr & Pr). destruct r as [s'|x].
    + destruct (finish A Pr) as (ds & x & Qx & Hx). exists (more ++ ds), x. split; auto.
      intros rest. rewrite <- app_assoc. rewrite U, Hr. cbn [bind].
      rewrite loop_fuel; auto. apply (body_uses Hs (Hr _)).
    + exists more, x. split; auto. intros rest. rewrite U, Hr. reflexivity.
Qed.
End Loop.

End Runs.
