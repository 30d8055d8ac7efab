(** Abstract graph search over any decidable vertex type, independent of the
    crate's data structures.  Used to verify all traversals. *)
From Verif Require Import Base BaseFacts GraphSpec GraphFacts.
Set Implicit Arguments.
Unset Strict Implicit.

(** ** Walks *)

Section WalkFacts.
Context {V : Type}.

Lemma walk_impl (R R' : V -> V -> Prop) u v k :
  (forall x y, R x y -> R' x y) -> walk R u v k -> walk R' u v k.
Proof. intros H W. induction W; econstructor; eauto. Qed.

Lemma walk_trans (R : V -> V -> Prop) u v w k l :
  walk R u v k -> walk R v w l -> walk R u w (k + l).
Proof.
  intros W1 W2. induction W2 as [|x y l W2 IH H].
  - rewrite Nat.add_0_r; auto.
  - rewrite Nat.add_succ_r. econstructor; eauto.
Qed.

Lemma walk_one (R : V -> V -> Prop) u v : R u v -> walk R u v 1.
Proof. intros H. econstructor; [constructor|auto]. Qed.

Lemma walk_zero (R : V -> V -> Prop) u v : walk R u v 0 -> u = v.
Proof. inversion 1; auto. Qed.

Lemma walk_head (R : V -> V -> Prop) u v k :
  walk R u v (S k) -> exists w, R u w /\ walk R w v k.
Proof.
  revert v. induction k as [|k IH]; intros v W.
  - inversion_clear W as [|x ? ? W' H]. apply walk_zero in W'. subst.
    exists v; split; auto. constructor.
  - inversion_clear W as [|x ? ? W' H]. destruct (IH _ W') as (w & Hw & Ww).
    exists w. split; auto. econstructor; eauto.
Qed.

Lemma walk_sym (R : V -> V -> Prop) u v k :
  (forall x y, R x y -> R y x) -> walk R u v k -> walk R v u k.
Proof.
  intros S W. induction W as [|x y k W IH H]; [constructor|].
  replace (Datatypes.S k) with (1 + k) by auto.
  apply walk_trans with x; auto. apply walk_one; auto.
Qed.

Lemma joined_refl (R : V -> V -> Prop) u : joined R u u.
Proof. exists 0; constructor. Qed.

Lemma joined_sym (R : V -> V -> Prop) u v :
  (forall x y, R x y -> R y x) -> joined R u v -> joined R v u.
Proof. intros S [k W]. exists k. apply walk_sym; auto. Qed.

Lemma joined_trans (R : V -> V -> Prop) u v w : joined R u v -> joined R v w -> joined R u w.
Proof. intros [k W1] [l W2]. exists (k + l). eapply walk_trans; eauto. Qed.

Lemma joined_step (R : V -> V -> Prop) u v w : joined R u v -> R v w -> joined R u w.
Proof. intros [k W] H. exists (S k). econstructor; eauto. Qed.

Lemma is_dist_fun (R : V -> V -> Prop) u v d d' : is_dist R u v d -> is_dist R u v d' -> d = d'.
Proof. intros [W1 M1] [W2 M2]. apply Nat.le_antisymm; auto. Qed.

Lemma is_dist_iff (R R' : V -> V -> Prop) u v d :
  (forall x y, R x y <-> R' x y) -> is_dist R u v d <-> is_dist R' u v d.
Proof.
  intros H. unfold is_dist.
  assert (E : forall k, walk R u v k <-> walk R' u v k).
  { intros k; split; apply walk_impl; intros; apply H; auto. }
  rewrite E. split; intros [W M]; split; auto; intros k K; apply M, E, K.
Qed.

Lemma is_dist_sym (R : V -> V -> Prop) u v d :
  (forall x y, R x y -> R y x) -> is_dist R u v d -> is_dist R v u d.
Proof.
  intros S [W M]. split; [apply walk_sym; auto|]. intros k K. apply M, walk_sym; auto.
Qed.

Lemma is_dist_self (R : V -> V -> Prop) u : is_dist R u u 0.
Proof. split; [constructor|lia]. Qed.

Lemma walk_in (R : V -> V -> Prop) (P : V -> Prop) u v k :
  (forall x y, R x y -> P y) -> P u -> walk R u v k -> P v.
Proof. intros H Hu W. inversion W; subst; eauto. Qed.
End WalkFacts.

(** ** Iterators given by a partial function *)

Section Traces.
Context {X Y : Type} (next : X -> option (Y * X)).

(** [trace x ys]: iterating from state [x] gives exactly the items [ys]. *)
Inductive trace : X -> list Y -> Prop :=
| trace_nil x : next x = None -> trace x []
| trace_cons x y x' ys : next x = Some (y, x') -> trace x' ys -> trace x (y :: ys).

(** If an iterator of the model simulates the abstract one, draining it gives the
    related items. *)
Lemma drain_sim {S I} (cnext : S -> outcome (option (I * S))) (Rep : S -> X -> Prop)
  (P : Y -> I -> Prop) :
  (forall s x, Rep s x ->
     match next x with
     | None => cnext s = Done None
     | Some (y, x') => exists i s', cnext s = Done (Some (i, s')) /\ Rep s' x' /\ P y i
     end) ->
  forall x ys, trace x ys -> forall s fuel, Rep s x -> length ys < fuel ->
  exists is, drain cnext fuel s = Done is /\ Forall2 P ys is.
Proof.
  intros Sim x ys Tr. induction Tr as [x E|x y x' ys E Tr IH]; intros s fuel Rs Hf.
  - destruct fuel; [simpl in Hf; lia|]. specialize (Sim _ _ Rs). rewrite E in Sim.
    exists []. simpl. rewrite Sim; simpl; auto.
  - destruct fuel as [|f]; [simpl in Hf; lia|]. simpl in Hf.
    pose proof (Sim _ _ Rs) as H. rewrite E in H. destruct H as (i & s' & Ec & Rs' & Pi).
    destruct (IH s' f Rs') as (is & Ed & F); [lia|].
    exists (i :: is). simpl. rewrite Ec; simpl. rewrite Ed; simpl. auto.
Qed.
End Traces.

(** ** Marking newly found vertices *)

Section Search.
Context {V : Type} (eq_dec : forall x y : V, {x = y} + {x <> y}).

(** The elements of [l] not in [seen], first occurrences in order. *)
Fixpoint scan (seen l : list V) : list V :=
  match l with
  | [] => []
  | w :: t => if in_dec eq_dec w seen then scan seen t else w :: scan (w :: seen) t
  end.

Lemma In_scan l : forall seen w, In w (scan seen l) <-> In w l /\ ~ In w seen.
Proof.
  induction l as [|a l IH]; intros seen w; simpl; [tauto|].
  destruct (in_dec eq_dec a seen) as [H|H].
  - rewrite IH. intuition (subst; tauto).
  - simpl. rewrite IH. simpl. destruct (eq_dec a w); intuition (subst; tauto).
Qed.

Lemma NoDup_scan l : forall seen, NoDup (scan seen l).
Proof.
  induction l as [|a l IH]; intros seen; simpl; [constructor|].
  destruct (in_dec eq_dec a seen); auto. constructor; auto.
  rewrite In_scan. simpl. tauto.
Qed.

Lemma scan_ext l : forall s s', (forall w, In w s <-> In w s') -> scan s l = scan s' l.
Proof.
  induction l as [|a l IH]; intros s s' H; simpl; auto.
  destruct (in_dec eq_dec a s) as [K|K], (in_dec eq_dec a s') as [K'|K'];
    try (exfalso; rewrite H in K; tauto); auto.
  f_equal. apply IH. simpl. intros w; rewrite H; tauto.
Qed.

(** *** Visited sets, for any order of processing *)

Context (succ : V -> list V).

(** [run seen work out]: starting with the vertices [work] waiting and [seen]
    marked, the search processes [out] in this order.  Which waiting vertex is
    processed next is arbitrary. *)
Inductive run : list V -> list V -> list V -> Prop :=
| run_nil seen : run seen [] []
| run_cons seen work x rest work' out :
    Permutation work (x :: rest) ->
    Permutation work' (rest ++ scan seen (succ x)) ->
    run (scan seen (succ x) ++ seen) work' out ->
    run seen work (x :: out).

Definition edge_avoiding (B : list V) (v w : V) : Prop := In w (succ v) /\ ~ In w B.

Lemma run_reach seen work out : run seen work out -> forall w,
  In w out <-> exists x k, In x work /\ walk (edge_avoiding seen) x w k.
Proof.
  induction 1 as [seen|seen work x rest work' out P1 P2 Hr IH]; intros w.
  { simpl. split; [tauto|]. intros (x & k & [] & _). }
  set (new := scan seen (succ x)) in *.
  assert (Hn : forall y, In y new <-> In y (succ x) /\ ~ In y seen) by (intros; apply In_scan).
  simpl. split.
  - intros [<-|Hw].
    + exists x, 0. split; [rewrite P1; simpl; auto|constructor].
    + apply IH in Hw as (y & k & Hy & W).
      assert (W' : walk (edge_avoiding seen) y w k).
      { revert W. apply walk_impl. unfold edge_avoiding. intros a b [? K]. split; auto.
        intros Hb. apply K, in_or_app; auto. }
      rewrite P2, in_app_iff in Hy. destruct Hy as [Hy|Hy].
      * exists y, k. split; auto. rewrite P1; simpl; auto.
      * exists x, (1 + k). split; [rewrite P1; simpl; auto|].
        apply walk_trans with y; auto. apply walk_one. apply Hn in Hy. auto.
  - intros (z & k & Hz & W). induction W as [|v w k W IHW [Hvw Hs]].
    + rewrite P1 in Hz. destruct Hz as [<-|Hz]; auto. right. apply IH.
      exists z, 0. split; [rewrite P2; apply in_or_app; auto|constructor].
    + right. destruct (in_dec eq_dec w (new ++ seen)) as [Hw|Hw].
      * apply in_app_iff in Hw as [Hw|Hw]; [|contradiction].
        apply IH. exists w, 0. split; [rewrite P2; apply in_or_app; auto|constructor].
      * destruct IHW as [<-|Hv].
        -- exfalso. apply Hw, in_or_app. left. apply Hn; auto.
        -- apply IH in Hv as (y & l & Hy & Wy). apply IH.
           exists y, (S l). split; auto. econstructor; eauto. split; auto.
Qed.

Lemma run_work seen work out : run seen work out -> forall x, In x work -> In x out.
Proof. intros R x H. apply (run_reach R). exists x, 0. split; auto. constructor. Qed.

Lemma run_NoDup seen work out :
  run seen work out -> NoDup work -> (forall x, In x work -> In x seen) -> NoDup out.
Proof.
  induction 1 as [seen|seen work x rest work' out P1 P2 Hr IH]; intros N S; [constructor|].
  set (new := scan seen (succ x)) in *.
  assert (Hn : forall y, In y new <-> In y (succ x) /\ ~ In y seen) by (intros; apply In_scan).
  pose proof (Permutation_NoDup P1 N) as N1. apply NoDup_cons_iff in N1 as [Nx Nr].
  assert (Sr : forall y, In y rest -> In y seen).
  { intros y Hy. apply S. rewrite P1; simpl; auto. }
  assert (Sx : In x seen) by (apply S; rewrite P1; simpl; auto).
  constructor.
  - intros Hx. apply (run_reach Hr) in Hx as (y & k & Hy & W).
    inversion W as [|v w l W' [_ K]]; subst.
    + rewrite P2, in_app_iff in Hy. destruct Hy as [Hy|Hy]; [auto|].
      apply Hn in Hy. tauto.
    + apply K, in_or_app; auto.
  - apply IH.
    + eapply Permutation_NoDup; [symmetry; exact P2|]. apply NoDup_app_iff.
      splits; auto. apply NoDup_scan. intros y Hy Hy'. apply Hn in Hy' as [_ K].
      apply K, Sr, Hy.
    + intros y Hy. rewrite P2, in_app_iff in Hy. apply in_or_app.
      destruct Hy; auto.
Qed.

Lemma run_length seen work out : run seen work out -> NoDup work -> length work <= length out.
Proof.
  intros R N. apply NoDup_incl_length; auto. intros x. apply (run_work R).
Qed.

(** *** Depth-first: a stack *)

Definition adfs_next (st : list V * list V) : option (V * (list V * list V)) :=
  let (seen, stack) := st in
  match stack with
  | [] => None
  | x :: rest =>
      let new := scan seen (succ x) in
      Some (x, (new ++ seen, rev new ++ rest))
  end.

Lemma adfs_run st ys : trace adfs_next st ys -> run (fst st) (snd st) ys.
Proof.
  induction 1 as [[seen stack] E|[seen stack] y st' ys E Tr IH]; simpl in *.
  - destruct stack; [constructor|discriminate].
  - destruct stack as [|x rest]; [discriminate|]. injection E as <- <-. simpl in IH.
    econstructor; [reflexivity| |exact IH].
    rewrite Permutation_app_comm. apply Permutation_app_head.
    symmetry; apply Permutation_rev.
Qed.

(** *** Breadth-first: two queues *)

Record abfs := mk_abfs { ab_seen : list V; ab_q0 : list V; ab_q1 : list V; ab_depth : nat }.

Definition abfs_next (st : abfs) : option ((V * nat) * abfs) :=
  let visit x q0 q1 d :=
    let new := scan (ab_seen st) (succ x) in
    Some ((x, d), mk_abfs (new ++ ab_seen st) q0 (q1 ++ new) d) in
  match ab_q0 st with
  | x :: q0 => visit x q0 (ab_q1 st) (ab_depth st)
  | [] => match ab_q1 st with
          | [] => None
          | x :: q0 => visit x q0 [] (S (ab_depth st))
          end
  end.

Lemma abfs_run st ys : trace abfs_next st ys ->
  run (ab_seen st) (ab_q0 st ++ ab_q1 st) (map fst ys).
Proof.
  induction 1 as [st E|st y st' ys E Tr IH]; destruct st as [seen q0 q1 d]; unfold abfs_next in E; simpl in *.
  - destruct q0; [|discriminate]. destruct q1; [constructor|discriminate].
  - destruct q0 as [|x q0].
    + destruct q1 as [|x q1]; [discriminate|]. injection E as <- <-. simpl in *.
      econstructor; [reflexivity| |exact IH]. reflexivity.
    + injection E as <- <-. simpl in *.
      econstructor; [reflexivity| |exact IH]. rewrite app_assoc. reflexivity.
Qed.

(** *** Termination *)

Definition unseen (U seen : list V) : nat :=
  length (filter (fun v => if in_dec eq_dec v seen then false else true) U).

Lemma unseen_scan U seen l :
  NoDup U -> (forall v, In v l -> In v U) ->
  unseen U (scan seen l ++ seen) + length (scan seen l) = unseen U seen.
Proof.
  intros N I. unfold unseen.
  set (f := fun v => if in_dec eq_dec v seen then false else true).
  set (f' := fun v => if in_dec eq_dec v (scan seen l ++ seen) then false else true).
  rewrite Nat.add_comm, <- app_length. apply Permutation_length.
  apply NoDup_Permutation.
  - apply NoDup_app_iff. splits; [apply NoDup_scan|apply NoDup_filter; auto|].
    intros x Hx Hf. apply filter_In in Hf as [_ Hf]. unfold f' in Hf.
    destruct (in_dec eq_dec x (scan seen l ++ seen)) as [|K]; [discriminate|].
    apply K, in_or_app; auto.
  - apply NoDup_filter; auto.
  - intros x. rewrite in_app_iff, !filter_In, In_scan. unfold f, f'.
    destruct (in_dec eq_dec x (scan seen l ++ seen)) as [K|K];
      destruct (in_dec eq_dec x seen) as [K'|K'];
      rewrite in_app_iff, In_scan in K; intuition (auto; discriminate).
Qed.

Lemma unseen_le U seen : unseen U seen <= length U.
Proof.
  unfold unseen. induction U as [|a U IH]; simpl; auto.
  destruct (in_dec eq_dec a seen); simpl; lia.
Qed.

Section Finite.
Context (U : list V) (NU : NoDup U) (SU : forall x y, In x U -> In y (succ x) -> In y U).

(** The number of items is at most the measure. *)
Lemma adfs_trace m : forall seen stack,
  (forall x, In x stack -> In x U) ->
  unseen U seen + length stack <= m ->
  exists ys, trace adfs_next (seen, stack) ys /\ length ys <= m.
Proof.
  induction m as [|m IH]; intros seen stack Hs Hm.
  - destruct stack as [|x stack]; [|simpl in Hm; lia].
    exists []. split; auto. constructor. auto.
  - destruct stack as [|x stack].
    + exists []. split; [constructor; auto|simpl; lia].
    + assert (Hx : In x U) by (apply Hs; simpl; auto).
      pose proof (@unseen_scan U seen (succ x) NU (fun v Hv => SU Hx Hv)) as E.
      destruct (IH (scan seen (succ x) ++ seen) (rev (scan seen (succ x)) ++ stack)) as (ys & Tr & L).
      * intros y Hy. apply in_app_iff in Hy as [Hy|Hy].
        -- apply in_rev in Hy. apply In_scan in Hy as [Hy _]. apply (SU Hx Hy).
        -- apply Hs; simpl; auto.
      * rewrite app_length, rev_length. simpl in Hm. lia.
      * exists (x :: ys). split; [|simpl; lia]. eapply trace_cons; [|exact Tr]. reflexivity.
Qed.

Lemma abfs_trace m : forall seen q0 q1 d,
  (forall x, In x (q0 ++ q1) -> In x U) ->
  unseen U seen + length (q0 ++ q1) <= m ->
  exists ys, trace abfs_next (mk_abfs seen q0 q1 d) ys /\ length ys <= m.
Proof.
  induction m as [|m IH]; intros seen q0 q1 d Hs Hm.
  - destruct q0 as [|x q0]; [|simpl in Hm; lia]. destruct q1 as [|x q1]; [|simpl in Hm; lia].
    exists []. split; auto. constructor. auto.
  - assert (Step : forall x r0 r1 d',
      (forall y, In y (x :: r0 ++ r1) -> In y U) ->
      unseen U seen + length (x :: r0 ++ r1) <= S m ->
      exists ys, trace abfs_next (mk_abfs (scan seen (succ x) ++ seen) r0 (r1 ++ scan seen (succ x)) d') ys
                 /\ length ys <= m).
    { intros x r0 r1 d' Hr Hl.
      assert (Hx : In x U) by (apply Hr; simpl; auto).
      pose proof (@unseen_scan U seen (succ x) NU (fun v Hv => SU Hx Hv)) as E.
      apply IH.
      - intros y Hy. rewrite app_assoc in Hy. apply in_app_iff in Hy as [Hy|Hy].
        + apply Hr; simpl; auto.
        + apply In_scan in Hy as [Hy _]. apply (SU Hx Hy).
      - rewrite app_assoc, app_length. simpl in Hl. lia. }
    destruct q0 as [|x q0].
    + destruct q1 as [|x q1].
      * exists []. split; [constructor; auto|simpl; lia].
      * destruct (Step x q1 [] (S d)) as (ys & Tr & L).
        { rewrite app_nil_r. auto. }
        { rewrite app_nil_r. auto. }
        exists ((x, S d) :: ys). split; [|simpl; lia].
        eapply trace_cons; [|exact Tr]. reflexivity.
    + destruct (Step x q0 q1 d Hs Hm) as (ys & Tr & L).
      exists ((x, d) :: ys). split; [|simpl; lia].
      eapply trace_cons; [|exact Tr]. reflexivity.
Qed.
End Finite.

(** *** Distances *)

Section Distances.
Context (B : list V) (s : V).
Notation R := (edge_avoiding B).

Record binv (D : list V) (st : abfs) : Prop := {
  bi_seen : forall v, In v (ab_seen st) <-> In v B \/ In v D \/ In v (ab_q0 st) \/ In v (ab_q1 st);
  bi_closed : forall v w, In v D -> In w (succ v) -> In w (ab_seen st);
  bi_q0 : forall v, In v (ab_q0 st) -> is_dist R s v (ab_depth st);
  bi_q1 : forall v, In v (ab_q1 st) -> is_dist R s v (S (ab_depth st));
  bi_walk : forall v k, walk R s v k -> k <= ab_depth st -> In v D \/ In v (ab_q0 st)
}.

Lemma binv_swap D st : binv D st -> ab_q0 st = [] ->
  binv D (mk_abfs (ab_seen st) (ab_q1 st) [] (S (ab_depth st))).
Proof.
  intros I E. destruct I as [I1 I2 I3 I4 I5]. rewrite E in *. constructor; simpl; auto.
  - intros v. rewrite I1. simpl. tauto.
  - tauto.
  - intros v k W Hk. destruct (Nat.eq_dec k (S (ab_depth st))) as [->|N].
    + inversion W as [|u w l Wu [Hs Hb]]; subst.
      destruct (I5 _ _ Wu ltac:(auto)) as [Hu|[]].
      pose proof (I2 _ _ Hu Hs) as K. apply I1 in K. simpl in K. tauto.
    + destruct (I5 _ _ W ltac:(lia)) as [Hu|[]]. auto.
Qed.

Lemma binv_visit D seen x q0 q1 d : binv D (mk_abfs seen (x :: q0) q1 d) ->
  binv (x :: D) (mk_abfs (scan seen (succ x) ++ seen) q0 (q1 ++ scan seen (succ x)) d).
Proof.
  intros [I1 I2 I3 I4 I5]; simpl in *. constructor; simpl.
  - intros v. rewrite !in_app_iff, I1. tauto.
  - intros v w [<-|Hv] Hw.
    + apply in_app_iff. destruct (in_dec eq_dec w seen); auto. left. apply In_scan; auto.
    + apply in_app_iff. right. eauto.
  - intros v Hv. apply I3; auto.
  - intros v Hv. apply in_app_iff in Hv as [Hv|Hv]; auto.
    apply In_scan in Hv as [Hv Hs]. split.
    + econstructor; [apply I3; auto|]. split; auto. intros Hb. apply Hs, I1; auto.
    + intros k W. destruct (Nat.le_gt_cases k d) as [K|K]; [|lia].
      exfalso. apply Hs, I1. destruct (I5 _ _ W K) as [?|?]; auto.
  - intros v k W Hk. destruct (I5 _ _ W Hk) as [?|[?|?]]; auto.
Qed.

Lemma abfs_dist st ys : trace abfs_next st ys -> forall D, binv D st ->
  Forall (fun yd => is_dist R s (fst yd) (snd yd) /\ ab_depth st <= snd yd) ys /\
  ForallOrdPairs (fun a b => snd a <= snd b) ys.
Proof.
  induction 1 as [st E|st y st' ys E Tr IH]; intros D I; [split; constructor|].
  destruct st as [seen q0 q1 d]. unfold abfs_next in E. simpl in *.
  assert (K : exists x r0 r1 d', binv D (mk_abfs seen (x :: r0) r1 d') /\ d <= d' /\
     y = (x, d') /\ st' = mk_abfs (scan seen (succ x) ++ seen) r0 (r1 ++ scan seen (succ x)) d').
  { destruct q0 as [|x q0].
    - destruct q1 as [|x q1]; [discriminate|]. injection E as <- <-.
      exists x, q1, [], (S d). splits; auto. apply (binv_swap I). reflexivity.
    - injection E as <- <-. exists x, q0, q1, d. splits; auto. }
  destruct K as (x & r0 & r1 & d' & I' & Hd & -> & ->).
  destruct (IH _ (binv_visit I')) as [F O]. simpl in F. split.
  - constructor.
    + simpl. split; auto. apply (bi_q0 I'). simpl; auto.
    + revert F. apply Forall_impl. intros [v e] [? ?]. simpl in *. split; auto; lia.
  - constructor; auto. revert F. apply Forall_impl. intros [v e] [? ?]. simpl in *. auto.
Qed.

Lemma binv_start : ~ In s B -> binv [] (mk_abfs (s :: B) [s] [] 0).
Proof.
  intros H. constructor; simpl.
  - tauto.
  - tauto.
  - intros v [<-|[]]. apply is_dist_self.
  - tauto.
  - intros v k W Hk. assert (k = 0) by lia. subst. apply walk_zero in W. auto.
Qed.
End Distances.

(** *** The complete statements for searches from one vertex *)

Lemma run_start_reach B s out : run (s :: B) [s] out -> forall w,
  In w out <-> joined (edge_avoiding B) s w.
Proof.
  intros R w. rewrite (run_reach R). split.
  - intros (x & k & [<-|[]] & W). exists k. revert W. apply walk_impl.
    unfold edge_avoiding; simpl; tauto.
  - intros [k W]. exists s. 
    assert (K : exists l, walk (edge_avoiding (s :: B)) s w l).
    { induction W as [|v w k W [l IH] [H1 H2]]; [exists 0; constructor|].
      destruct (eq_dec s w) as [<-|N]; [exists 0; constructor|].
      exists (S l). econstructor; eauto. split; auto. simpl. tauto. }
    destruct K as [l K]. exists l. simpl; auto.
Qed.

End Search.
