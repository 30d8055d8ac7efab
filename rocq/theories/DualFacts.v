(** Facts about dual graphs. *)
From Verif Require Import Base BaseFacts Containers ContainerSpec Graph GraphSpec GraphFacts.
From Verif Require Import GraphOps Search Traversal TraversalSpec TraversalFacts Dual DualSpec.
Set Implicit Arguments.
Unset Strict Implicit.

Lemma dual_index_dec (x y : dual_index) : {x = y} + {x <> y}.
Proof. decide equality; apply Nat.eq_dec. Defined.

Notation dscan := (scan dual_index_dec).

Lemma scan_app {V} (dec : forall x y : V, {x = y} + {x <> y}) l1 l2 : forall seen,
  scan dec seen (l1 ++ l2) = scan dec seen l1 ++ scan dec (scan dec seen l1 ++ seen) l2.
Proof.
  induction l1 as [|a l1 IH]; intros seen; simpl; auto.
  destruct (in_dec dec a seen) as [H|H]; auto. simpl. f_equal. rewrite IH. f_equal.
  apply scan_ext. intros w. simpl. rewrite !in_app_iff. simpl. tauto.
Qed.

Lemma in_map_graph1 (l : list nat) i : In (Graph1 i) (map Graph1 l) <-> In i l.
Proof.
  rewrite in_map_iff. split; [intros (x & E & H); injection E as ->; auto|eauto].
Qed.
Lemma in_map_graph2 (l : list nat) i : In (Graph2 i) (map Graph2 l) <-> In i l.
Proof.
  rewrite in_map_iff. split; [intros (x & E & H); injection E as ->; auto|eauto].
Qed.
Lemma in_map_graph12 (l : list nat) i : ~ In (Graph1 i) (map Graph2 l).
Proof. rewrite in_map_iff. intros (x & E & _). discriminate. Qed.
Lemma in_map_graph21 (l : list nat) i : ~ In (Graph2 i) (map Graph1 l).
Proof. rewrite in_map_iff. intros (x & E & _). discriminate. Qed.

Lemma NoDup_map_graph1 (l : list nat) : NoDup l -> NoDup (map Graph1 l).
Proof. intros N. apply FinFun.Injective_map_NoDup; auto. intros x y E. congruence. Qed.
Lemma NoDup_map_graph2 (l : list nat) : NoDup l -> NoDup (map Graph2 l).
Proof. intros N. apply FinFun.Injective_map_NoDup; auto. intros x y E. congruence. Qed.

(** ** A search in any finite graph *)

Section Any.
Context {V : Type} (dec : forall x y : V, {x = y} + {x <> y}) (succ : V -> list V).
Context (U : list V) (NU : NoDup U) (SU : forall x y, In y (succ x) -> In y U).

Definition sinv (seen work : list V) : Prop :=
  NoDup work /\ (forall x, In x work -> In x seen) /\ forall x, In x work -> In x U.

Lemma sinv_step seen x rest work' :
  sinv seen (x :: rest) -> Permutation work' (rest ++ scan dec seen (succ x)) ->
  sinv (scan dec seen (succ x) ++ seen) work'.
Proof using SU.
  intros (N & I & R) P. apply NoDup_cons_iff in N as [Nx N].
  assert (Hin : forall y, In y work' <-> In y rest \/ In y (scan dec seen (succ x))).
  { intros y. rewrite P. apply in_app_iff. }
  unfold sinv; splits.
  - apply (Permutation_NoDup (Permutation_sym P)). apply NoDup_app_iff. splits; auto.
    + apply NoDup_scan.
    + intros y Hy Hs. apply In_scan in Hs as [_ Hs]. apply Hs, I. simpl; auto.
  - intros y Hy. apply in_app_iff. apply Hin in Hy as [Hy|Hy]; auto. right. apply I; simpl; auto.
  - intros y Hy. apply Hin in Hy as [Hy|Hy]; [apply R; simpl; auto|].
    apply In_scan in Hy as [Hy _]. eapply SU; eauto.
Qed.

Lemma srun_bounds seen work out :
  sinv seen work -> run dec succ seen work out ->
  NoDup out /\ (forall v, In v out -> In v U) /\ length work <= length out <= length U.
Proof using SU.
  intros (N & I & R) Hr.
  assert (No : NoDup out) by (eapply run_NoDup; eauto).
  assert (Ro : forall v, In v out -> In v U).
  { intros v Hv. apply (run_reach Hr) in Hv as (x & k & Hx & Wk).
    inversion Wk as [|u w l _ [H _]]; subst; auto. apply (SU H). }
  splits; auto.
  - eapply run_length; eauto.
  - apply NoDup_incl_length; auto.
Qed.

Lemma sinv_start x : In x U -> sinv [x] [x].
Proof.
  intros H. unfold sinv; splits; simpl; [constructor; [tauto|constructor]|tauto|intros ? [<-|[]]; auto].
Qed.

Lemma sinv_nil : sinv [] [].
Proof. unfold sinv; splits; simpl; try tauto. constructor. Qed.

Lemma sdfs_trace seen stack : sinv seen stack ->
  exists ys, trace (adfs_next dec succ) (seen, stack) ys /\ run dec succ seen stack ys.
Proof using NU SU.
  intros I. edestruct (@adfs_trace _ dec succ U) as (ys & Tr & _); auto.
  - intros x y _ H. eapply SU; eauto.
  - apply I.
  - exists ys. split; eauto. apply (adfs_run Tr).
Qed.

Lemma sbfs_trace x : sinv (ab_seen x) (ab_q0 x ++ ab_q1 x) ->
  exists ys, trace (abfs_next dec succ) x ys /\
             run dec succ (ab_seen x) (ab_q0 x ++ ab_q1 x) (map fst ys).
Proof using NU SU.
  intros I. destruct x as [seen q0 q1 d].
  edestruct (@abfs_trace _ dec succ U) with (seen := seen) (q0 := q0) (q1 := q1) (d := d) as (ys & Tr & _); auto.
  - intros x y _ H. eapply SU; eauto.
  - apply I.
  - exists ys. split; eauto. apply (abfs_run Tr).
Qed.
End Any.

Lemma edge_avoiding_none {V} (succ : V -> list V) u v : edge_avoiding succ [] u v <-> In v (succ u).
Proof. unfold edge_avoiding. simpl. tauto. Qed.

(** ** Cross edges *)

Section Cross.
Context {J T1 A1 T2 A2 : Type} {AT : AdjTrait J}.
Context {C1 : AdjContainer T1 A1} {C2 : AdjContainer T2 A2}.
Context {L1 : AdjLaws C1} {L2 : AdjLaws C2}.
Implicit Types d : dual J A1 A2.

Definition slice_1 d i := match nth_error (adj_1 d) i with Some a => at_slice a | None => [] end.
Definition slice_2 d i := match nth_error (adj_2 d) i with Some a => at_slice a | None => [] end.

Lemma In_slice_1 d i j : In j (slice_1 d i) <-> cross_1 d i j.
Proof.
  unfold slice_1, cross_1. destruct (nth_error (adj_1 d) i) as [a|].
  - split; [eauto|]. intros (b & E & H). injection E as <-. auto.
  - split; [intros []|]. intros (b & E & H). discriminate.
Qed.
Lemma In_slice_2 d i j : In j (slice_2 d i) <-> cross_2 d i j.
Proof.
  unfold slice_2, cross_2. destruct (nth_error (adj_2 d) i) as [a|].
  - split; [eauto|]. intros (b & E & H). injection E as <-. auto.
  - split; [intros []|]. intros (b & E & H). discriminate.
Qed.

Lemma cross_range d i j : dual_ok d -> cross_1 d i j ->
  i < vertex_count (graph_1 d) /\ j < vertex_count (graph_2 d).
Proof.
  intros W H. split.
  - destruct H as (a & E & _). rewrite <- (du_len1 W). apply (nth_error_lt _ _ E).
  - apply (du_sym W) in H as (a & E & _). rewrite <- (du_len2 W). apply (nth_error_lt _ _ E).
Qed.

Definition dsucc d (v : dual_index) : list dual_index :=
  match v with
  | Graph1 i => map Graph1 (nbrs (graph_1 d) i) ++ map Graph2 (slice_1 d i)
  | Graph2 j => map Graph2 (nbrs (graph_2 d) j) ++ map Graph1 (slice_2 d j)
  end.

Lemma dsucc_linked d u v : dual_ok d -> In v (dsucc d u) <-> linked d u v.
Proof.
  intros W. unfold linked, dsucc, adj. destruct u as [i|i], v as [j|j];
    rewrite in_app_iff, ?in_map_graph1, ?in_map_graph2.
  - pose proof (@in_map_graph12 (slice_1 d i) j). tauto.
  - pose proof (@in_map_graph21 (nbrs (graph_1 d) i) j). rewrite In_slice_1. tauto.
  - pose proof (@in_map_graph12 (nbrs (graph_2 d) i) j). rewrite In_slice_2, (du_sym W). tauto.
  - pose proof (@in_map_graph21 (slice_2 d i) j). tauto.
Qed.

Lemma linked_sym d : dual_ok d -> forall u v, linked d u v -> linked d v u.
Proof.
  intros W [i|i] [j|j]; simpl; auto.
  - apply (adj_sym (du_g1 W)).
  - apply (adj_sym (du_g2 W)).
Qed.

Lemma linked_range d u v : dual_ok d -> linked d u v -> dual_vertex d u /\ dual_vertex d v.
Proof.
  intros W. destruct u as [i|i], v as [j|j]; simpl; intros H.
  - apply (adj_lt (du_g1 W) H).
  - apply (cross_range W H).
  - destruct (cross_range W H). auto.
  - apply (adj_lt (du_g2 W) H).
Qed.

Lemma dsucc_NoDup d u : dual_ok d -> NoDup (dsucc d u).
Proof.
  intros W. destruct u as [i|i]; simpl; apply NoDup_app_iff; splits.
  - apply NoDup_map_graph1. apply (sg_nodup (du_g1 W)).
  - apply NoDup_map_graph2. unfold slice_1. destruct (nth_error (adj_1 d) i) eqn:E; [|constructor].
    apply (du_nodup1 W _ E).
  - intros x H1 H2. apply in_map_iff in H1 as (a & <- & _). apply (in_map_graph12 H2).
  - apply NoDup_map_graph2. apply (sg_nodup (du_g2 W)).
  - apply NoDup_map_graph1. unfold slice_2. destruct (nth_error (adj_2 d) i) eqn:E; [|constructor].
    apply (du_nodup2 W _ E).
  - intros x H1 H2. apply in_map_iff in H1 as (a & <- & _). apply (in_map_graph21 H2).
Qed.

Definition duniv d : list dual_index :=
  map Graph1 (seq 0 (vertex_count (graph_1 d))) ++ map Graph2 (seq 0 (vertex_count (graph_2 d))).

Lemma In_duniv d v : In v (duniv d) <-> dual_vertex d v.
Proof.
  unfold duniv. rewrite in_app_iff. destruct v as [i|i]; simpl;
    rewrite ?in_map_graph1, ?in_map_graph2, in_seq.
  - pose proof (@in_map_graph12 (seq 0 (vertex_count (graph_2 d))) i). intuition lia.
  - pose proof (@in_map_graph21 (seq 0 (vertex_count (graph_1 d))) i). intuition lia.
Qed.

Lemma NoDup_duniv d : NoDup (duniv d).
Proof.
  unfold duniv. apply NoDup_app_iff. splits.
  - apply NoDup_map_graph1, seq_NoDup.
  - apply NoDup_map_graph2, seq_NoDup.
  - intros x H1 H2. apply in_map_iff in H1 as (a & <- & _). apply (in_map_graph12 H2).
Qed.

Lemma duniv_length d : dual_ok d -> length (duniv d) = total_vertices d.
Proof.
  intros W. unfold duniv, total_vertices. rewrite app_length, !map_length, !seq_length.
  rewrite (sg_len (du_g1 W)), (sg_len (du_g2 W)). auto.
Qed.

Lemma dsucc_closed d : dual_ok d -> forall x y, In y (dsucc d x) -> In y (duniv d).
Proof. intros W x y H. apply In_duniv. apply (dsucc_linked _ _ W) in H. apply (linked_range W H). Qed.

(** *** [new] *)

Lemma dual_new_spec (g1 : graph A1) (g2 : graph A2) : at_slice at_new = [] -> simple_graph g1 -> simple_graph g2 ->
  let d : dual J A1 A2 := dual_new g1 g2 in dual_ok d /\ forall i j, ~ cross_1 d i j.
Proof.
  intros E W1 W2 d.
  assert (K : forall n i (a : J), nth_error (repeat at_new n) i = Some a -> at_slice a = []).
  { intros n i a H. apply nth_error_In, repeat_spec in H. subst; auto. }
  assert (N1 : forall i j, ~ cross_1 d i j).
  { intros i j (a & H & Hj). simpl in H. rewrite (K _ _ _ H) in Hj. destruct Hj. }
  assert (N2 : forall i j, ~ cross_2 d i j).
  { intros i j (a & H & Hj). simpl in H. rewrite (K _ _ _ H) in Hj. destruct Hj. }
  split; auto. constructor; simpl; auto.
  - rewrite repeat_length. apply W1.
  - rewrite repeat_length. apply W2.
  - intros i a H. rewrite (K _ _ _ H). constructor.
  - intros i a H. rewrite (K _ _ _ H). constructor.
  - intros i j. pose proof (N1 i j). pose proof (N2 j i). tauto.
Qed.

(** *** Storing one cross edge on both sides *)

Definition put_cross d i j (a b : J) : dual J A1 A2 :=
  mk_dual (graph_1 d) (graph_2 d) (upd (adj_1 d) i a) (upd (adj_2 d) j b).

Lemma put_cross_spec d i j a0 b0 a b : dual_ok d ->
  nth_error (adj_1 d) i = Some a0 -> nth_error (adj_2 d) j = Some b0 ->
  ~ In j (at_slice a0) -> at_slice a = at_slice a0 ++ [j] -> at_slice b = at_slice b0 ++ [i] ->
  dual_ok (put_cross d i j a b) /\
  forall x y, cross_1 (put_cross d i j a b) x y <-> cross_1 d x y \/ x = i /\ y = j.
Proof.
  intros W Ea Eb Hn Sa Sb.
  assert (Hi : i < length (adj_1 d)) by apply (nth_error_lt _ _ Ea).
  assert (Hj : j < length (adj_2 d)) by apply (nth_error_lt _ _ Eb).
  assert (Hn' : ~ In i (at_slice b0)).
  { intros H. apply Hn. assert (K : cross_2 d j i) by (exists b0; auto).
    apply (du_sym W) in K as (a' & E & K). congruence. }
  assert (X1 : forall x y, cross_1 (put_cross d i j a b) x y <-> cross_1 d x y \/ x = i /\ y = j).
  { intros x y. unfold cross_1, put_cross. cbn [adj_1]. rewrite nth_error_upd.
    destruct (Nat.eqb_spec i x) as [<-|N].
    - replace (i <? length (adj_1 d)) with true by (symmetry; apply Nat.ltb_lt; auto). cbn [andb].
      rewrite Ea. split.
      + intros (c & E & H). injection E as <-. rewrite Sa in H. apply in_app_iff in H as [H|[<-|[]]]; eauto.
      + intros [(c & E & H)|[_ ->]]; exists a; split; auto; rewrite Sa; apply in_app_iff;
          [left; congruence|simpl; auto].
    - cbn [andb]. split; [auto|]. intros [H|[E _]]; auto. congruence. }
  assert (X2 : forall x y, cross_2 (put_cross d i j a b) y x <-> cross_2 d y x \/ x = i /\ y = j).
  { intros x y. unfold cross_2, put_cross. cbn [adj_2]. rewrite nth_error_upd.
    destruct (Nat.eqb_spec j y) as [<-|N].
    - replace (j <? length (adj_2 d)) with true by (symmetry; apply Nat.ltb_lt; auto). cbn [andb].
      rewrite Eb. split.
      + intros (c & E & H). injection E as <-. rewrite Sb in H. apply in_app_iff in H as [H|[<-|[]]]; eauto.
      + intros [(c & E & H)|[-> _]]; exists b; split; auto; rewrite Sb; apply in_app_iff;
          [left; congruence|simpl; auto].
    - cbn [andb]. split; [auto|]. intros [H|[_ E]]; auto. congruence. }
  assert (App : forall (l : list nat) x, NoDup l -> ~ In x l -> NoDup (l ++ [x])).
  { intros l x N H. apply NoDup_app_iff. splits; auto.
    - repeat constructor; simpl; tauto.
    - intros y Hy [<-|[]]. auto. }
  split; auto. constructor; cbn [put_cross graph_1 graph_2 adj_1 adj_2].
  - apply W.
  - apply W.
  - rewrite upd_length. apply W.
  - rewrite upd_length. apply W.
  - intros x c. rewrite nth_error_upd. destruct ((i =? x) && (i <? length (adj_1 d))).
    + intros E. injection E as <-. rewrite Sa. apply App; auto. apply (du_nodup1 W _ Ea).
    + apply (du_nodup1 W).
  - intros x c. rewrite nth_error_upd. destruct ((j =? x) && (j <? length (adj_2 d))).
    + intros E. injection E as <-. rewrite Sb. apply App; auto. apply (du_nodup2 W _ Eb).
    + apply (du_nodup2 W).
  - intros x y. rewrite X1, X2, (du_sym W). tauto.
Qed.

(** *** Both loops of an iterator *)

Section Loops.
Context (marked : list bool * list bool -> dual_index -> outcome bool).
Context (mark : list bool * list bool -> dual_index -> outcome (list bool * list bool)).
Context (d : dual J A1 A2) (W : dual_ok d) (Rep : list bool * list bool -> list dual_index -> Prop).
Context (Hget : forall m seen i, Rep m seen -> dual_vertex d i ->
           marked m i = Done (if in_dec dual_index_dec i seen then true else false)).
Context (Hset : forall m seen i, Rep m seen -> dual_vertex d i -> ~ In i seen ->
           exists m', mark m i = Done m' /\ Rep m' (i :: seen)).
Context (Hext : forall m s s', Rep m s -> (forall w, In w s <-> In w s') -> Rep m s').

Lemma dual_loops_spec m seen v : Rep m seen -> dual_vertex d v ->
  exists m', dual_loops marked mark d m v = Done (m', dscan seen (dsucc d v)) /\
             Rep m' (dscan seen (dsucc d v) ++ seen).
Proof using W Hget Hset Hext.
  intros R Hv.
  assert (F : forall l, incl l (dsucc d v) -> Forall (dual_vertex d) l).
  { intros l Hl. apply Forall_forall. intros w Hw. apply Hl in Hw.
    apply (dsucc_linked _ _ W) in Hw. apply (linked_range W Hw). }
  assert (Both : forall l1 l2, dsucc d v = l1 ++ l2 ->
    exists m1 m2, mark_new marked mark m l1 = Done (m1, dscan seen l1) /\
      mark_new marked mark m1 l2 = Done (m2, dscan (dscan seen l1 ++ seen) l2) /\
      Rep m2 (dscan seen (dsucc d v) ++ seen)).
  { intros l1 l2 E.
    destruct (mark_new_spec Hget Hset Hext (l := l1) R) as (m1 & E1 & R1).
    { apply F. rewrite E. apply incl_appl, incl_refl. }
    destruct (mark_new_spec Hget Hset Hext (l := l2) R1) as (m2 & E2 & R2).
    { apply F. rewrite E. apply incl_appr, incl_refl. }
    exists m1, m2. split; auto. split; auto. revert R2. intros R2. apply (Hext R2).
    intros w. rewrite E, scan_app, !in_app_iff. tauto. }
  destruct v as [i|i]; simpl in Hv.
  - destruct (container_lt (du_g1 W) Hv) as (c & Hc & _ & _ & Hn).
    assert (Ha : exists a, nth_error (adj_1 d) i = Some a).
    { destruct (nth_error (adj_1 d) i) eqn:E; [eauto|].
      apply nth_error_None in E. rewrite (du_len1 W) in E. lia. }
    destruct Ha as [a Ha].
    assert (Es : slice_1 d i = at_slice a) by (unfold slice_1; rewrite Ha; auto).
    destruct (Both _ _ eq_refl) as (m1 & m2 & E1 & E2 & R2).
    unfold dual_loops. rewrite (vget_done _ _ Hc). cbn [bind]. rewrite Hn, E1. cbn [bind].
    rewrite (vget_done _ _ Ha). cbn [bind]. rewrite <- Es, E2. cbn [bind].
    exists m2. split; auto. do 2 f_equal. unfold dsucc. rewrite scan_app. auto.
  - destruct (container_lt (du_g2 W) Hv) as (c & Hc & _ & _ & Hn).
    assert (Ha : exists a, nth_error (adj_2 d) i = Some a).
    { destruct (nth_error (adj_2 d) i) eqn:E; [eauto|].
      apply nth_error_None in E. rewrite (du_len2 W) in E. lia. }
    destruct Ha as [a Ha].
    assert (Es : slice_2 d i = at_slice a) by (unfold slice_2; rewrite Ha; auto).
    destruct (Both _ _ eq_refl) as (m1 & m2 & E1 & E2 & R2).
    unfold dual_loops. rewrite (vget_done _ _ Hc). cbn [bind]. rewrite Hn, E1. cbn [bind].
    rewrite (vget_done _ _ Ha). cbn [bind]. rewrite <- Es, E2. cbn [bind].
    exists m2. split; auto. do 2 f_equal. unfold dsucc. rewrite scan_app. auto.
Qed.
End Loops.

(** The flags say [yes] exactly at the vertices in [seen]. *)
Definition frep (yes : bool) d (m : list bool * list bool) (seen : list dual_index) : Prop :=
  length (fst m) = vertex_count (graph_1 d) /\ length (snd m) = vertex_count (graph_2 d) /\
  forall v, dual_vertex d v ->
    flag m v = Done (if in_dec dual_index_dec v seen then yes else negb yes).

Lemma frep_ext yes d m s s' : frep yes d m s -> (forall w, In w s <-> In w s') -> frep yes d m s'.
Proof.
  intros (H1 & H2 & H) E. split; [|split]; auto. intros v Hv. rewrite (H v Hv).
  destruct (in_dec dual_index_dec v s) as [K|K], (in_dec dual_index_dec v s') as [K'|K']; auto;
    exfalso; apply E in K || apply E in K'; tauto.
Qed.

Lemma frep_none yes d : frep yes d (repeat (negb yes) (vertex_count (graph_1 d)),
                                    repeat (negb yes) (vertex_count (graph_2 d))) [].
Proof.
  unfold frep. cbn [fst snd]. rewrite !repeat_length. split; [|split]; auto.
  intros [i|i] Hv; simpl in *; apply vget_done, nth_error_repeat; auto.
Qed.

Lemma frep_set yes d m seen v : frep yes d m seen -> dual_vertex d v ->
  exists m', set_flag yes m v = Done m' /\ frep yes d m' (v :: seen).
Proof.
  intros (H1 & H2 & H) Hv. destruct m as [m1 m2]. cbn [fst snd] in *.
  assert (Cons : forall w b, w <> v ->
     (if in_dec dual_index_dec w seen then b else negb b) =
     (if in_dec dual_index_dec w (v :: seen) then b else negb b)).
  { intros w b N. destruct (in_dec dual_index_dec w seen) as [K|K],
      (in_dec dual_index_dec w (v :: seen)) as [K'|K']; auto; exfalso.
    - apply K'; simpl; auto.
    - destruct K'; auto. }
  assert (Same : forall b : bool, b = if in_dec dual_index_dec v (v :: seen) then b else negb b).
  { intros b. destruct (in_dec dual_index_dec v (v :: seen)) as [K|K]; auto.
    exfalso. apply K; simpl; auto. }
  destruct v as [i|i]; simpl in Hv; cbn [set_flag fst snd].
  - rewrite vset_done by lia. cbn [bind]. eexists. split; [reflexivity|].
    split; [|split]; cbn [fst snd]; rewrite ?upd_length; auto. intros [k|k] Hk.
    + destruct (Nat.eq_dec k i) as [->|N].
      * cbn [flag fst]. rewrite <- Same. apply vget_done, nth_error_upd_same. lia.
      * rewrite <- Cons by congruence. rewrite <- (H _ Hk). cbn [flag fst].
        unfold vget. rewrite nth_error_upd_other; auto.
    + rewrite <- Cons by congruence. rewrite <- (H _ Hk). auto.
  - rewrite vset_done by lia. cbn [bind]. eexists. split; [reflexivity|].
    split; [|split]; cbn [fst snd]; rewrite ?upd_length; auto. intros [k|k] Hk.
    + rewrite <- Cons by congruence. rewrite <- (H _ Hk). auto.
    + destruct (Nat.eq_dec k i) as [->|N].
      * cbn [flag snd]. rewrite <- Same. apply vget_done, nth_error_upd_same. lia.
      * rewrite <- Cons by congruence. rewrite <- (H _ Hk). cbn [flag snd].
        unfold vget. rewrite nth_error_upd_other; auto.
Qed.

Lemma dfs_loops_spec d m seen v : dual_ok d -> frep true d m seen -> dual_vertex d v ->
  exists m', dual_loops flag (set_flag true) d m v = Done (m', dscan seen (dsucc d v)) /\
             frep true d m' (dscan seen (dsucc d v) ++ seen).
Proof.
  intros W R Hv. apply dual_loops_spec with (Rep := frep true d); auto.
  - intros m0 s i (_ & _ & H) Hi. apply H; auto.
  - intros m0 s i H Hi _. apply frep_set; auto.
  - intros. eapply frep_ext; eauto.
Qed.

Lemma bfs_loops_spec d m seen v : dual_ok d -> frep false d m seen -> dual_vertex d v ->
  exists m', dual_loops (fun m v => do b <- flag m v; Done (negb b)) (set_flag false) d m v
               = Done (m', dscan seen (dsucc d v)) /\
             frep false d m' (dscan seen (dsucc d v) ++ seen).
Proof.
  intros W R Hv. apply dual_loops_spec with (Rep := frep false d); auto.
  - intros m0 s i (_ & _ & H) Hi. rewrite (H i Hi). cbn [bind].
    destruct (in_dec dual_index_dec i s); auto.
  - intros m0 s i H Hi _. apply frep_set; auto.
  - intros. eapply frep_ext; eauto.
Qed.

(** ** Depth first *)

Notation inv d := (sinv (duniv d)).

Definition ddrep d (s : ddfs) (x : list dual_index * list dual_index) : Prop :=
  frep true d (ddfs_handled s) (fst x) /\ ddfs_stack s = snd x /\ inv d (fst x) (snd x).

Lemma ddfs_sim d s x : dual_ok d -> ddrep d s x ->
  match adfs_next dual_index_dec (dsucc d) x with
  | None => ddfs_next d s = Done None
  | Some (y, x') => exists i s', ddfs_next d s = Done (Some (i, s')) /\ ddrep d s' x' /\ i = y
  end.
Proof.
  intros W (H & E & I). destruct x as [seen stack]. simpl in *.
  unfold ddfs_next. rewrite E. destruct stack as [|v rest]; auto.
  assert (Hv : dual_vertex d v) by (apply In_duniv, I; simpl; auto).
  destruct (dfs_loops_spec W H Hv) as (h' & -> & H'). cbn [bind].
  eexists _, _. split; [reflexivity|]. split; auto.
  split; [|split]; simpl; auto. eapply sinv_step; eauto.
  - intros a b Hb. apply (dsucc_closed W Hb).
  - rewrite Permutation_app_comm. apply Permutation_app_head. symmetry. apply Permutation_rev.
Qed.

Lemma ddrep_new d v : dual_ok d ->
  dual_vertex d v /\ ddrep d (ddfs_new d v) ([v], [v]) \/
  ~ dual_vertex d v /\ ddrep d (ddfs_new d v) ([], []).
Proof.
  intros W. unfold ddfs_new. rewrite !repeat_length, (sg_len (du_g1 W)), (sg_len (du_g2 W)).
  pose proof (frep_none true d) as F.
  destruct v as [i|i].
  - destruct (Nat.ltb_spec i (vertex_count (graph_1 d))) as [H|H]; [left|right; split; [simpl; lia|]].
    + split; auto. destruct (frep_set F (v := Graph1 i) H) as (m' & E & F').
      cbn [set_flag fst snd negb] in E. rewrite vset_done in E by (rewrite repeat_length; auto).
      injection E as <-. split; [|split]; auto. apply sinv_start. apply In_duniv; auto.
    + split; [|split]; auto. apply sinv_nil.
  - destruct (Nat.ltb_spec i (vertex_count (graph_2 d))) as [H|H]; [left|right; split; [simpl; lia|]].
    + split; auto. destruct (frep_set F (v := Graph2 i) H) as (m' & E & F').
      cbn [set_flag fst snd negb] in E. rewrite vset_done in E by (rewrite repeat_length; auto).
      injection E as <-. split; [|split]; auto. apply sinv_start. apply In_duniv; auto.
    + split; [|split]; auto. apply sinv_nil.
Qed.

Lemma ddfs_drain d s x : dual_ok d -> ddrep d s x ->
  exists is, drain (ddfs_next d) (S (total_vertices d)) s = Done is /\
    trace (adfs_next dual_index_dec (dsucc d)) x is /\
    run dual_index_dec (dsucc d) (fst x) (snd x) is.
Proof.
  intros W R. destruct x as [seen stack]. pose proof R as (_ & _ & I).
  destruct (sdfs_trace dual_index_dec (NoDup_duniv d) (dsucc_closed W) I) as (ys & Tr & Hr).
  destruct (srun_bounds (dsucc_closed W) I Hr) as (_ & _ & _ & Lo). rewrite (duniv_length W) in Lo.
  destruct (drain_sim (fun s x => @ddfs_sim d s x W) Tr (fuel := S (total_vertices d)) R)
    as (is & E & F); [lia|].
  assert (ys = is) as <-; [|eauto]. clear - F. induction F; congruence.
Qed.

Lemma dual_dfs_spec d v : dual_ok d ->
  exists is, dual_dfs_index d v = Done is /\ NoDup is /\
    (forall w, In w is <-> dual_vertex d v /\ joined (linked d) v w) /\
    (forall l1 w l2, is = l1 ++ w :: l2 -> w = v \/ exists u, In u l1 /\ linked d u w).
Proof.
  intros W. unfold dual_dfs_index.
  assert (Hl : forall a b, edge_avoiding (dsucc d) [] a b <-> linked d a b).
  { intros a b. rewrite edge_avoiding_none. apply (dsucc_linked _ _ W). }
  destruct (ddrep_new v W) as [[Hv R]|[Hv R]];
    destruct (ddfs_drain W R) as (is & E & _ & Hr); exists is; (split; [exact E|]);
    pose proof R as (_ & _ & I);
    destruct (srun_bounds (dsucc_closed W) I Hr) as (No & _); cbn [fst snd] in *; (split; [auto|]).
  - split.
    + intros w. rewrite (run_start_reach Hr), (joined_iff v w Hl). tauto.
    + intros l1 w l2 E2. destruct (run_parent Hr E2) as [K|(u & Hu & K)].
      * left. simpl in K. intuition.
      * right. exists u. split; auto. apply (dsucc_linked _ _ W); auto.
  - split.
    + intros w. rewrite (run_reach Hr). split; [intros (x & k & [] & _)|tauto].
    + intros l1 w l2 E2. destruct (run_parent Hr E2) as [K|(u & Hu & K)]; [destruct K|].
      right. exists u. split; auto. apply (dsucc_linked _ _ W); auto.
Qed.

(** ** Breadth first *)

Definition dbrep d (s : dbfs) (x : @abfs dual_index) : Prop :=
  frep false d (dbfs_todo s) (ab_seen x) /\
  dbfs_q0 s = ab_q0 x /\ dbfs_q1 s = ab_q1 x /\ dbfs_depth s = ab_depth x /\
  inv d (ab_seen x) (ab_q0 x ++ ab_q1 x).

Lemma dbfs_visit_sim d h seen v q0 q1 k : dual_ok d ->
  frep false d h seen -> inv d seen (v :: q0 ++ q1) ->
  exists i s', dbfs_visit d h v q0 q1 k = Done (Some (i, s')) /\
    dbrep d s' (mk_abfs (dscan seen (dsucc d v) ++ seen) q0 (q1 ++ dscan seen (dsucc d v)) k) /\
    i = (v, k).
Proof.
  intros W H I. assert (Hv : dual_vertex d v) by (apply In_duniv, I; simpl; auto).
  unfold dbfs_visit. destruct (bfs_loops_spec W H Hv) as (h' & -> & H'). cbn [bind].
  eexists _, _. split; [reflexivity|]. split; auto.
  unfold dbrep; splits; simpl; auto. eapply sinv_step; eauto.
  - intros a b Hb. apply (dsucc_closed W Hb).
  - rewrite app_assoc. auto.
Qed.

Lemma dbfs_sim d s x : dual_ok d -> dbrep d s x ->
  match abfs_next dual_index_dec (dsucc d) x with
  | None => dbfs_next d s = Done None
  | Some (y, x') => exists i s', dbfs_next d s = Done (Some (i, s')) /\ dbrep d s' x' /\ i = y
  end.
Proof.
  intros W (H & E0 & E1 & Ed & I). destruct x as [seen q0 q1 k]. unfold abfs_next. simpl in *.
  unfold dbfs_next. rewrite E0, E1, Ed.
  destruct q0 as [|v q0]; [destruct q1 as [|v q1]; auto|].
  - apply dbfs_visit_sim; auto. rewrite app_nil_r. auto.
  - apply dbfs_visit_sim; auto.
Qed.

Lemma dbrep_after d s x s' : dual_ok d -> dbrep d s x ->
  after (dbfs_next d) s s' -> exists x', dbrep d s' x'.
Proof.
  intros W R H. induction H as [|s1 i s2 H [x1 R1] E]; [eauto|].
  pose proof (dbfs_sim W R1) as K. destruct (abfs_next dual_index_dec (dsucc d) x1) as [[y x']|].
  - destruct K as (i' & s' & K & R' & _). exists x'. congruence.
  - congruence.
Qed.

Lemma dbrep_new d v : dual_ok d ->
  dual_vertex d v /\ dbrep d (dbfs_new d v) (mk_abfs [v] [v] [] 0) \/
  ~ dual_vertex d v /\ dbrep d (dbfs_new d v) (mk_abfs [] [] [] 0).
Proof.
  intros W. unfold dbfs_new. rewrite (sg_len (du_g1 W)), (sg_len (du_g2 W)).
  pose proof (frep_none false d) as F.
  destruct v as [i|i].
  - destruct (Nat.ltb_spec i (vertex_count (graph_1 d))) as [H|H]; [left|right; split; [simpl; lia|]].
    + split; auto. destruct (frep_set F (v := Graph1 i) H) as (m' & E & F').
      cbn [set_flag fst snd negb] in E. rewrite vset_done in E by (rewrite repeat_length; auto).
      injection E as <-. unfold dbrep; splits; auto. apply sinv_start. apply In_duniv; auto.
    + unfold dbrep; splits; auto. apply sinv_nil.
  - destruct (Nat.ltb_spec i (vertex_count (graph_2 d))) as [H|H]; [left|right; split; [simpl; lia|]].
    + split; auto. destruct (frep_set F (v := Graph2 i) H) as (m' & E & F').
      cbn [set_flag fst snd negb] in E. rewrite vset_done in E by (rewrite repeat_length; auto).
      injection E as <-. unfold dbrep; splits; auto. apply sinv_start. apply In_duniv; auto.
    + unfold dbrep; splits; auto. apply sinv_nil.
Qed.

Lemma dbfs_drain d s x : dual_ok d -> dbrep d s x ->
  exists is, drain (dbfs_next d) (S (total_vertices d)) s = Done is /\
    trace (abfs_next dual_index_dec (dsucc d)) x is /\
    run dual_index_dec (dsucc d) (ab_seen x) (ab_q0 x ++ ab_q1 x) (map fst is).
Proof.
  intros W R. assert (I : inv d (ab_seen x) (ab_q0 x ++ ab_q1 x)) by apply R.
  destruct (sbfs_trace dual_index_dec (NoDup_duniv d) (dsucc_closed W) I) as (ys & Tr & Hr).
  destruct (srun_bounds (dsucc_closed W) I Hr) as (_ & _ & _ & Lo).
  rewrite (duniv_length W), map_length in Lo.
  destruct (drain_sim (fun s x => @dbfs_sim d s x W) Tr (fuel := S (total_vertices d)) R)
    as (is & E & F); [lia|].
  assert (ys = is) as <-; [|eauto]. clear - F. induction F; congruence.
Qed.

Lemma dual_bfs_spec d v : dual_ok d ->
  exists is, dual_bfs_index d v = Done is /\ NoDup (map fst is) /\
    (forall w, In w (map fst is) <-> dual_vertex d v /\ joined (linked d) v w) /\
    (forall w k, In (w, k) is -> is_dist (linked d) v w k) /\
    ForallOrdPairs (fun a b => snd a <= snd b) is.
Proof.
  intros W. unfold dual_bfs_index.
  assert (Hl : forall a b, edge_avoiding (dsucc d) [] a b <-> linked d a b).
  { intros a b. rewrite edge_avoiding_none. apply (dsucc_linked _ _ W). }
  destruct (dbrep_new v W) as [[Hv R]|[Hv R]];
    destruct (dbfs_drain W R) as (is & E & Tr & Hr); exists is; (split; [exact E|]);
    pose proof R as (_ & _ & _ & _ & I);
    destruct (srun_bounds (dsucc_closed W) I Hr) as (No & _); simpl in *; (split; [auto|]).
  - destruct (abfs_dist Tr (binv_start (B := []) (s := v) (dsucc d) (fun H => H))) as [Fd Fo].
    split; [|split]; auto.
    + intros w. rewrite (run_start_reach Hr), (joined_iff v w Hl). tauto.
    + intros w k Hin. rewrite Forall_forall in Fd. destruct (Fd _ Hin) as [K _].
      apply (is_dist_iff v w k Hl); auto.
  - inversion Tr as [st Es|st y st' ys Es]; subst; [|discriminate].
    split; [|split]; simpl.
    + tauto.
    + intros ? ? [].
    + constructor.
Qed.

Lemma dbfs_reuse_new d s v : dual_ok d ->
  length (fst (dbfs_todo s)) = vertex_count (graph_1 d) ->
  length (snd (dbfs_todo s)) = vertex_count (graph_2 d) ->
  dbfs_reuse d s v = Done (dbfs_new d v).
Proof.
  intros W H1 H2. unfold dbfs_reuse, dbfs_new. rewrite (sg_len (du_g1 W)), (sg_len (du_g2 W)).
  assert (K : forall l : list bool, map (fun _ => true) l = repeat true (length l)).
  { induction l; simpl; congruence. }
  rewrite !K, H1, H2. destruct v as [i|i].
  - destruct (Nat.ltb_spec i (vertex_count (graph_1 d))); auto.
    rewrite vset_done by (rewrite repeat_length; auto). auto.
  - destruct (Nat.ltb_spec i (vertex_count (graph_2 d))); auto.
    rewrite vset_done by (rewrite repeat_length; auto). auto.
Qed.

(** *** Connectedness *)

Lemma graph_1_connected d : dual_ok d -> vertex_count (graph_2 d) = 0 ->
  (connected (graph_1 d) <-> dual_connected d).
Proof.
  intros W E.
  assert (K : forall i v k, walk (linked d) (Graph1 i) v k ->
             exists j, v = Graph1 j /\ walk (adj (graph_1 d)) i j k).
  { intros i v k Wk. remember (Graph1 i) as u eqn:Eu. induction Wk as [|v w k Wk IH H].
    - subst. exists i. split; auto. constructor.
    - destruct IH as (j & -> & IH). destruct w as [l|l].
      + exists l. split; auto. econstructor; eauto.
      + exfalso. apply (linked_range W) in H as [_ H]. simpl in H. lia. }
  assert (K' : forall i j k, walk (adj (graph_1 d)) i j k -> walk (linked d) (Graph1 i) (Graph1 j) k).
  { intros i j k Wk. induction Wk as [|v w k Wk IH H]; [constructor|]. econstructor; eauto. }
  split.
  - intros Hc [u|u] [v|v] Hu Hv; simpl in Hu, Hv; try lia.
    destruct (Hc u v Hu Hv) as [k Wk]. exists k. auto.
  - intros Hc u v Hu Hv. destruct (Hc (Graph1 u) (Graph1 v) Hu Hv) as [k Wk].
    destruct (K _ _ _ Wk) as (j & Ej & Wj). injection Ej as <-. exists k. auto.
Qed.

Lemma graph_2_connected d : dual_ok d -> vertex_count (graph_1 d) = 0 ->
  (connected (graph_2 d) <-> dual_connected d).
Proof.
  intros W E.
  assert (K : forall i v k, walk (linked d) (Graph2 i) v k ->
             exists j, v = Graph2 j /\ walk (adj (graph_2 d)) i j k).
  { intros i v k Wk. remember (Graph2 i) as u eqn:Eu. induction Wk as [|v w k Wk IH H].
    - subst. exists i. split; auto. constructor.
    - destruct IH as (j & -> & IH). destruct w as [l|l].
      + exfalso. apply (linked_range W) in H as [_ H]. simpl in H. lia.
      + exists l. split; auto. econstructor; eauto. }
  assert (K' : forall i j k, walk (adj (graph_2 d)) i j k -> walk (linked d) (Graph2 i) (Graph2 j) k).
  { intros i j k Wk. induction Wk as [|v w k Wk IH H]; [constructor|]. econstructor; eauto. }
  split.
  - intros Hc [u|u] [v|v] Hu Hv; simpl in Hu, Hv; try lia.
    destruct (Hc u v Hu Hv) as [k Wk]. exists k. auto.
  - intros Hc u v Hu Hv. destruct (Hc (Graph2 u) (Graph2 v) Hu Hv) as [k Wk].
    destruct (K _ _ _ Wk) as (j & Ej & Wj). injection Ej as <-. exists k. auto.
Qed.

Lemma joined_vertex d u v : dual_ok d -> dual_vertex d u -> joined (linked d) u v -> dual_vertex d v.
Proof.
  intros W Hu [k Wk]. inversion Wk as [|a b c _ Hab]; subst; auto. apply (linked_range W Hab).
Qed.

Lemma dual_is_connected_spec d : dual_ok d ->
  exists b, dual_is_connected d = Done b /\ (b = true <-> dual_connected d).
Proof.
  intros W. unfold dual_is_connected.
  destruct (Nat.eqb_spec (vertex_count (graph_1 d)) 0) as [E1|E1],
           (Nat.eqb_spec (vertex_count (graph_2 d)) 0) as [E2|E2]; cbn [andb negb].
  - exists true. split; auto. split; auto. intros _ [u|u] v Hu; simpl in Hu; lia.
  - pose proof (graph_2_connected W E1) as Hg.
    destruct (is_connected_spec (du_g2 W)) as [[H ->]|[(H & Hc & ->)|(H & Hc & ->)]]; [lia| |];
      cbn [bind]; eexists; (split; [reflexivity|]); rewrite <- Hg; intuition discriminate.
  - pose proof (graph_1_connected W E2) as Hg.
    destruct (is_connected_spec (du_g1 W)) as [[H ->]|[(H & Hc & ->)|(H & Hc & ->)]]; [lia| |];
      cbn [bind]; eexists; (split; [reflexivity|]); rewrite <- Hg; intuition discriminate.
  - unfold dual_dfs_1_index. destruct (dual_dfs_spec (Graph1 0) W) as (is & -> & N & R & _). cbn [bind].
    assert (H0 : dual_vertex d (Graph1 0)) by (simpl; lia).
    exists (length is =? total_vertices d). split; auto. rewrite Nat.eqb_eq, <- (duniv_length W). split.
    + intros Hl u v Hu Hv.
      assert (P : Permutation is (duniv d)).
      { apply NoDup_Permutation_bis; auto.
        - rewrite Hl; auto.
        - intros x Hx. apply In_duniv. apply R in Hx as [_ Hx]. apply (joined_vertex W H0 Hx). }
      assert (Z : forall x, dual_vertex d x -> joined (linked d) (Graph1 0) x).
      { intros x Hx. apply R. rewrite P. apply In_duniv; auto. }
      apply joined_trans with (Graph1 0); auto. apply joined_sym; auto. apply linked_sym; auto.
    + intros Hc. apply Permutation_length. apply NoDup_Permutation; auto; [apply NoDup_duniv|].
      intros x. rewrite R, In_duniv. split.
      * intros [_ Hx]. apply (joined_vertex W H0 Hx).
      * intros Hx. split; auto.
Qed.

(** *** Diameter *)

Definition is_decc d (u : dual_index) (k : nat) : Prop :=
  (exists v, is_dist (linked d) u v k) /\ forall v l, is_dist (linked d) u v l -> l <= k.

Lemma is_decc_fun d u k l : is_decc d u k -> is_decc d u l -> k = l.
Proof. intros [[v Hv] M] [[v' Hv'] M']. apply M in Hv'. apply M' in Hv. lia. Qed.

Lemma dual_last d v is : dual_vertex d v ->
  (forall w, In w (map fst is) <-> dual_vertex d v /\ joined (linked d) v w) ->
  (forall w k, In (w, k) is -> is_dist (linked d) v w k) ->
  ForallOrdPairs (fun a b => snd a <= snd b) is ->
  exists r w k, rev is = (w, k) :: r /\ is_decc d v k.
Proof.
  intros Hv R D O.
  assert (Hin : In v (map fst is)).
  { apply R. split; auto. apply joined_refl. }
  destruct (rev is) as [|[w k] r] eqn:E.
  { apply (f_equal (@rev _)) in E. rewrite rev_involutive in E. subst. destruct Hin. }
  exists r, w, k. split; auto. apply rev_cons_app in E.
  assert (Ho : forall x, In x is -> snd x <= k).
  { intros x Hx. subst is. apply in_app_iff in Hx as [Hx|[<-|[]]]; [|auto].
    clear - Hx O. induction (rev r) as [|a l IH]; [destruct Hx|].
    simpl in O. inversion_clear O as [|? ? H1 H2]. destruct Hx as [->|Hx]; auto.
    rewrite Forall_forall in H1. apply (H1 (w, k)). apply in_app_iff. simpl; auto. }
  split.
  - exists w. apply D. subst is. apply in_app_iff. simpl; auto.
  - intros x l Hl. assert (Hx : In x (map fst is)).
    { apply R. split; auto. exists l. apply Hl. }
    apply in_map_iff in Hx as ([x' l'] & Ex & Hx). simpl in Ex. subst x'.
    rewrite (is_dist_fun Hl (D _ _ Hx)). apply (Ho _ Hx).
Qed.

Definition sized d (b : dbfs) : Prop :=
  length (fst (dbfs_todo b)) = vertex_count (graph_1 d) /\
  length (snd (dbfs_todo b)) = vertex_count (graph_2 d).

Lemma sized_after d v b : dual_ok d -> after (dbfs_next d) (dbfs_new d v) b -> sized d b.
Proof.
  intros W Ha. assert (K : exists x, dbrep d (dbfs_new d v) x).
  { destruct (dbrep_new v W) as [[_ K]|[_ K]]; eauto. }
  destruct K as [x K]. destruct (dbrep_after W K Ha) as [x' ((H1 & H2 & _) & _)]. split; auto.
Qed.

Lemma dual_pass_spec p d b max v : dual_ok d -> dual_vertex d v -> sized d b ->
  exists k b', dual_diameter_pass p d (max, b) v = Done (Nat.max max k, b') /\ is_decc d v k /\
               sized d b'.
Proof.
  intros W Hv [H1 H2]. unfold dual_diameter_pass. rewrite (dbfs_reuse_new v W H1 H2). cbn [bind].
  destruct (dual_bfs_spec v W) as (is & E & N & R & D & O).
  destruct (drain_by_ref_spec E) as (e & -> & Ha). cbn [bind].
  destruct (dual_last Hv R D O) as (r & w & k & -> & Hecc).
  exists k, e. split; auto. split; auto. apply (sized_after W Ha).
Qed.

Lemma dual_passes p d : dual_ok d -> forall l max b,
  (forall v, In v l -> dual_vertex d v) -> sized d b ->
  exists m b', foldM (dual_diameter_pass p d) (max, b) l = Done (m, b') /\ sized d b' /\ max <= m /\
    (forall v k, In v l -> is_decc d v k -> k <= m) /\
    (m = max \/ exists v, In v l /\ is_decc d v m).
Proof.
  intros W. induction l as [|v l IH]; intros max b Hr Hl.
  - exists max, b. simpl. split; auto. split; auto. split; auto. split; auto. intros ? ? [].
  - destruct (dual_pass_spec p max W (Hr v (or_introl eq_refl)) Hl) as (k & b1 & E & Hd & Hl1).
    cbn [foldM]. rewrite E. cbn [bind].
    destruct (IH (Nat.max max k) b1) as (m & b' & E' & Hs & Hm & Hall & Hex); auto.
    { intros; apply Hr; simpl; auto. }
    exists m, b'. split; auto. split; auto. split; [lia|]. split.
    + intros w k' [<-|Hw] Hk'; [|eauto]. rewrite (is_decc_fun Hk' Hd). lia.
    + destruct Hex as [->|(w & Hw & He)].
      * destruct (Nat.max_spec max k) as [[_ ->]|[_ ->]]; auto.
        right. exists v. simpl; auto.
      * right. exists w. simpl; auto.
Qed.

Lemma decc_exists d v : dual_ok d -> dual_vertex d v -> exists k, is_decc d v k.
Proof.
  intros W Hv. destruct (dual_bfs_spec v W) as (is & E & N & R & D & O).
  destruct (dual_last Hv R D O) as (r & w & k & _ & Hecc). eauto.
Qed.

Lemma dual_diameter_spec p d : dual_ok d ->
  (total_vertices d = 0 \/ ~ dual_connected d) /\ dual_diameter p d = Done None \/
  0 < total_vertices d /\ dual_connected d /\
    exists k, dual_diameter p d = Done (Some k) /\ is_dual_diameter d k.
Proof.
  intros W. unfold dual_diameter. destruct (Nat.eqb_spec (total_vertices d) 0) as [E|E]; [auto|].
  destruct (dual_is_connected_spec W) as (c & -> & Hc). cbn [bind].
  destruct c; cbn [negb]; [|left; intuition discriminate].
  right. split; [lia|]. split; [apply Hc; auto|].
  set (l1 := map Graph1 (seq 0 (vertex_count (graph_1 d)))).
  set (l2 := map Graph2 (seq 1 (vertex_count (graph_2 d) - 1))).
  destruct (dual_passes p W (l := l1) 0 (b := dbfs_new d (Graph1 0)))
    as (m1 & b1 & -> & S1 & _ & A1' & X1).
  { intros v Hv. apply in_map_iff in Hv as (i & <- & Hi). apply in_seq in Hi. simpl. lia. }
  { apply (@sized_after d (Graph1 0)); auto. constructor. }
  cbn [bind].
  destruct (dual_passes p W (l := l2) m1 (b := b1)) as (m & b2 & -> & S2 & Hm & A2' & X2); auto.
  { intros v Hv. apply in_map_iff in Hv as (i & <- & Hi). apply in_seq in Hi. simpl. lia. }
  cbn [bind]. exists m. split; auto.
  assert (Hlow : forall u v k, dual_vertex d u -> u <> Graph2 0 -> is_dist (linked d) u v k -> k <= m).
  { intros u v k Hu Nu Hd. destruct (decc_exists W Hu) as [e He].
    apply Nat.le_trans with e; [apply He in Hd; auto|]. destruct u as [i|i]; simpl in Hu.
    - apply Nat.le_trans with m1; auto. apply (A1' (Graph1 i)); auto. apply in_map_graph1, in_seq. lia.
    - apply (A2' (Graph2 i)); auto. apply in_map_graph2, in_seq. destruct i; [congruence|lia]. }
  assert (Some_vertex : exists u, dual_vertex d u).
  { unfold total_vertices in E. rewrite (sg_len (du_g1 W)), (sg_len (du_g2 W)) in E.
    destruct (vertex_count (graph_1 d)) eqn:E1.
    - exists (Graph2 0). simpl. lia.
    - exists (Graph1 0). simpl. lia. }
  assert (Zero : exists u v, dual_vertex d u /\ is_dist (linked d) u v 0).
  { destruct Some_vertex as [u Hu]. exists u, u. split; auto. apply is_dist_self. }
  split.
  - destruct X2 as [->|(u & Hu & [[v Hv] _])].
    + destruct X1 as [->|(u & Hu & [[v Hv] _])]; auto.
      exists u, v. split; auto. apply in_map_iff in Hu as (i & <- & Hi). apply in_seq in Hi. simpl. lia.
    + exists u, v. split; auto. apply in_map_iff in Hu as (i & <- & Hi). apply in_seq in Hi. simpl. lia.
  - intros u v k Hu Hd. destruct (dual_index_dec u (Graph2 0)) as [->|Nu]; [|eauto].
    destruct (dual_index_dec v (Graph2 0)) as [->|Nv].
    + destruct Hd as [_ Hd]. specialize (Hd 0 (walk_nil _ _)). lia.
    + apply (Hlow v (Graph2 0)); auto.
      * apply (joined_vertex W Hu). exists k. apply Hd.
      * apply is_dist_sym; auto. apply linked_sym; auto.
Qed.

(** ** Degrees *)

Lemma degree_1_spec d i : dual_ok d ->
  (i < vertex_count (graph_1 d) -> degree_1 d i = Done (length (dsucc d (Graph1 i)))) /\
  (vertex_count (graph_1 d) <= i -> degree_1 d i = Panic).
Proof.
  intros W. unfold degree_1, container. split; intros Hi.
  - destruct (container_lt (du_g1 W) Hi) as (c & Hc & Wc & _ & Hn).
    rewrite (vget_done _ _ Hc). cbn [bind].
    assert (Ha : exists a, nth_error (adj_1 d) i = Some a).
    { destruct (nth_error (adj_1 d) i) eqn:E; [eauto|].
      apply nth_error_None in E. rewrite (du_len1 W) in E. lia. }
    destruct Ha as [a Ha]. rewrite (vget_done _ _ Ha). cbn [bind].
    unfold dsucc, slice_1. rewrite Ha, app_length, !map_length, <- Hn. do 2 f_equal.
    apply law_degree.
  - unfold vget. replace (nth_error (vertices (graph_1 d)) i) with (@None A1); auto.
    symmetry. apply nth_error_None. rewrite (sg_len (du_g1 W)). auto.
Qed.

Lemma degree_2_spec d i : dual_ok d ->
  (i < vertex_count (graph_2 d) -> degree_2 d i = Done (length (dsucc d (Graph2 i)))) /\
  (vertex_count (graph_2 d) <= i -> degree_2 d i = Panic).
Proof.
  intros W. unfold degree_2, container. split; intros Hi.
  - destruct (container_lt (du_g2 W) Hi) as (c & Hc & Wc & _ & Hn).
    rewrite (vget_done _ _ Hc). cbn [bind].
    assert (Ha : exists a, nth_error (adj_2 d) i = Some a).
    { destruct (nth_error (adj_2 d) i) eqn:E; [eauto|].
      apply nth_error_None in E. rewrite (du_len2 W) in E. lia. }
    destruct Ha as [a Ha]. rewrite (vget_done _ _ Ha). cbn [bind].
    unfold dsucc, slice_2. rewrite Ha, app_length, !map_length, <- Hn. do 2 f_equal.
    apply law_degree.
  - unfold vget. replace (nth_error (vertices (graph_2 d)) i) with (@None A2); auto.
    symmetry. apply nth_error_None. rewrite (sg_len (du_g2 W)). auto.
Qed.

End Cross.

(** ** [add_edge] *)

Section AddEdge.
Context {T1 A1 T2 A2 : Type} {C1 : AdjContainer T1 A1} {C2 : AdjContainer T2 A2}.
Context {L1 : AdjLaws C1} {L2 : AdjLaws C2}.

Lemma in_range_nth {X} (l : list X) i : i < length l -> exists a, nth_error l i = Some a.
Proof.
  intros H. destruct (nth_error l i) eqn:E; [eauto|]. apply nth_error_None in E. lia.
Qed.

Lemma out_of_bounds {J} {AT : AdjTrait J} (d : dual J A1 A2) i j :
  dual_ok d -> vertex_count (graph_1 d) <= i \/ vertex_count (graph_2 d) <= j ->
  dual_add_edge d i j = Done (Err IndexOutOfBounds, d).
Proof.
  intros W H. unfold dual_add_edge. rewrite (du_len1 W), (du_len2 W).
  destruct (Nat.leb_spec (vertex_count (graph_1 d)) i), (Nat.leb_spec (vertex_count (graph_2 d)) j);
    auto; lia.
Qed.

Lemma in_bounds {J} {AT : AdjTrait J} (d : dual J A1 A2) i j :
  dual_ok d -> i < vertex_count (graph_1 d) -> j < vertex_count (graph_2 d) ->
  exists a b, nth_error (adj_1 d) i = Some a /\ nth_error (adj_2 d) j = Some b /\
    dual_add_edge d i j =
    let (a', ok) := at_add_edge a j in
    if negb ok then Done (Err EdgeExists, mk_dual (graph_1 d) (graph_2 d) (upd (adj_1 d) i a') (adj_2 d))
    else let (b', ok') := at_add_edge b i in
         if negb ok' then Panic else Done (Ok tt, put_cross d i j a' b').
Proof.
  intros W Hi Hj.
  destruct (@in_range_nth _ (adj_1 d) i) as [a Ea]; [rewrite (du_len1 W); auto|].
  destruct (@in_range_nth _ (adj_2 d) j) as [b Eb]; [rewrite (du_len2 W); auto|].
  exists a, b. split; auto. split; auto.
  unfold dual_add_edge. rewrite (du_len1 W), (du_len2 W).
  destruct (Nat.leb_spec (vertex_count (graph_1 d)) i), (Nat.leb_spec (vertex_count (graph_2 d)) j); try lia.
  cbn [orb]. rewrite Ea, Eb. destruct (at_add_edge a j) as [a' ok]. auto.
Qed.

Lemma dual_same {J} (d : dual J A1 A2) i a : nth_error (adj_1 d) i = Some a ->
  mk_dual (graph_1 d) (graph_2 d) (upd (adj_1 d) i a) (adj_2 d) = d.
Proof. intros E. rewrite upd_same by auto. destruct d; auto. Qed.

Lemma multi_adjacent_iff a j : multi_is_adjacent a j = true <-> In j (multi_adj a).
Proof.
  unfold multi_is_adjacent. rewrite existsb_exists. split.
  - intros (x & H & E). apply Nat.eqb_eq in E. subst; auto.
  - intros H. exists j. split; auto. apply Nat.eqb_refl.
Qed.

Lemma multi_add_edge_spec (d : dual adj_multi A1 A2) i j : dual_ok d ->
  (vertex_count (graph_1 d) <= i \/ vertex_count (graph_2 d) <= j) /\
     dual_add_edge d i j = Done (Err IndexOutOfBounds, d) \/
  cross_1 d i j /\ dual_add_edge d i j = Done (Err EdgeExists, d) \/
  (i < vertex_count (graph_1 d) /\ j < vertex_count (graph_2 d)) /\ ~ cross_1 d i j /\
    exists d', dual_add_edge d i j = Done (Ok tt, d') /\ dual_ok d' /\
      graph_1 d' = graph_1 d /\ graph_2 d' = graph_2 d /\
      forall x y, cross_1 d' x y <-> cross_1 d x y \/ x = i /\ y = j.
Proof.
  intros W.
  destruct (Nat.le_gt_cases (vertex_count (graph_1 d)) i) as [H1|H1];
    [left; split; auto; apply out_of_bounds; auto|].
  destruct (Nat.le_gt_cases (vertex_count (graph_2 d)) j) as [H2|H2];
    [left; split; auto; apply out_of_bounds; auto|].
  right. destruct (in_bounds W H1 H2) as (a & b & Ea & Eb & ->).
  cbn [at_add_edge adj_multi_trait]. unfold multi_add_edge.
  destruct (multi_is_adjacent a j) eqn:Em.
  - left. apply multi_adjacent_iff in Em. split; [exists a; auto|].
    cbn [negb]. rewrite (dual_same Ea). auto.
  - right. assert (Hn : ~ In j (multi_adj a)) by (rewrite <- multi_adjacent_iff; congruence).
    assert (Hc : ~ cross_1 d i j).
    { intros (a' & E & H). rewrite Ea in E. injection E as <-. auto. }
    split; auto. split; auto. cbn [negb].
    destruct (multi_is_adjacent b i) eqn:Eb'.
    { exfalso. apply Hc, (du_sym W). exists b. split; auto. apply multi_adjacent_iff; auto. }
    cbn [negb]. eexists. split; [reflexivity|].
    destruct (@put_cross_spec _ _ _ _ _ _ _ _ _ _ d i j a b
                (mk_multi (multi_adj a ++ [j])) (mk_multi (multi_adj b ++ [i])) W Ea Eb Hn eq_refl eq_refl)
      as [W' X]. split; auto.
Qed.

Lemma single_add_edge_spec (d : dual adj_single A1 A2) i j : dual_ok d ->
  (vertex_count (graph_1 d) <= i \/ vertex_count (graph_2 d) <= j) /\
     dual_add_edge d i j = Done (Err IndexOutOfBounds, d) \/
  (i < vertex_count (graph_1 d) /\ j < vertex_count (graph_2 d)) /\
  ((exists y, cross_1 d i y) /\ dual_add_edge d i j = Done (Err EdgeExists, d) \/
   (forall y, ~ cross_1 d i y) /\ (exists x, cross_1 d x j) /\ dual_add_edge d i j = Panic \/
   (forall y, ~ cross_1 d i y) /\ (forall x, ~ cross_1 d x j) /\
    exists d', dual_add_edge d i j = Done (Ok tt, d') /\ dual_ok d' /\
      graph_1 d' = graph_1 d /\ graph_2 d' = graph_2 d /\
      forall x y, cross_1 d' x y <-> cross_1 d x y \/ x = i /\ y = j).
Proof.
  intros W.
  destruct (Nat.le_gt_cases (vertex_count (graph_1 d)) i) as [H1|H1];
    [left; split; auto; apply out_of_bounds; auto|].
  destruct (Nat.le_gt_cases (vertex_count (graph_2 d)) j) as [H2|H2];
    [left; split; auto; apply out_of_bounds; auto|].
  right. split; auto. destruct (in_bounds W H1 H2) as (a & b & Ea & Eb & ->).
  cbn [at_add_edge adj_single_trait]. unfold single_add_edge.
  destruct a as [|y]; cbn [is_nothing negb].
  - assert (Hc : forall y, ~ cross_1 d i y).
    { intros y (a' & E & H). rewrite Ea in E. injection E as <-. destruct H. }
    right. destruct b as [|x]; cbn [is_nothing negb].
    + right. split; auto. split.
      { intros x H. apply (du_sym W) in H as (a' & E & H). rewrite Eb in E. injection E as <-. destruct H. }
      eexists. split; [reflexivity|].
      destruct (@put_cross_spec _ _ _ _ _ _ _ _ _ _ d i j Nothing Nothing
                (Something j) (Something i) W Ea Eb (fun H => H) eq_refl eq_refl)
        as [W' X]. split; auto.
    + left. split; auto. split; auto. exists x. apply (du_sym W). exists (Something x). simpl; auto.
  - left. split; [exists y, (Something y); simpl; auto|]. rewrite (dual_same Ea). auto.
Qed.

(** Any sequence of calls, starting with no cross edges. *)
Lemma multi_add_edges_spec l : forall (d : dual adj_multi A1 A2), dual_ok d ->
  exists rs d', dual_add_edges d l = Done (rs, d') /\ dual_ok d' /\
    graph_1 d' = graph_1 d /\ graph_2 d' = graph_2 d /\
    forall x y, cross_1 d' x y <->
      cross_1 d x y \/
      In (x, y) l /\ x < vertex_count (graph_1 d) /\ y < vertex_count (graph_2 d).
Proof.
  induction l as [|[i j] l IH]; intros d W.
  - exists [], d. simpl. split; auto. split; auto. split; auto. split; auto. tauto.
  - cbn [dual_add_edges].
    assert (Step : exists r d1, dual_add_edge d i j = Done (r, d1) /\ dual_ok d1 /\
      graph_1 d1 = graph_1 d /\ graph_2 d1 = graph_2 d /\
      forall x y, cross_1 d1 x y <-> cross_1 d x y \/
        (x = i /\ y = j /\ x < vertex_count (graph_1 d) /\ y < vertex_count (graph_2 d))).
    { destruct (multi_add_edge_spec i j W) as [[H E]|[[H E]|([H1 H2] & H & d' & E & W' & G1 & G2 & X)]].
      - exists (Err IndexOutOfBounds), d. split; auto. split; auto. split; auto. split; auto.
        intros x y. split; auto. intros [K|(-> & -> & K)]; auto. lia.
      - exists (Err EdgeExists), d. split; auto. split; auto. split; auto. split; auto.
        intros x y. split; auto. intros [K|(-> & -> & K)]; auto.
      - exists (Ok tt), d'. split; auto. split; auto. split; auto. split; auto.
        intros x y. rewrite X. intuition (subst; auto). }
    destruct Step as (r & d1 & -> & W1 & G1 & G2 & X1). cbn [bind].
    destruct (IH d1 W1) as (rs & d2 & -> & W2 & G1' & G2' & X2). cbn [bind].
    exists (r :: rs), d2. split; auto. split; auto. split; [congruence|]. split; [congruence|].
    intros x y. rewrite X2, X1, G1, G2. simpl. split.
    + intros [[H|(-> & -> & H)]|H]; tauto.
    + intros [H|[[E|H] K]]; auto. injection E as -> ->. tauto.
Qed.

(** With [AdjSingle] every state reached without a panic is fine, too. *)
Lemma single_add_edges_spec l : forall (d : dual adj_single A1 A2) rs d', dual_ok d ->
  dual_add_edges d l = Done (rs, d') ->
  dual_ok d' /\ graph_1 d' = graph_1 d /\ graph_2 d' = graph_2 d /\
  forall x y, cross_1 d' x y -> cross_1 d x y \/ In (x, y) l.
Proof.
  induction l as [|[i j] l IH]; intros d rs d' W E.
  - injection E as <- <-. split; auto.
  - cbn [dual_add_edges] in E.
    destruct (dual_add_edge d i j) as [[r d1]| | |] eqn:E1; try discriminate. cbn [bind] in E.
    destruct (dual_add_edges d1 l) as [[rs' d2]| | |] eqn:E2; try discriminate. cbn [bind] in E.
    injection E as <- <-.
    assert (Step : dual_ok d1 /\ graph_1 d1 = graph_1 d /\ graph_2 d1 = graph_2 d /\
      forall x y, cross_1 d1 x y -> cross_1 d x y \/ x = i /\ y = j).
    { destruct (single_add_edge_spec i j W)
        as [[H K]|[_ [[H K]|[(_ & _ & K)|(_ & _ & d'' & K & W' & G1 & G2 & X)]]]];
        rewrite K in E1; try discriminate; injection E1 as <- <-; auto.
      split; auto. split; auto. split; auto. intros x y H. apply X; auto. }
    destruct Step as (W1 & G1 & G2 & X1). destruct (IH _ _ _ W1 E2) as (W2 & G1' & G2' & X2).
    split; auto. split; [congruence|]. split; [congruence|].
    intros x y H. destruct (X2 _ _ H) as [K|K]; [|simpl; auto].
    destruct (X1 _ _ K) as [|[-> ->]]; simpl; auto.
Qed.

(** At most one cross edge per vertex. *)
Lemma single_at_most_one (d : dual adj_single A1 A2) : dual_ok d -> forall i j i' j',
  cross_1 d i j -> cross_1 d i' j' -> i = i' \/ j = j' -> i = i' /\ j = j'.
Proof.
  intros W i j i' j' H H' [E|E].
  - subst i'. split; auto. destruct H as ([|k] & E1 & H), H' as (b & E2 & H'); [destruct H|].
    rewrite E1 in E2. injection E2 as <-. simpl in *. intuition congruence.
  - subst j'. split; auto. apply (du_sym W) in H, H'.
    destruct H as ([|k] & E1 & H), H' as (b & E2 & H'); [destruct H|].
    rewrite E1 in E2. injection E2 as <-. simpl in *. intuition congruence.
Qed.

End AddEdge.

(** ** Payloads *)

Section Payloads.
Context {J T A1 A2 : Type} {AT : AdjTrait J}.
Context {C1 : AdjContainer T A1} {C2 : AdjContainer T A2}.
Context {L1 : AdjLaws C1} {L2 : AdjLaws C2}.
Implicit Types d : dual J A1 A2.

Lemma at_done {A} {C : AdjContainer T A} {L : AdjLaws C} (g : graph A) i :
  simple_graph g -> i < vertex_count g ->
  exists t, at_ g i = Done t /\ nth_error (payloads g) i = Some t.
Proof.
  intros W Hi. destruct (container_lt W Hi) as (c & Hc & _). unfold at_, container.
  rewrite (vget_done _ _ Hc). cbn [bind]. exists (ac_contained c). split; auto. apply payload_nth; auto.
Qed.

Lemma mapM_at {A} {C : AdjContainer T A} {L : AdjLaws C} (g : graph A) l :
  simple_graph g -> Forall (fun i => i < vertex_count g) l ->
  exists ts, mapM (at_ g) l = Done ts /\ Forall2 (fun i t => nth_error (payloads g) i = Some t) l ts.
Proof.
  intros W F. induction F as [|i l Hi F (ts & E & IH)]; [exists []; simpl; auto|].
  destruct (at_done W Hi) as (t & Et & Ht). exists (t :: ts). simpl. rewrite Et. simpl. rewrite E. auto.
Qed.

Lemma dual_at d v : dual_ok d -> dual_vertex d v ->
  exists t, (match v with Graph1 i => at_ (graph_1 d) i | Graph2 i => at_ (graph_2 d) i end) = Done t
            /\ dual_payload d v t.
Proof. intros W. destruct v as [i|i]; simpl; apply at_done; apply W. Qed.

Lemma ddfs_contained_sim d s x : dual_ok d -> ddrep d s x ->
  match adfs_next dual_index_dec (dsucc d) x with
  | None => ddfs_contained_next d s = Done None
  | Some (y, x') => exists i s', ddfs_contained_next d s = Done (Some (i, s')) /\ ddrep d s' x' /\
                                 dual_payload d y i
  end.
Proof.
  intros W (H & E & I). destruct x as [seen stack]. simpl in *.
  unfold ddfs_contained_next. rewrite E. destruct stack as [|v rest]; auto.
  assert (Hv : dual_vertex d v) by (apply In_duniv, I; simpl; auto).
  destruct (dfs_loops_spec W H Hv) as (h' & -> & H'). cbn [bind].
  destruct (dual_at W Hv) as (t & -> & Ht). cbn [bind].
  eexists _, _. split; [reflexivity|]. split; auto.
  split; [|split]; simpl; auto. eapply sinv_step; eauto.
  - intros a b Hb. apply (dsucc_closed W Hb).
  - rewrite Permutation_app_comm. apply Permutation_app_head. symmetry. apply Permutation_rev.
Qed.

Lemma dual_dfs_contained_spec d v : dual_ok d ->
  exists is ts, dual_dfs_index d v = Done is /\ dual_dfs_contained d v = Done ts /\
    Forall2 (dual_payload d) is ts.
Proof.
  intros W. unfold dual_dfs_index, dual_dfs_contained.
  assert (R : exists x, ddrep d (ddfs_new d v) x).
  { destruct (ddrep_new v W) as [[_ R]|[_ R]]; eauto. }
  destruct R as [x R]. destruct (ddfs_drain W R) as (is & E & Tr & Hr).
  pose proof R as (_ & _ & I).
  destruct (srun_bounds (dsucc_closed W) I Hr) as (_ & _ & _ & Lo). rewrite (duniv_length W) in Lo.
  destruct (drain_sim (fun s x => @ddfs_contained_sim d s x W) Tr (fuel := S (total_vertices d)) R)
    as (ts & Et & F); [lia|]. eauto.
Qed.

Lemma Forall2_map_l {X Y Z} (f : X -> Y) (P : Y -> Z -> Prop) l r :
  Forall2 (fun x z => P (f x) z) l r -> Forall2 P (map f l) r.
Proof. induction 1; simpl; auto. Qed.

Lemma neighbors_1_spec d i : dual_ok d -> i < vertex_count (graph_1 d) ->
  exists ts, contained_iter_neighbors_1 d i = Done ts /\
             Forall2 (dual_payload d) (dsucc d (Graph1 i)) ts.
Proof.
  intros W Hi. unfold contained_iter_neighbors_1, container, dsucc, slice_1.
  destruct (container_lt (du_g1 W) Hi) as (c & Hc & _ & _ & Hn).
  rewrite (vget_done _ _ Hc). cbn [bind].
  destruct (@in_range_nth _ (adj_1 d) i) as [a Ea]; [rewrite (du_len1 W); auto|].
  rewrite (vget_done _ _ Ea), Ea. cbn [bind]. rewrite Hn.
  destruct (mapM_at (du_g1 W) (nbrs_range i (du_g1 W))) as (t1 & -> & F1). cbn [bind].
  destruct (@mapM_at _ _ _ (graph_2 d) (at_slice a) (du_g2 W)) as (t2 & -> & F2).
  { apply Forall_forall. intros j Hj. apply (@cross_range _ _ _ _ _ _ _ _ _ _ d i j W).
    exists a; auto. }
  cbn [bind]. eexists. split; [reflexivity|]. apply Forall2_app; apply Forall2_map_l; auto.
Qed.

Lemma neighbors_2_spec d i : dual_ok d -> i < vertex_count (graph_2 d) ->
  exists ts, contained_iter_neighbors_2 d i = Done ts /\
             Forall2 (dual_payload d) (dsucc d (Graph2 i)) ts.
Proof.
  intros W Hi. unfold contained_iter_neighbors_2, container, dsucc, slice_2.
  destruct (container_lt (du_g2 W) Hi) as (c & Hc & _ & _ & Hn).
  rewrite (vget_done _ _ Hc). cbn [bind].
  destruct (@in_range_nth _ (adj_2 d) i) as [a Ea]; [rewrite (du_len2 W); auto|].
  rewrite (vget_done _ _ Ea), Ea. cbn [bind]. rewrite Hn.
  destruct (mapM_at (du_g2 W) (nbrs_range i (du_g2 W))) as (t1 & -> & F1). cbn [bind].
  destruct (@mapM_at _ _ _ (graph_1 d) (at_slice a) (du_g1 W)) as (t2 & -> & F2).
  { apply Forall_forall. intros j Hj. apply (@cross_range _ _ _ _ _ _ _ _ _ _ d j i W).
    apply (du_sym W). exists a; auto. }
  cbn [bind]. eexists. split; [reflexivity|]. apply Forall2_app; apply Forall2_map_l; auto.
Qed.

End Payloads.

(** ** The iterators of [SingleDualGraph] *)

Section SingleIter.
Context {T A1 A2 : Type} {C1 : AdjContainer T A1} {C2 : AdjContainer T A2}.
Context {L1 : AdjLaws C1} {L2 : AdjLaws C2}.
Implicit Types d : dual adj_single A1 A2.

Lemma raw_container_lt {A} {C : AdjContainer T A} {L : AdjLaws C} p (g : graph A) i :
  simple_graph g -> i < vertex_count g -> raw_container p g i = vget (vertices g) i.
Proof.
  intros W Hi. destruct (container_lt W Hi) as (c & Hc & _). unfold raw_container, vget.
  rewrite Hc. auto.
Qed.

Lemma raw_at_lt {A} {C : AdjContainer T A} {L : AdjLaws C} p (g : graph A) i :
  simple_graph g -> i < vertex_count g -> raw_at p g i = at_ g i.
Proof. intros W Hi. unfold raw_at, at_, container. rewrite raw_container_lt; auto. Qed.

Lemma mapM_ext {X Y} (f g : X -> outcome Y) l : (forall x, In x l -> f x = g x) -> mapM f l = mapM g l.
Proof.
  induction l as [|a l IH]; intros H; simpl; auto. rewrite H by (simpl; auto).
  destruct (g a); simpl; auto. rewrite IH; auto. intros; apply H; simpl; auto.
Qed.

Lemma mapM_raw_at {A} {C : AdjContainer T A} {L : AdjLaws C} p (g : graph A) l :
  simple_graph g -> Forall (fun i => i < vertex_count g) l -> mapM (raw_at p g) l = mapM (at_ g) l.
Proof.
  intros W F. apply mapM_ext. intros i Hi. rewrite Forall_forall in F. apply raw_at_lt; auto.
Qed.

Lemma first_of_mapM {X} (f : nat -> outcome X) a : first_of f a = mapM f (at_slice a).
Proof. destruct a as [|j]; simpl; auto. Qed.

(** All these iterators are the neighbour iterators of before. *)
Lemma graph_1_iters p d i : dual_ok d -> i < vertex_count (graph_1 d) ->
  graph_1_contained_iter p d i = contained_iter_neighbors_1 d i /\
  graph_1_contained_iter_mut p d i = contained_iter_neighbors_1 d i.
Proof.
  intros W Hi. unfold graph_1_contained_iter, graph_1_contained_iter_mut, contained_iter_neighbors_1, container.
  rewrite !(raw_container_lt p (du_g1 W) Hi).
  destruct (container_lt (du_g1 W) Hi) as (c & Hc & _ & _ & Hn).
  rewrite (vget_done _ _ Hc). cbn [bind].
  destruct (@in_range_nth _ (adj_1 d) i) as [a Ea]; [rewrite (du_len1 W); auto|].
  rewrite (vget_done _ _ Ea). cbn [bind]. rewrite first_of_mapM, Hn.
  rewrite (mapM_raw_at p (du_g1 W) (nbrs_range i (du_g1 W))).
  destruct (mapM_at (du_g1 W) (nbrs_range i (du_g1 W))) as (t1 & -> & F1). cbn [bind]. auto.
Qed.

Lemma graph_2_iters p d i : dual_ok d -> i < vertex_count (graph_2 d) ->
  graph_2_contained_iter p d i = contained_iter_neighbors_2 d i.
Proof.
  intros W Hi. unfold graph_2_contained_iter, contained_iter_neighbors_2, container.
  rewrite !(raw_container_lt p (du_g2 W) Hi).
  destruct (container_lt (du_g2 W) Hi) as (c & Hc & _ & _ & Hn).
  rewrite (vget_done _ _ Hc). cbn [bind].
  destruct (@in_range_nth _ (adj_2 d) i) as [a Ea]; [rewrite (du_len2 W); auto|].
  rewrite (vget_done _ _ Ea). cbn [bind]. rewrite first_of_mapM, Hn.
  destruct (mapM_at (du_g2 W) (nbrs_range i (du_g2 W))) as (t1 & -> & F1). cbn [bind]. auto.
Qed.

Lemma Forall2_combine {X Y} (P : X -> Y -> Prop) l r : Forall2 P l r ->
  Forall2 (fun x z => fst z = x /\ P x (snd z)) l (combine l r).
Proof. induction 1; simpl; auto. Qed.

Lemma Forall2_map_r {X Y Z} (f : Y -> Z) (P : X -> Z -> Prop) l r :
  Forall2 (fun x y => P x (f y)) l r -> Forall2 P l (map f r).
Proof. induction 1; simpl; auto. Qed.

Lemma Forall2_weaken {X Y} (P Q : X -> Y -> Prop) l r :
  (forall x y, P x y -> Q x y) -> Forall2 P l r -> Forall2 Q l r.
Proof. induction 2; auto. Qed.

Lemma map_snd_combine {X Y} (l : list X) : forall (r : list Y), length r <= length l ->
  map snd (combine l r) = r.
Proof.
  induction l as [|a l IH]; intros [|b r] H; simpl in *; auto; try lia. f_equal. apply IH. lia.
Qed.

Lemma Forall2_length_eq {X Y} (P : X -> Y -> Prop) l r : Forall2 P l r -> length l = length r.
Proof. induction 1; simpl; auto. Qed.

Lemma graph_1_mut_spec p d i : dual_ok d -> i < vertex_count (graph_1 d) ->
  exists rs, graph_1_mut_with_index p d i = Done rs /\
    graph_1_mut_which p d i = Done (map untag rs) /\
    Forall2 (tagged d) (dsucc d (Graph1 i)) rs.
Proof.
  intros W Hi. unfold graph_1_mut_with_index, graph_1_mut_which, dsucc, slice_1.
  destruct (container_lt (du_g1 W) Hi) as (c & Hc & _ & _ & Hn).
  rewrite (vget_done _ _ Hc). cbn [bind].
  destruct (@in_range_nth _ (adj_1 d) i) as [a Ea]; [rewrite (du_len1 W); auto|].
  rewrite (vget_done _ _ Ea), Ea. cbn [bind]. rewrite Hn.
  rewrite (mapM_raw_at p (du_g1 W) (nbrs_range i (du_g1 W))).
  destruct (mapM_at (du_g1 W) (nbrs_range i (du_g1 W))) as (t1 & -> & F1).
  assert (K1 : Forall2 (tagged d) (map Graph1 (nbrs (graph_1 d) i)) (map Graph1 (combine (nbrs (graph_1 d) i) t1))).
  { apply Forall2_map_l, Forall2_map_r. apply Forall2_combine in F1. revert F1.
    apply Forall2_weaken. intros x [y t] [E H]. simpl in *. auto. }
  assert (K2 : map untag (map Graph1 (combine (nbrs (graph_1 d) i) t1)) = map Graph1 t1).
  { rewrite map_map. rewrite <- (map_snd_combine (l := nbrs (graph_1 d) i) (r := t1)) at 2.
    - rewrite map_map. apply map_ext. intros [? ?]; auto.
    - rewrite (Forall2_length_eq F1). auto. }
  destruct a as [|j]; unfold first_of; cbn [at_slice adj_single_trait bind].
  - eexists. split; [reflexivity|]. split; [rewrite !app_nil_r, K2; auto|]. simpl. rewrite !app_nil_r. auto.
  - assert (Hj : j < vertex_count (graph_2 d)).
    { apply (@cross_range _ _ _ _ _ _ _ _ _ _ d i j W). exists (Something j). simpl; auto. }
    destruct (at_done (du_g2 W) Hj) as (t & -> & Ht). cbn [bind].
    eexists. split; [reflexivity|]. split; [rewrite map_app, K2; auto|].
    apply Forall2_app; auto. constructor; [split; auto|constructor].
Qed.

Lemma graph_2_mut_spec p d i : dual_ok d -> i < vertex_count (graph_2 d) ->
  exists rs, graph_2_mut_with_index p d i = Done rs /\
    graph_2_mut_which p d i = Done (map untag rs) /\
    Forall2 (tagged d) (dsucc d (Graph2 i)) rs.
Proof.
  intros W Hi. unfold graph_2_mut_with_index, graph_2_mut_which, dsucc, slice_2.
  destruct (container_lt (du_g2 W) Hi) as (c & Hc & _ & _ & Hn).
  rewrite (vget_done _ _ Hc). cbn [bind].
  destruct (@in_range_nth _ (adj_2 d) i) as [a Ea]; [rewrite (du_len2 W); auto|].
  rewrite (vget_done _ _ Ea), Ea. cbn [bind]. rewrite Hn.
  rewrite (mapM_raw_at p (du_g2 W) (nbrs_range i (du_g2 W))).
  destruct (mapM_at (du_g2 W) (nbrs_range i (du_g2 W))) as (t1 & -> & F1).
  assert (K1 : Forall2 (tagged d) (map Graph2 (nbrs (graph_2 d) i)) (map Graph2 (combine (nbrs (graph_2 d) i) t1))).
  { apply Forall2_map_l, Forall2_map_r. apply Forall2_combine in F1. revert F1.
    apply Forall2_weaken. intros x [y t] [E H]. simpl in *. auto. }
  assert (K2 : map untag (map Graph2 (combine (nbrs (graph_2 d) i) t1)) = map Graph2 t1).
  { rewrite map_map. rewrite <- (map_snd_combine (l := nbrs (graph_2 d) i) (r := t1)) at 2.
    - rewrite map_map. apply map_ext. intros [? ?]; auto.
    - rewrite (Forall2_length_eq F1). auto. }
  destruct a as [|j]; unfold first_of; cbn [at_slice adj_single_trait bind].
  - eexists. split; [reflexivity|]. split; [rewrite !app_nil_r, K2; auto|]. simpl. rewrite !app_nil_r. auto.
  - assert (Hj : j < vertex_count (graph_1 d)).
    { apply (@cross_range _ _ _ _ _ _ _ _ _ _ d j i W). apply (du_sym W).
      exists (Something j). simpl; auto. }
    destruct (at_done (du_g1 W) Hj) as (t & -> & Ht). cbn [bind].
    eexists. split; [reflexivity|]. split; [rewrite map_app, K2; auto|].
    apply Forall2_app; auto. constructor; [split; auto|constructor].
Qed.

End SingleIter.
