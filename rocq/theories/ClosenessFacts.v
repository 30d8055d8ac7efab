(** Facts about [closeness_centrality]. *)
From Verif Require Import Base BaseFacts Containers ContainerSpec Graph GraphSpec GraphFacts.
From Verif Require Import GraphOps Search Traversal TraversalSpec TraversalFacts.
Set Implicit Arguments.
Unset Strict Implicit.

Section Closeness.
Context {T A : Type} {C : AdjContainer T A} {L : AdjLaws C}.
Implicit Types g : graph A.

Definition add_depth (c : list nat) (item : nat * T * nat) : outcome (list nat) :=
  let '(index, _, depth) := item in
  do old <- vget c index; vset c index (old + depth).

Fixpoint depth_of (is : list (nat * T * nat)) (v : nat) : nat :=
  match is with
  | [] => 0
  | (w, _, d) :: r => if w =? v then d else depth_of r v
  end.

Lemma depth_of_in is v t d : NoDup (map (fun x => fst (fst x)) is) ->
  In (v, t, d) is -> depth_of is v = d.
Proof.
  induction is as [|[[w t'] d'] is IH]; simpl; intros N H; [tauto|].
  apply NoDup_cons_iff in N as [Nw N]. destruct H as [[= -> -> ->]|H].
  - rewrite Nat.eqb_refl; auto.
  - destruct (Nat.eqb_spec w v) as [->|]; [|auto]. exfalso. apply Nw.
    apply in_map_iff. exists (v, t, d). auto.
Qed.

Lemma depth_of_out is v : ~ In v (map (fun x : nat * T * nat => fst (fst x)) is) -> depth_of is v = 0.
Proof.
  induction is as [|[[w t'] d'] is IH]; simpl; intros H; auto.
  destruct (Nat.eqb_spec w v); auto. tauto.
Qed.

Lemma add_depths is : forall c, NoDup (map (fun x => fst (fst x)) is) ->
  (forall v, In v (map (fun x => fst (fst x)) is) -> v < length c) ->
  exists c', foldM add_depth c is = Done c' /\ length c' = length c /\
    forall v k, nth_error c v = Some k -> nth_error c' v = Some (k + depth_of is v).
Proof.
  induction is as [|[[w t] d] is IH]; intros c N R; simpl in *.
  - exists c. splits; auto. intros. rewrite Nat.add_0_r; auto.
  - apply NoDup_cons_iff in N as [Nw N].
    destruct (vget_lt _ (R w (or_introl eq_refl))) as [old Eo].
    rewrite (vget_done _ _ Eo). cbn [bind]. rewrite vset_done by (apply R; auto). cbn [bind].
    destruct (IH (upd c w (old + d)) N) as (c' & -> & Lc & Hc).
    { intros v Hv. rewrite upd_length. auto. }
    exists c'. rewrite upd_length in Lc. splits; auto. intros v k Hk.
    destruct (Nat.eqb_spec w v) as [<-|Nv].
    + rewrite Eo in Hk. injection Hk as ->.
      rewrite (Hc w (k + d)) by (apply nth_error_upd_same; apply R; auto).
      rewrite (depth_of_out Nw). f_equal; lia.
    + apply Hc. rewrite nth_error_upd_other; auto.
Qed.

Lemma closeness_pass_spec g c b i : simple_graph g -> i < vertex_count g ->
  length c = vertex_count g -> length (bfs_handled b) = vertex_count g ->
  exists d c' b', closeness_pass g (c, b) i = Done (c', b') /\ dists g i d /\
    length c' = vertex_count g /\ length (bfs_handled b') = vertex_count g /\
    forall v k, nth_error c v = Some k -> nth_error c' v = Some (k + d v).
Proof.
  intros W Hi Lc Hl. unfold closeness_pass. rewrite (bfs_reuse_new i W Hl). cbn [bind].
  destruct (bfs_like_spec i W (@bfs_like_next _ _ _ g)) as (is & E & N & R & D & O).
  destruct (drain_by_ref_spec E) as (e & -> & Ha). cbn [bind]. fold add_depth.
  destruct (add_depths (c := c) N) as (c' & -> & Lc' & Hc).
  { intros v Hv. rewrite Lc. apply R in Hv as [_ [k Wk]].
    inversion Wk as [|a b' c0 _ Hab]; subst; auto. apply (sg_range W _ _ Hab). }
  cbn [bind]. exists (depth_of is), c', e. splits; auto; try congruence.
  - split.
    + intros v Hv Hj.
      assert (In v (map (fun x => fst (fst x)) is)) as Hin by (apply R; auto).
      apply in_map_iff in Hin as ([[w t] d] & Ew & Hin). simpl in Ew. subst w.
      rewrite (depth_of_in N Hin). apply (D _ _ _ Hin).
    + intros v _ Hv. apply depth_of_out. rewrite R. tauto.
  - destruct (brep_new g i) as [x Hx].
    destruct (brep_after W (@bfs_like_next _ _ _ g) Hx Ha) as [x' [[Lh _] _]]. auto.
Qed.

Lemma closeness_passes g : simple_graph g -> forall l c b,
  NoDup l -> (forall i, In i l -> i < vertex_count g) ->
  length c = vertex_count g -> length (bfs_handled b) = vertex_count g ->
  exists F c' b', foldM (closeness_pass g) (c, b) l = Done (c', b') /\
    (forall i, In i l -> dists g i (F i)) /\ length c' = vertex_count g /\
    forall v k, nth_error c v = Some k ->
      nth_error c' v = Some (k + list_sum (map (fun i => F i v) l)).
Proof.
  intros W. induction l as [|i l IH]; intros c b Nl Hr Lc Lb.
  - exists (fun _ _ => 0), c, b. splits; simpl; auto; try tauto.
    intros v k Hk. rewrite Nat.add_0_r; auto.
  - apply NoDup_cons_iff in Nl as [Ni Nl].
    destruct (closeness_pass_spec W (Hr i (or_introl eq_refl)) Lc Lb) as (d & c1 & b1 & E & Hd & L1 & Lb1 & H1).
    cbn [foldM]. rewrite E. cbn [bind].
    destruct (IH c1 b1) as (F & c' & b' & E' & HF & Lc' & Hc'); auto.
    { intros; apply Hr; simpl; auto. }
    exists (fun j => if j =? i then d else F j), c', b'. splits; auto.
    + intros j [<-|Hj]; [rewrite Nat.eqb_refl; auto|].
      destruct (Nat.eqb_spec j i); [congruence|auto].
    + intros v k Hk. rewrite (Hc' v _ (H1 v k Hk)). simpl. rewrite Nat.eqb_refl.
      f_equal. rewrite Nat.add_assoc. f_equal. f_equal. apply map_ext_in.
      intros j Hj. destruct (Nat.eqb_spec j i); congruence.
Qed.

Lemma closeness_spec p g : simple_graph g -> 0 < vertex_count g ->
  exists l, closeness_centrality p g = Done l /\ length l = vertex_count g /\
    forall v, v < vertex_count g -> exists d, dists g v d /\
      nth_error l v = Some (vertex_count g - 1, list_sum (map d (seq 0 (vertex_count g)))).
Proof.
  intros W H0. unfold closeness_centrality.
  destruct (brep_new g 0) as [x0 [[L0 _] _]].
  destruct (closeness_passes W (l := seq 0 (vertex_count g)) (c := repeat 0 (vertex_count g)) (b := bfs_new g 0))
    as (F & c' & b' & -> & HF & Lc & Hc); auto.
  - apply seq_NoDup.
  - intros i Hi. apply in_seq in Hi. lia.
  - apply repeat_length.
  - cbn [bind]. unfold usub. destruct (Nat.leb_spec 1 (vertex_count g)); [|lia]. cbn [bind].
    eexists. split; [reflexivity|]. split; [rewrite map_length; auto|].
    intros v Hv. exists (fun i => F i v). split.
    + split.
      * intros i Hi Hj. apply is_dist_sym; [apply adj_sym; auto|].
        apply HF; auto; [apply in_seq; lia|]. apply joined_sym; auto. apply adj_sym; auto.
      * intros i Hi Hj. apply HF; auto; [apply in_seq; lia|].
        intros K. apply Hj. apply joined_sym; auto. apply adj_sym; auto.
    + rewrite nth_error_map, (Hc v 0); auto. apply nth_error_repeat; auto.
Qed.

End Closeness.
