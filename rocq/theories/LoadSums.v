(** Consequences of the flow equations. *)
From Verif Require Import Base BaseFacts Containers ContainerSpec Graph GraphSpec GraphFacts.
From Verif Require Import GraphOps Search TraversalFacts Load LoadSpec LoadFacts.
From Coq Require Import QArith Qfield.
Set Implicit Arguments.
Unset Strict Implicit.
Local Open Scope nat_scope.

Section Sums.
Context {T A : Type} {C : AdjContainer T A} {L : AdjLaws C}.
Implicit Types g : graph A.

Definition dd (D : nat -> nat -> option nat) s v : nat := match D s v with Some d => d | None => 0 end.

Lemma D_range g D s v : simple_graph g -> distances g D -> s < vertex_count g ->
  D s v <> None -> v < vertex_count g.
Proof.
  intros W HD Hs Hv. destruct (D s v) as [d|] eqn:E; [|congruence].
  apply HD in E as [Wk _]; auto. inversion Wk as [|u w k _ Ha]; subst; auto.
  apply (sg_range W _ _ Ha).
Qed.

Lemma D_self g D s : distances g D -> s < vertex_count g -> D s s = Some 0.
Proof. intros HD Hs. apply HD; auto. apply is_dist_self. Qed.

Lemma nearer_S D s v w : nearer D s v w = true ->
  D s v <> None /\ D s w <> None /\ dd D s w = S (dd D s v).
Proof.
  unfold nearer, dd. destruct (D s v); [|discriminate]. destruct (D s w); [|discriminate].
  intros E. apply Nat.eqb_eq in E. splits; try congruence.
Qed.

Lemma flow_unique g D F F' : simple_graph g -> distances g D -> flow g D F -> flow g D F' ->
  forall s v, s < vertex_count g -> D s v <> None -> (F s v == F' s v)%Q.
Proof.
  intros W HD H1 H2 s v Hs.
  set (M := list_max (map (dd D s) (seq 0 (vertex_count g)))).
  assert (HM : forall w, D s w <> None -> dd D s w <= M).
  { intros w Hw. pose proof (proj1 (list_max_le (map (dd D s) (seq 0 (vertex_count g))) M) (le_n _)) as F0.
    apply (proj1 (Forall_forall _ _) F0). apply in_map. apply in_seq.
    pose proof (D_range W HD Hs Hw). lia. }
  remember (M - dd D s v) as k eqn:Ek. revert v Ek.
  induction k as [k IH] using lt_wf_ind. intros v Ek Hv.
  rewrite (H1 s v Hs Hv), (H2 s v Hs Hv). apply Qplus_comp; [reflexivity|].
  apply qsum_ext. intros w Hw. apply filter_In in Hw as [_ Hn].
  apply nearer_S in Hn as (_ & Hw & E). pose proof (HM w Hw).
  rewrite (IH (M - dd D s w)) with (v := w); auto; [reflexivity|lia].
Qed.

Lemma D_pred g D s w : simple_graph g -> distances g D -> s < vertex_count g ->
  D s w <> None -> s <> w -> inward g D s w <> [].
Proof.
  intros W HD Hs Hw N. destruct (D s w) as [d|] eqn:E; [|congruence].
  pose proof E as E'. apply HD in E' as [Wk Hm]; auto.
  inversion Wk as [|u ? k Wu Ha]; subst; [congruence|].
  assert (K : D s u = Some k).
  { apply HD; auto. split; auto. intros k' Wk'.
    pose proof (Hm (S k') ltac:(econstructor; eauto)). lia. }
  intros En. assert (In u (inward g D s w)) as Hin; [|rewrite En in Hin; destruct Hin].
  apply filter_In. split; [apply (sg_sym W _ _ Ha)|]. unfold nearer. rewrite K, E. apply Nat.eqb_refl.
Qed.

Lemma seq_filter_perm g (f : nat -> bool) v : simple_graph g ->
  Permutation (filter f (nbrs g v)) (filter (fun w => adjb g v w && f w) (seq 0 (vertex_count g))).
Proof.
  intros W. apply NoDup_Permutation.
  - apply NoDup_filter, (sg_nodup W v).
  - apply NoDup_filter, seq_NoDup.
  - intros w. rewrite !filter_In, andb_true_iff, adjb_adj, in_seq. split; [|tauto].
    intros [H1 H2]. splits; auto; [lia|]. apply (sg_range W _ _ H1).
Qed.

Lemma adjb_sym g v w : simple_graph g -> adjb g v w = adjb g w v.
Proof.
  intros W. destruct (adjb g w v) eqn:E.
  - apply adjb_adj in E. apply adjb_adj. apply (sg_sym W _ _ E).
  - apply adjb_not_adj in E. apply adjb_not_adj. intros K. apply E. apply (sg_sym W _ _ K).
Qed.

(** The load sums to the distances. *)
Lemma flow_sum g D F s : simple_graph g -> distances g D -> flow g D F -> s < vertex_count g ->
  (qsum (through D F s) (seq 0 (vertex_count g)) ==
   qnat (list_sum (map (dd D s) (seq 0 (vertex_count g)))))%Q.
Proof.
  intros W HD HF Hs. set (N := seq 0 (vertex_count g)).
  rewrite qnat_list_sum, qsum_map.
  set (r := fun v => match D s v with Some _ => true | None => false end).
  set (h := fun w => (F s w / qnat (length (inward g D s w)))%Q).
  set (e := fun v w => adjb g v w && nearer D s v w).
  assert (S1 : (qsum (fun v => if r v then qnat (dd D s v) * F s v else 0) N ==
     qsum (fun v => qnat (dd D s v)) N +
     qsum (fun v => qsum (fun w => if e v w then qnat (dd D s v) * h w else 0) N) N)%Q).
  { rewrite <- qsum_plus. apply qsum_ext. intros v Hv. unfold r.
    destruct (D s v) as [d|] eqn:Ed.
    - rewrite (HF s v Hs ltac:(congruence)).
      rewrite (qsum_perm _ (seq_filter_perm (fun w => nearer D s v w) v W)), qsum_filter.
      rewrite Qmult_plus_distr_r, <- qsum_mul. apply Qplus_comp; [ring|].
      apply qsum_ext. intros w _. unfold e. destruct (adjb g v w && nearer D s v w); unfold h; ring.
    - unfold dd at 1. rewrite Ed.
      rewrite (qsum_ext (h := fun _ => 0%Q)); [rewrite qsum_zero; reflexivity|].
      intros w _. unfold e, nearer. rewrite Ed, andb_false_r. reflexivity. }
  assert (S2 : (qsum (fun v => qsum (fun w => if e v w then qnat (dd D s v) * h w else 0) N) N ==
     qsum (fun w => if r w then qnat (dd D s w) * F s w else 0) N - qsum (through D F s) N)%Q).
  { rewrite qsum_exchange, <- qsum_minus. apply qsum_ext. intros w Hw.
    assert (Hc : (qsum (fun v => if e v w then qnat (dd D s v) * h w else 0) N ==
       h w * ((qnat (dd D s w) - 1) * qnat (length (inward g D s w))))%Q).
    { unfold inward. rewrite (Permutation_length (seq_filter_perm (fun u => nearer D s u w) w W)).
      rewrite <- qsum_one, qsum_filter, <- !qsum_mul. apply qsum_ext. intros v _.
      rewrite (adjb_sym w v W). fold (e v w). destruct (e v w) eqn:Ee; [|ring].
      apply andb_true_iff in Ee as [_ Ee]. apply nearer_S in Ee as (_ & _ & ->).
      rewrite qnat_S. ring. }
    rewrite Hc. unfold through, r. destruct (Nat.eqb_spec s w) as [<-|Nw].
    - unfold dd. rewrite (D_self HD Hs). unfold h.
      assert (E : inward g D s s = []).
      { destruct (inward g D s s) as [|x l] eqn:E; auto.
        assert (K : In x (inward g D s s)) by (rewrite E; simpl; auto).
        apply filter_In in K as [_ K]. apply nearer_S in K as (_ & _ & K).
        unfold dd in K. rewrite (D_self HD Hs) in K. discriminate. }
      rewrite E. simpl. change (qnat 0) with 0%Q. ring.
    - destruct (D s w) as [d|] eqn:Ed.
      + assert (K : ~ (qnat (length (inward g D s w)) == 0)%Q).
        { apply qnat_nonzero. pose proof (@D_pred g D s w W HD Hs ltac:(congruence) Nw) as K.
          destruct (inward g D s w); [congruence|discriminate]. }
        unfold h. field. auto.
      + assert (E : inward g D s w = []).
        { destruct (inward g D s w) as [|x l] eqn:E; auto.
          assert (K : In x (inward g D s w)) by (rewrite E; simpl; auto).
          apply filter_In in K as [_ K]. apply nearer_S in K as (_ & K & _). congruence. }
        rewrite E. simpl. change (qnat 0) with 0%Q. ring. }
  rewrite S2 in S1.
  set (a := qsum (fun v => if r v then (qnat (dd D s v) * F s v)%Q else 0%Q) N) in *.
  set (b := qsum (through D F s) N) in *. set (c := qsum (fun v => qnat (dd D s v)) N) in *.
  assert (b == (c + (a - b)) - a + b)%Q by (rewrite <- S1; ring).
  rewrite H. ring.
Qed.

Lemma part_through D F s v : (part 0 (D s) (F s) s v == through D F s v)%Q.
Proof. unfold part, through. destruct (s =? v); [reflexivity|]. destruct (D s v); ring. Qed.

Lemma part_other D F s v :
  (part 1 (D s) (F s) s v == through D F s v - (if other D s v then 1 else 0))%Q.
Proof.
  unfold part, through, other. destruct (s =? v); simpl; [reflexivity|].
  destruct (D s v); ring.
Qed.

Lemma load_value g b : simple_graph g -> exists D F l, distances g D /\ flow g D F /\
  vertex_load g b = Done l /\ length l = vertex_count g /\
  forall v, (nth v l 0 == qsum (fun s => through D F s v) (seq 0 (vertex_count g)) -
    (if b then 0 else qnat (count (fun s => other D s v) (seq 0 (vertex_count g)))))%Q.
Proof.
  intros W. destruct (vertex_load_parts b W) as (D & F & l & HD & HF & E & Ll & H).
  exists D, F, l. splits; auto. intros v. rewrite (H v). destruct b.
  - rewrite (qsum_ext (fun s _ => part_through D F s v)). ring.
  - rewrite (qsum_ext (fun s _ => part_other D F s v)), qsum_minus.
    unfold count. rewrite <- qsum_one, qsum_filter. reflexivity.
Qed.

Lemma qsum_nth l : (qsum (fun x => x) l == qsum (fun v => nth v l 0) (seq 0 (length l)))%Q.
Proof.
  induction l as [|x l IH]; [reflexivity|]. cbn [length seq]. rewrite !qsum_cons, <- seq_shift, qsum_map.
  rewrite IH. reflexivity.
Qed.

Lemma distances_fun g D D' s v : distances g D -> distances g D' -> s < vertex_count g -> D s v = D' s v.
Proof.
  intros H H' Hs. destruct (D s v) as [d|] eqn:E.
  - symmetry. apply H'; auto. apply H; auto.
  - destruct (D' s v) as [d|] eqn:E'; auto. apply H' in E'; auto. apply H in E'; auto. congruence.
Qed.

Lemma load_total g : simple_graph g -> exists l, vertex_load g true = Done l /\
  forall D, distances g D -> (qsum (fun x => x) l == qnat (distance_sum D (vertex_count g)))%Q.
Proof.
  intros W. destruct (load_value true W) as (D & F & l & HD & HF & E & Ll & H).
  exists l. split; auto. intros D' HD'. rewrite qsum_nth, Ll.
  rewrite (qsum_ext (fun v _ => H v)). rewrite qsum_minus, qsum_zero.
  rewrite qsum_exchange. unfold distance_sum. rewrite qnat_list_sum, qsum_map.
  rewrite (qsum_ext (h := fun s => qnat (list_sum (map (dd D s) (seq 0 (vertex_count g)))))).
  2:{ intros s Hs. apply in_seq in Hs. apply flow_sum; auto. lia. }
  unfold Qminus. rewrite Qplus_0_r. apply qsum_ext. intros s Hs. apply in_seq in Hs.
  assert (map (dd D s) (seq 0 (vertex_count g)) =
    map (fun v => match D' s v with Some d => d | None => 0 end) (seq 0 (vertex_count g))) as ->.
  { apply map_ext. intros v. unfold dd. rewrite (@distances_fun g D D' s v); auto. lia. }
  reflexivity.
Qed.

Lemma load_complete g : simple_graph g ->
  (forall i j, i < vertex_count g -> j < vertex_count g -> i <> j -> adj g i j) ->
  forall b, exists l, vertex_load g b = Done l /\ length l = vertex_count g /\
  forall v, v < vertex_count g ->
    (nth v l 0 == if b then qnat (vertex_count g - 1) else 0)%Q.
Proof.
  intros W Hc b. destruct (load_value b W) as (D & F & l & HD & HF & E & Ll & H).
  exists l. splits; auto. intros v Hv. rewrite (H v).
  assert (D1 : forall s w, s < vertex_count g -> w < vertex_count g -> s <> w -> D s w = Some 1).
  { intros s w Hs Hw N. apply HD; auto. split; [apply walk_one; auto|].
    intros [|k] Wk; [|lia]. apply walk_zero in Wk. congruence. }
  assert (Ho : count (fun s => other D s v) (seq 0 (vertex_count g)) = vertex_count g - 1).
  { unfold count. assert (K : Permutation (seq 0 (vertex_count g))
        (v :: filter (fun s => other D s v) (seq 0 (vertex_count g)))).
    { apply NoDup_Permutation; [apply seq_NoDup| |].
      - constructor; [|apply NoDup_filter, seq_NoDup]. rewrite filter_In. unfold other.
        rewrite Nat.eqb_refl. simpl. intuition discriminate.
      - intros x. simpl. rewrite filter_In, in_seq. unfold other.
        destruct (Nat.eqb_spec x v) as [->|N]; simpl; [intuition lia|].
        split.
        + intros Hx. right. split; auto. rewrite D1; auto; lia.
        + intros [Hx|[Hx _]]; [congruence|auto]. }
    apply Permutation_length in K. simpl in K. rewrite seq_length in K. lia. }
  rewrite Ho.
  assert (Ht : forall s, In s (seq 0 (vertex_count g)) ->
     (through D F s v == if other D s v then 1 else 0)%Q).
  { intros s Hs. apply in_seq in Hs. unfold through, other.
    destruct (Nat.eqb_spec s v) as [|N]; [reflexivity|]. simpl.
    rewrite D1 by (auto; lia). rewrite (HF s v) by (try rewrite D1; auto; try lia; discriminate).
    assert (Eo : outward g D s v = []).
    { destruct (outward g D s v) as [|x r] eqn:Eo; auto.
      assert (K : In x (outward g D s v)) by (rewrite Eo; simpl; auto).
      apply filter_In in K as [Kx K]. apply nearer_S in K as (_ & _ & K).
      unfold dd in K. rewrite (D1 s v) in K by (auto; lia).
      pose proof (sg_range W _ _ Kx). destruct (Nat.eq_dec s x) as [->|Nx].
      - rewrite (D_self HD) in K by auto. discriminate.
      - rewrite D1 in K by (auto; lia). discriminate. }
    rewrite Eo. simpl. ring. }
  rewrite (qsum_ext Ht), <- qsum_filter, qsum_one. unfold count in Ho. rewrite Ho.
  destruct b; ring.
Qed.

End Sums.
