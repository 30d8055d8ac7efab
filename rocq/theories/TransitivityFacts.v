(** Facts about [transitivity]. *)
From Verif Require Import Base BaseFacts Sums Containers ContainerSpec Graph GraphSpec GraphFacts.
From Verif Require Import GraphOps Transitivity ComponentSpec.
Set Implicit Arguments.
Unset Strict Implicit.

Lemma foldM_count {X} (f : nat * nat -> X -> outcome (nat * nat)) (a b : X -> nat) l :
  (forall c p x, In x l -> f (c, p) x = Done (c + a x, p + b x)) ->
  forall c p, foldM f (c, p) l = Done (c + sum_over a l, p + sum_over b l).
Proof.
  induction l as [|x l IH]; intros H c p; cbn [foldM].
  - unfold sum_over; simpl. rewrite !Nat.add_0_r. auto.
  - rewrite H by (simpl; auto). cbn [bind]. rewrite IH by (intros; apply H; simpl; auto).
    rewrite !sum_over_cons, !Nat.add_assoc. auto.
Qed.

Lemma sum_over_list (f : nat -> nat) l n : NoDup l -> (forall x, In x l -> x < n) ->
  sum_over f l = sum_over (fun j => b2n (existsb (Nat.eqb j) l) * f j) (seq 0 n).
Proof.
  intros N R.
  assert (E : sum_over (fun j => b2n (existsb (Nat.eqb j) l) * f j) (seq 0 n)
            = sum_over f (filter (fun j => existsb (Nat.eqb j) l) (seq 0 n))).
  { generalize (seq 0 n) as m. induction m as [|x m IH]; auto. rewrite sum_over_cons, IH. simpl.
    destruct (existsb (Nat.eqb x) l); simpl; rewrite ?sum_over_cons; lia. }
  rewrite E. apply sum_over_perm. apply NoDup_Permutation; auto.
  - apply NoDup_filter, seq_NoDup.
  - intros x. rewrite filter_In, in_seq, existsb_exists. split.
    + intros H. split; [specialize (R x H); lia|]. exists x. split; auto. apply Nat.eqb_refl.
    + intros [_ (y & Hy & Ey)]. apply Nat.eqb_eq in Ey. subst; auto.
Qed.

Lemma sum_over_filter {X} (f : X -> nat) (h : X -> bool) l :
  sum_over f (filter h l) = sum_over (fun x => b2n (h x) * f x) l.
Proof.
  induction l as [|x l IH]; auto. rewrite sum_over_cons, <- IH. simpl.
  destruct (h x); simpl; rewrite ?sum_over_cons; lia.
Qed.

Section Transitivity.
Context {T A : Type} {C : AdjContainer T A} {L : AdjLaws C}.
Implicit Types g : graph A.

Lemma count_triples f n : count f (triples n) =
  sum_over (fun a => sum_over (fun b => sum_over (fun c => b2n (f (a, b, c))) (seq 0 n)) (seq 0 n)) (seq 0 n).
Proof.
  unfold count, triples. rewrite length_filter_sum, sum_over_flat_map.
  apply sum_over_ext. intros a _. rewrite sum_over_flat_map.
  apply sum_over_ext. intros b _. rewrite sum_over_map. auto.
Qed.

Lemma inner_spec g s n2 c p : simple_graph g -> n2 < vertex_count g ->
  transitivity_inner g s (c, p) n2 = Done (c + b2n (adjb g n2 s), p + 1).
Proof.
  intros W H. destruct (container_lt W H) as (k & Hk & _ & _ & Hn).
  unfold transitivity_inner, container. rewrite (vget_done _ _ Hk). cbn [bind].
  replace (ac_is_adjacent k s) with (adjb g n2 s).
  - destruct (adjb g n2 s); simpl; rewrite ?Nat.add_0_r; auto.
  - apply eq_true_iff_eq. rewrite adjb_adj, law_adjacent, Hn. unfold adj. tauto.
Qed.

Lemma middle_spec g s n1 c p : simple_graph g -> n1 < vertex_count g ->
  transitivity_middle g s (c, p) n1 =
  Done (c + sum_over (fun n2 => b2n (adjb g n1 n2 && negb (n2 =? s) && adjb g n2 s)) (seq 0 (vertex_count g)),
        p + sum_over (fun n2 => b2n (adjb g n1 n2 && negb (n2 =? s))) (seq 0 (vertex_count g))).
Proof.
  intros W H. destruct (container_lt W H) as (k & Hk & _ & _ & Hn).
  unfold transitivity_middle, container. rewrite (vget_done _ _ Hk). cbn [bind]. rewrite Hn.
  rewrite (@foldM_count _ _ (fun n2 => b2n (adjb g n2 s)) (fun _ => 1)).
  - rewrite !sum_over_filter.
    rewrite !(@sum_over_list _ (nbrs g n1) (vertex_count g)); try apply (sg_nodup W);
      try (intros x Hx; apply (sg_range W _ _ Hx)).
    f_equal. f_equal; f_equal; apply sum_over_ext; intros x _;
      change (existsb (Nat.eqb x) (nbrs g n1)) with (adjb g n1 x);
      destruct (adjb g n1 x), (x =? s), (adjb g x s); auto.
  - intros c' p' x Hx. apply filter_In in Hx as [Hx _].
    apply inner_spec; auto. apply (sg_range W _ _ Hx).
Qed.

Lemma transitivity_spec g : simple_graph g ->
  transitivity g = Done (count (closed_path g) (triples (vertex_count g)),
                         count (two_path g) (triples (vertex_count g))).
Proof.
  intros W. unfold transitivity. rewrite !count_triples.
  rewrite (@foldM_count _ _
    (fun s => sum_over (fun n1 => sum_over (fun n2 => b2n (closed_path g (s, n1, n2))) (seq 0 (vertex_count g))) (seq 0 (vertex_count g)))
    (fun s => sum_over (fun n1 => sum_over (fun n2 => b2n (two_path g (s, n1, n2))) (seq 0 (vertex_count g))) (seq 0 (vertex_count g))));
    auto.
  intros c p s Hs. apply in_seq in Hs.
  destruct (container_lt W (i := s)) as (k & Hk & _ & _ & Hn); [lia|].
  unfold container. rewrite (vget_done _ _ Hk). cbn [bind]. rewrite Hn.
  rewrite (@foldM_count _ _
    (fun n1 => sum_over (fun n2 => b2n (adjb g n1 n2 && negb (n2 =? s) && adjb g n2 s)) (seq 0 (vertex_count g)))
    (fun n1 => sum_over (fun n2 => b2n (adjb g n1 n2 && negb (n2 =? s))) (seq 0 (vertex_count g)))).
  - rewrite !(@sum_over_list _ (nbrs g s) (vertex_count g)); try apply (sg_nodup W);
      try (intros x Hx; apply (sg_range W _ _ Hx)).
    f_equal. f_equal; f_equal; apply sum_over_ext; intros x _;
      rewrite <- sum_over_mul; apply sum_over_ext; intros y _; simpl;
      change (existsb (Nat.eqb x) (nbrs g s)) with (adjb g s x);
      destruct (adjb g s x), (adjb g x y), (y =? s), (adjb g y s); auto.
  - intros c' p' x Hx. apply middle_spec; auto. apply (sg_range W _ _ Hx).
Qed.

End Transitivity.
