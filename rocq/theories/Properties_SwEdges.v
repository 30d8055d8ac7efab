(** Theorems about [rewire_edge] and [reset_edge] for every edge and every target. *)
From Verif Require Import Base BaseFacts Containers ContainerSpec ContainerFacts Graph GraphSpec GraphFacts.
From Verif Require Import GraphOps GraphBuild Rng Sw SwSpec SwFacts Properties_Sw.
From Coq Require Import QArith.
Local Open Scope nat_scope.

(** ** C105 *)

Lemma rooted_somewhere {T} n d (g : graph (sw_container T)) i j : sw_inv n d g -> adj g i j ->
  (exists o, rooted_from g i j o) \/ (~ rooted g i j /\ In (mk_se j None) (entries g i) /\ rooted g j i).
Proof.
  intros (W & _ & _ & _ & P) A. apply adj_entries in A as ([t [o|]] & He & Et); cbn [se_to] in Et; subst t.
  - left. exists o. exact He.
  - right. splits; auto.
    + intros [o Hr]. pose proof (entry_unique W He Hr eq_refl). discriminate.
    + apply P. exact He.
Qed.

(** [reset_edge]: complete by the place of the edge. *)
Theorem C105_reset {T : Type} : forall p n d (g : graph (sw_container T)) i j,
  sw_ok n d g -> i < n -> j < n ->
  (i = j -> sw_reset_edge p g i j = match p with Debug => Panic | Release => UB end) /\
  (i <> j -> ~ adj g i j -> sw_reset_edge p g i j = Done (Sw_GError EdgeDoesNotExist, g)) /\
  (adj g i j -> ~ rooted g i j -> sw_reset_edge p g i j = Panic) /\
  (forall o, rooted_from g i j o -> exists g', sw_ok n d g' /\
    ((o = j /\ g' = g /\ sw_reset_edge p g i j = Done (Sw_Nothing, g')) \/
     (o <> j /\ adj g i o /\ g' = g /\ sw_reset_edge p g i j = Done (Sw_BlockedByExistingEdge, g')) \/
     (o <> j /\ ~ adj g i o /\ sw_reset_edge p g i j = Done (Sw_Reset i j o, g') /\
      payloads g' = payloads g /\
      forall x y z, rooted_from g' x y z <->
        (rooted_from g x y z /\ ~ (x = i /\ y = j)) \/ (x = i /\ y = o /\ z = o)))).
Proof.
  intros p n d g i j O Hi Hj. pose proof (proj1 (sw_ok_inv _ _ _) O) as I. pose proof I as (W & V & _ & _ & P).
  splits.
  - intros <-. unfold sw_reset_edge. destruct p.
    + rewrite get_2_mut_bad_debug by tauto. reflexivity.
    + rewrite (get_2_mut_bad_release W) by tauto. reflexivity.
  - intros N A. rewrite <- V in Hi, Hj.
    destruct (container_entries W Hi) as (c0 & E0 & D0 & A0).
    destruct (container_entries W Hj) as (c1 & E1 & D1 & A1).
    unfold sw_reset_edge. rewrite (get_2_mut_ok p W Hi Hj N E0 E1). cbn [bind]. unfold sc_reset. rewrite D1.
    destruct (sc_adj_position c0 j) as [k|] eqn:Ek; [|reflexivity].
    destruct A. unfold adj. rewrite (nbrs_nth E0).
    destruct (position_nth _ _ Ek) as (x & Hx & Q). apply Nat.eqb_eq in Q. subst x.
    eapply nth_error_In; eauto.
  - intros A R. destruct (rooted_somewhere _ _ _ _ _ I A) as [[o X]|(_ & He & [o Rj])]; [destruct R; exists o; auto|].
    assert (N : i <> j) by (intros ->; apply (sg_irrefl W _ A)).
    rewrite <- V in Hi, Hj.
    destruct (container_entries W Hi) as (c0 & E0 & D0 & A0).
    destruct (container_entries W Hj) as (c1 & E1 & D1 & A1).
    unfold sw_reset_edge. rewrite (get_2_mut_ok p W Hi Hj N E0 E1). cbn [bind].
    destruct (sc_position_entry W E0 He) as (k & Ek & Nk). cbn [se_to] in Ek.
    destruct (sc_position_entry W E1 Rj) as (k1 & Ek1 & Nk1). cbn [se_to] in Ek1.
    unfold sc_reset. rewrite D0, D1, Ek, Ek1. cbn [expect bind]. unfold vget_asserted, vget.
    rewrite Nk, Nk1. cbn [bind]. destruct p; reflexivity.
  - intros o R. destruct (root_end W P R) as (N1 & _ & _ & _).
    destruct (rooted_from_range I R) as [Ho No].
    destruct (Nat.eq_dec o j) as [->|N]; [exists g; rewrite (reset_nothing p I R); auto 10|].
    destruct (adj_dec g i o) as [A|A]; [exists g; rewrite (reset_blocked p I R N A); auto 10|].
    assert (N' : j <> o) by auto. assert (No' : i <> o) by auto.
    destruct (reset_ok p I R N No' Ho A) as (g' & E & M). exists g'. split.
    { apply sw_ok_inv, (moved_inv I N1 No' N' Hi Hj Ho A M). }
    right. right. splits; auto; [apply M|]. intros x y z. unfold rooted_from.
    rewrite (moved_In W N1 No' N' M). split.
    + intros [(H & K & _)|[[-> H]|[_ H]]]; try discriminate.
      * left. split; auto. intros [-> ->]. apply K. split; auto. apply (entry_unique W H R). auto.
      * injection H as -> ->. auto.
    + intros [[H K]|(-> & -> & ->)]; auto. left. splits; auto.
      * intros [-> E']. injection E' as -> ->. auto.
      * intros [_ E']. discriminate.
Qed.
Print Assumptions C105_reset.

(** [rewire_edge]: complete by the place of the edge and its new target. *)
Theorem C105_rewire {T : Type} : forall p n d (g : graph (sw_container T)) i j k,
  sw_ok n d g -> i < n -> j < n -> k < n ->
  (j = k -> sw_rewire_edge p g i j k = Done (Sw_Nothing, g)) /\
  (j <> k -> i = j \/ i = k -> sw_rewire_edge p g i j k = match p with Debug => Panic | Release => UB end) /\
  (j <> k -> i <> j -> i <> k -> ~ adj g i j -> sw_rewire_edge p g i j k = Done (Sw_InvalidAdjecency, g)) /\
  (j <> k -> adj g i j -> adj g i k -> sw_rewire_edge p g i j k = Done (Sw_BlockedByExistingEdge, g)) /\
  (i <> k -> ~ adj g i k -> adj g i j -> ~ rooted g i j -> p = Debug -> sw_rewire_edge p g i j k = Panic) /\
  (forall o, i <> k -> ~ adj g i k -> rooted_from g i j o -> exists g', sw_ok n d g' /\
    sw_rewire_edge p g i j k = Done (Sw_Rewire i j k, g') /\ payloads g' = payloads g /\
    forall x y z, rooted_from g' x y z <->
      (rooted_from g x y z /\ ~ (x = i /\ y = j)) \/ (x = i /\ y = k /\ z = o)).
Proof.
  intros p n d g i j k O Hi Hj Hk. pose proof (proj1 (sw_ok_inv _ _ _) O) as I. pose proof I as (W & V & _ & _ & P).
  splits.
  - intros <-. unfold sw_rewire_edge. rewrite Nat.eqb_refl. auto.
  - intros N H. unfold sw_rewire_edge. destruct (Nat.eqb_spec j k); [congruence|].
    unfold get_3_mut. replace (negb (i =? j) && negb (j =? k) && negb (k =? i)) with false.
    + rewrite andb_false_r. destruct p; [reflexivity|].
      destruct (nth_error (vertices g) i), (nth_error (vertices g) j), (nth_error (vertices g) k); reflexivity.
    + destruct (Nat.eqb_spec i j), (Nat.eqb_spec j k), (Nat.eqb_spec k i); auto. intuition congruence.
  - intros N1 N2 N3 A. apply rewire_missing; auto; lia.
  - intros N1 A1 A2. rewrite <- V in Hi, Hj, Hk.
    assert (N2 : i <> j) by (intros ->; apply (sg_irrefl W _ A1)).
    assert (N3 : k <> i) by (intros ->; apply (sg_irrefl W _ A2)).
    destruct (container_entries W Hi) as (c0 & E0 & D0 & _).
    destruct (container_entries W Hj) as (c1 & E1 & D1 & _).
    destruct (container_entries W Hk) as (c2 & E2 & D2 & _).
    unfold sw_rewire_edge. destruct (Nat.eqb_spec j k); [congruence|].
    rewrite (@get_3_mut_ok _ p g i j k c0 c1 c2) by auto. cbn [bind].
    apply adj_entries in A1 as (x & Hx & <-).
    destruct (sc_position_entry W E0 Hx) as (t & Et & _).
    unfold sc_rewire. rewrite D1, D2, Et, (proj2 (sc_adjacent_adj k E0) A2). cbn [bind].
    rewrite (upd_same _ _ E0), (upd_same _ _ E1), (upd_same _ _ E2), with_vertices_same. reflexivity.
  - intros N3 Ak A R ->. destruct (rooted_somewhere _ _ _ _ _ I A) as [[o X]|(_ & He & _)]; [destruct R; exists o; auto|].
    assert (N2 : i <> j) by (intros ->; apply (sg_irrefl W _ A)).
    assert (N1 : j <> k) by (intros ->; auto). rewrite <- V in Hi, Hj, Hk.
    destruct (container_entries W Hi) as (c0 & E0 & D0 & _).
    destruct (container_entries W Hj) as (c1 & E1 & D1 & _).
    destruct (container_entries W Hk) as (c2 & E2 & D2 & _).
    unfold sw_rewire_edge. destruct (Nat.eqb_spec j k); [congruence|].
    rewrite (@get_3_mut_ok _ Debug g i j k c0 c1 c2) by auto. cbn [bind].
    destruct (sc_position_entry W E0 He) as (t & Et & Nt). cbn [se_to] in Et.
    unfold sc_rewire. rewrite D1, D2, Et. destruct (sc_is_adjacent c0 k) eqn:Ad.
    { apply (sc_adjacent_adj k E0) in Ad. tauto. }
    unfold vget. rewrite Nt. reflexivity.
  - intros o N3 Ak R. destruct (root_end W P R) as (N1 & _).
    assert (N2 : j <> k). { intros ->. apply Ak, rooted_adj. exists o; auto. }
    destruct (rewire_ok p I R N2 N3 Hk Ak) as (g' & E & M). exists g'. split.
    { apply sw_ok_inv, (moved_inv I N1 N3 N2 Hi Hj Hk Ak M). }
    splits; auto; [apply M|]. intros x y z. unfold rooted_from.
    rewrite (moved_In W N1 N3 N2 M). split.
    + intros [(H & K & _)|[[-> H]|[_ H]]]; try discriminate.
      * left. split; auto. intros [-> ->]. apply K. split; auto. apply (entry_unique W H R). auto.
      * injection H as -> ->. auto.
    + intros [[H K]|(-> & -> & ->)]; auto. left. splits; auto.
      * intros [-> E']. injection E' as -> ->. auto.
      * intros [_ E']. discriminate.
Qed.
Print Assumptions C105_rewire.

(** In a release build an edge that is rooted at its other end is moved all the same.  It is
    rooted nowhere afterwards, and its former root has lost one of its edges for good. *)
Theorem C105_rewire_release {T : Type} : forall n d (g : graph (sw_container T)) i j k,
  sw_ok n d g -> k < n -> i <> k -> ~ adj g i k -> adj g i j -> ~ rooted g i j ->
  exists g', sw_rewire_edge Release g i j k = Done (Sw_Rewire i j k, g') /\
    adj g' i k /\ adj g' k i /\ ~ adj g' i j /\ ~ adj g' j i /\
    ~ rooted g' i k /\ ~ rooted g' k i /\ length (root_targets g' j) = d - 1 /\ ~ sw_ok n d g'.
Proof.
  intros n d g i j k O Hk N3 Ak A R.
  pose proof (proj1 (sw_ok_inv _ _ _) O) as I. pose proof I as (W & V & _ & Rt & P).
  destruct (rooted_somewhere _ _ _ _ _ I A) as [[o X]|(_ & He & [o Rj])]; [destruct R; exists o; auto|].
  assert (N2 : i <> j) by (intros ->; apply (sg_irrefl W _ A)).
  assert (N1 : j <> k) by (intros ->; auto).
  destruct (adj_lt W A) as [Hi Hj]. rewrite <- V in Hk.
  destruct (container_entries W Hi) as (c0 & E0 & D0 & A0).
  destruct (container_entries W Hj) as (c1 & E1 & D1 & A1).
  destruct (container_entries W Hk) as (c2 & E2 & D2 & A2).
  destruct (sc_position_entry W E0 He) as (t & Et & Nt). cbn [se_to] in Et.
  destruct (sc_position_entry W E1 Rj) as (t1 & Et1 & Nt1). cbn [se_to] in Et1.
  destruct (swap_remove_spec _ _ Nt1) as (l1 & El1 & Pl1).
  set (g' := with_vertices g (upd (upd (upd (vertices g) i (sc_with c0 (upd (sc_adj c0) t (mk_se k None)))) j (sc_with c1 l1))
               k (sc_with c2 (sc_adj c2 ++ [mk_se i None])))).
  assert (L : length (vertices g) = vertex_count g) by apply W.
  assert (Xi : entries g' i = upd (entries g i) t (mk_se k None)).
  { unfold entries at 1, g'. cbn [with_vertices vertices]. rewrite !nth_error_upd_other by auto.
    rewrite nth_error_upd, Nat.eqb_refl, L. destruct (Nat.ltb_spec i (vertex_count g)); [|lia]. cbn. rewrite A0. auto. }
  assert (Xj : entries g' j = l1).
  { unfold entries, g'. cbn [with_vertices vertices]. rewrite nth_error_upd_other by auto.
    rewrite nth_error_upd, Nat.eqb_refl, upd_length, L. destruct (Nat.ltb_spec j (vertex_count g)); [|lia]. reflexivity. }
  assert (Xk : entries g' k = entries g k ++ [mk_se i None]).
  { unfold entries at 1, g'. cbn [with_vertices vertices].
    rewrite nth_error_upd, Nat.eqb_refl, !upd_length, L. destruct (Nat.ltb_spec k (vertex_count g)); [|lia]. cbn. rewrite A2. auto. }
  destruct (upd_entry (mk_se k None) Nt) as (rest & R1 & R2). rewrite A0 in R1, R2. rewrite <- Xi in R2.
  rewrite A1 in Pl1.
  assert (Ni : forall x, In x rest -> se_to x <> j).
  { intros x Hx Ex. pose proof (sg_nodup W i) as D. rewrite nbrs_entries, R1 in D. cbn in D.
    apply NoDup_cons_iff in D as [D _]. apply D. rewrite <- Ex. apply in_map; auto. }
  assert (Nj : forall x, In x l1 -> se_to x <> i).
  { intros x Hx Ex. pose proof (sg_nodup W j) as D. rewrite nbrs_entries, Pl1 in D. cbn in D.
    apply NoDup_cons_iff in D as [D _]. apply D. rewrite <- Ex. apply in_map; auto. }
  assert (Nk : forall x, In x (entries g i) -> se_to x <> k).
  { intros x Hx Ex. apply Ak. rewrite <- Ex. apply entry_adj; auto. }
  assert (Nki : forall x, In x (entries g k) -> se_to x <> i).
  { intros x Hx Ex. apply Ak, (sg_sym W). rewrite <- Ex. apply entry_adj; auto. }
  assert (Lr : length (root_targets g' j) = d - 1).
  { assert (K : length (root_targets g j) = S (length (root_targets g' j))).
    { unfold root_targets. rewrite Xj, (Permutation_flat_map _ Pl1). reflexivity. }
    rewrite V in Hj. rewrite (Permutation_length (Rt j Hj)) in K. unfold ring_targets in K.
    rewrite map_length, seq_length in K. lia. }
  exists g'. splits; auto.
  - unfold sw_rewire_edge. destruct (Nat.eqb_spec j k); [congruence|].
    rewrite (@get_3_mut_ok _ Release g i j k c0 c1 c2) by auto. cbn [bind].
    unfold sc_rewire. rewrite D0, D1, D2, Et, Et1. destruct (sc_is_adjacent c0 k) eqn:Ad.
    { apply (sc_adjacent_adj k E0) in Ad. tauto. }
    unfold vget. rewrite Nt. cbn [bind debug_assert expect]. rewrite El1. reflexivity.
  - apply adj_entries. exists (mk_se k None). rewrite R2. simpl; auto.
  - apply adj_entries. exists (mk_se i None). rewrite Xk. split; auto. apply in_or_app. simpl; auto.
  - intros B. apply adj_entries in B as (x & Hx & Ex). rewrite R2 in Hx. destruct Hx as [<-|Hx]; cbn in Ex; [congruence|].
    apply (Ni _ Hx Ex).
  - intros B. apply adj_entries in B as (x & Hx & Ex). rewrite Xj in Hx. apply (Nj _ Hx Ex).
  - intros [z B]. unfold rooted_from in B. rewrite R2 in B. destruct B as [B|B]; [discriminate|].
    apply (Nk (mk_se k (Some z))); auto. rewrite R1. simpl; auto.
  - intros [z B]. unfold rooted_from in B. rewrite Xk in B. apply in_app_or in B as [B|[B|[]]]; [|discriminate].
    apply (Nki _ B eq_refl).
  - intros O'. apply so_roots with (i := j) in O'; [|lia]. apply Permutation_length in O'.
    rewrite Lr in O'. unfold ring_targets in O'. rewrite map_length, seq_length in O'.
    assert (K : In o (root_targets g j)) by (apply rooted_from_target in Rj; auto).
    rewrite V in Hj. apply (Permutation_in _ (Rt j Hj)) in K. unfold ring_targets in K. destruct d; [destruct K|lia].
Qed.
Print Assumptions C105_rewire_release.

(** The documentation says that [rewire_edge] panics in debug mode if the edge is not rooted at
    [index0], and if [index0 == index2].  Neither is so: a blocked edge is reported before its
    root is looked at, and nothing is done for equal targets. *)
Definition ex_ring6 : graph (sw_container nat) :=
  match sw_init_ring_2 Debug (graph_new (fun i => i) 6) with
  | Done g => g
  | _ => graph_new (fun i => i) 6
  end.

Lemma ex_ring6_ok : sw_ok 6 2 ex_ring6.
Proof.
  destruct (@graph_new_spec nat (sw_container nat) _ _ (fun i => i) 6) as (W & V & _).
  destruct (@sw_ring nat Debug (graph_new (fun i => i) 6) 2 W) as (g & E & I & _); [rewrite V; lia|].
  apply sw_ok_inv. rewrite V in I. unfold ex_ring6, sw_init_ring_2. rewrite E. exact I.
Qed.

Theorem C105_debug_panics_refuted : exists (g : graph (sw_container nat)) n i j k,
  sw_ok n 2 g /\ i < n /\ j < n /\ k < n /\ adj g i j /\ ~ rooted g i j /\
  sw_rewire_edge Debug g i j k = Done (Sw_BlockedByExistingEdge, g) /\
  sw_rewire_edge Debug g i i i = Done (Sw_Nothing, g).
Proof.
  exists ex_ring6, 6, 1, 0, 2. pose proof ex_ring6_ok as O.
  assert (A : adj ex_ring6 1 0) by (vm_compute; tauto).
  assert (B : adj ex_ring6 1 2) by (vm_compute; tauto).
  split; [exact O|]. do 3 (split; [lia|]). split; [exact A|]. split.
  - intros [o R]. vm_compute in R. destruct R as [R|[R|[R|[R|[]]]]]; discriminate R.
  - destruct (C105_rewire Debug 6 2 ex_ring6 1 0 2 O) as (_ & _ & _ & X & _); try lia.
    split; [exact (X ltac:(lia) A B)|reflexivity].
Qed.
Print Assumptions C105_debug_panics_refuted.

(** Cases: an edge moved away and back, one that is not rooted where it is asked for. *)
Example C105_example :
  match sw_rewire_edge Debug ex_ring6 0 1 3 with
  | Done (s, g) => s = Sw_Rewire 0 1 3 /\
      match sw_reset_edge Debug g 0 3 with
      | Done (s', g') => s' = Sw_Reset 0 3 1 /\ adj g' 0 1
      | _ => False
      end
  | _ => False
  end /\
  sw_reset_edge Release ex_ring6 1 0 = Panic /\
  sw_rewire_edge Debug ex_ring6 1 0 4 = Panic /\
  match sw_rewire_edge Release ex_ring6 1 0 4 with
  | Done (s, g) => s = Sw_Rewire 1 0 4 /\ length (root_targets g 0) = 1
  | _ => False
  end.
Proof.
  vm_compute. split; [split; [|split]|split; [|split; [|split]]]; try reflexivity. auto.
Qed.
