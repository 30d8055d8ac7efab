(** The simple-graph invariant and the elementary operations. *)
From Verif Require Import Base BaseFacts Sums Containers ContainerSpec ContainerFacts Graph GraphSpec.
From Coq Require Import Sorted.
Set Implicit Arguments.
Unset Strict Implicit.

Ltac splits := repeat match goal with |- _ /\ _ => split end.

Lemma enumerate_from_length {X} k (l : list X) : length (enumerate_from k l) = length l.
Proof. revert k; induction l; simpl; auto. Qed.

Lemma nth_error_enumerate_from {X} k (l : list X) i :
  nth_error (enumerate_from k l) i = option_map (fun x => (k + i, x)) (nth_error l i).
Proof.
  revert k i; induction l as [|x l IH]; intros k [|i]; simpl; auto.
  - rewrite Nat.add_0_r; auto.
  - rewrite IH. rewrite Nat.add_succ_r; auto.
Qed.

Lemma nth_error_enumerate {X} (l : list X) i :
  nth_error (enumerate l) i = option_map (fun x => (i, x)) (nth_error l i).
Proof. apply nth_error_enumerate_from. Qed.

Lemma map_snd_enumerate_from {X} k (l : list X) : map snd (enumerate_from k l) = l.
Proof. revert k; induction l; simpl; intros; auto. f_equal; auto. Qed.

Lemma list_ext {X} (l l' : list X) :
  (forall i, nth_error l i = nth_error l' i) -> l = l'.
Proof.
  revert l'; induction l as [|x l IH]; intros [|y l'] H; auto.
  - specialize (H 0); discriminate.
  - specialize (H 0); discriminate.
  - f_equal.
    + specialize (H 0); simpl in H; congruence.
    + apply IH. intros i. apply (H (S i)).
Qed.

Lemma nth_error_seq s n i : nth_error (seq s n) i = if i <? n then Some (s + i) else None.
Proof.
  destruct (Nat.ltb_spec i n).
  - rewrite (nth_error_nth' _ 0) by (rewrite seq_length; auto).
    rewrite seq_nth; auto.
  - apply nth_error_None. rewrite seq_length; auto.
Qed.

Section Facts.
Context {T A : Type} {C : AdjContainer T A} {L : AdjLaws C}.
Implicit Types g : graph A.

Lemma adjb_adj g i j : adjb g i j = true <-> adj g i j.
Proof. apply contains_In. Qed.

Lemma adjb_not_adj g i j : adjb g i j = false <-> ~ adj g i j.
Proof. rewrite <- adjb_adj. destruct (adjb g i j); split; congruence. Qed.

Lemma adj_dec g i j : {adj g i j} + {~ adj g i j}.
Proof. apply in_dec, Nat.eq_dec. Qed.

Lemma nbrs_nth g i c : nth_error (vertices g) i = Some c -> nbrs g i = ac_neighbors c.
Proof. unfold nbrs; intros ->; auto. Qed.

Lemma adj_lt_l g i j : adj g i j -> i < length (vertices g).
Proof.
  unfold adj, nbrs. destruct (nth_error (vertices g) i) eqn:E; [|intros []].
  intros _. apply (nth_error_lt _ _ E).
Qed.

Lemma nbrs_out g i : length (vertices g) <= i -> nbrs g i = [].
Proof. unfold nbrs; intros H. apply nth_error_None in H. rewrite H; auto. Qed.

Lemma adj_lt g i j : simple_graph g -> adj g i j -> i < vertex_count g /\ j < vertex_count g.
Proof.
  intros W H. split.
  - rewrite <- (sg_len W). eapply adj_lt_l; eauto.
  - eapply sg_range; eauto.
Qed.

Lemma container_lt g i :
  simple_graph g -> i < vertex_count g ->
  exists c, nth_error (vertices g) i = Some c /\ ac_wf c /\ ac_id c = i /\
            ac_neighbors c = nbrs g i.
Proof.
  intros W H. rewrite <- (sg_len W) in H. destruct (vget_lt _ H) as [c E].
  exists c. destruct (sg_cont W _ E). repeat split; auto.
  symmetry; apply nbrs_nth; auto.
Qed.

(** *** Edge counting *)

Definition degsum g : nat :=
  sum_over (fun i => length (nbrs g i)) (seq 0 (vertex_count g)).

Lemma number_of_edges_sum g :
  number_of_edges g =
  sum_over (fun j => sum_over (fun i => b2n (adjb g i j)) (seq 0 j)) (seq 0 (vertex_count g)).
Proof.
  unfold number_of_edges, count, pairs_below.
  rewrite length_filter_sum, sum_over_flat_map.
  apply sum_over_ext; intros j _. rewrite sum_over_map. reflexivity.
Qed.

Lemma degsum_edges g :
  (forall i j, adj g i j -> j < vertex_count g) ->
  (forall i, ~ adj g i i) -> (forall i, NoDup (nbrs g i)) ->
  (forall i j, adj g i j -> adj g j i) ->
  degsum g = 2 * number_of_edges g.
Proof.
  intros R I N S. rewrite number_of_edges_sum. rewrite <- handshake.
  - unfold degsum. apply sum_over_ext. intros i _.
    apply NoDup_length_count; auto. intros x; apply R.
  - intros i. destruct (adjb g i i) eqn:E; auto. apply adjb_adj in E. destruct (I i); auto.
  - intros i j. f_equal. destruct (adjb g i j) eqn:E.
    + symmetry. apply adjb_adj, S, adjb_adj; auto.
    + symmetry. apply adjb_not_adj. apply adjb_not_adj in E. auto.
Qed.

Lemma simple_intro g :
  length (vertices g) = vertex_count g ->
  (forall i c, nth_error (vertices g) i = Some c -> ac_wf c /\ ac_id c = i) ->
  (forall i j, adj g i j -> j < vertex_count g) ->
  (forall i, ~ adj g i i) -> (forall i, NoDup (nbrs g i)) ->
  (forall i j, adj g i j -> adj g j i) ->
  2 * edge_count g = degsum g ->
  simple_graph g.
Proof.
  intros H1 H2 H3 H4 H5 H6 H7. constructor; auto.
  rewrite degsum_edges in H7 by auto. lia.
Qed.

Lemma simple_degsum g : simple_graph g -> degsum g = 2 * edge_count g.
Proof. intros W. rewrite (sg_count W). apply degsum_edges; apply W. Qed.

(** The invariant only depends on the neighbour lists up to permutation. *)
Lemma simple_transfer g g' :
  simple_graph g ->
  length (vertices g') = vertex_count g' ->
  (forall i c, nth_error (vertices g') i = Some c -> ac_wf c /\ ac_id c = i) ->
  vertex_count g' = vertex_count g -> edge_count g' = edge_count g ->
  (forall i, Permutation (nbrs g i) (nbrs g' i)) ->
  simple_graph g'.
Proof.
  intros W H1 H2 Hv He P.
  assert (E : forall i j, adj g' i j <-> adj g i j).
  { intros i j; unfold adj. rewrite P; tauto. }
  apply simple_intro; auto.
  - intros i j H. rewrite Hv. eapply sg_range; [eauto|]. apply E; eauto.
  - intros i H. apply E in H. eapply sg_irrefl; eauto.
  - intros i. eapply Permutation_NoDup; [apply P|]. apply W.
  - intros i j H. apply E. apply E in H. apply W; auto.
  - rewrite He. rewrite <- (simple_degsum W). unfold degsum. rewrite Hv.
    apply sum_over_ext. intros i _. apply Permutation_length, P.
Qed.

(** *** New graphs *)

Lemma simple_of_empty g :
  length (vertices g) = vertex_count g -> edge_count g = 0 ->
  (forall i c, nth_error (vertices g) i = Some c ->
     ac_wf c /\ ac_id c = i /\ ac_neighbors c = []) ->
  simple_graph g.
Proof.
  intros H1 H2 H3.
  assert (E : forall i, nbrs g i = []).
  { intros i. unfold nbrs. destruct (nth_error (vertices g) i) eqn:K; auto.
    destruct (H3 _ _ K) as (_ & _ & ->); auto. }
  apply simple_intro; auto.
  - intros i c K; destruct (H3 _ _ K) as (? & ? & _); auto.
  - unfold adj; intros i j; rewrite E; intros [].
  - unfold adj; intros i; rewrite E; intros [].
  - intros i; rewrite E; constructor.
  - unfold adj; intros i j; rewrite E; intros [].
  - rewrite H2. symmetry. apply sum_over_zero. intros; rewrite E; auto.
Qed.

Lemma graph_new_spec mk n :
  let g := graph_new (A := A) mk n in
  simple_graph g /\ vertex_count g = n /\ edge_count g = 0 /\
  payloads g = map mk (seq 0 n) /\ forall i, nbrs g i = [].
Proof.
  simpl.
  assert (K : forall i c, nth_error (map (fun i => ac_new i (mk i)) (seq 0 n)) i = Some c ->
     ac_wf c /\ ac_id c = i /\ ac_neighbors c = []).
  { intros i c H. rewrite nth_error_map, nth_error_seq in H.
    destruct (i <? n); [|discriminate]. simpl in H. injection H as <-.
    destruct (law_new i (mk i)) as (? & ? & ? & ?); auto. }
  splits; auto.
  - apply simple_of_empty; simpl; auto. rewrite map_length, seq_length; auto.
  - unfold payloads; simpl. rewrite map_map. apply map_ext.
    intros i. apply law_new.
  - intros i. unfold nbrs; simpl.
    destruct (nth_error _ i) eqn:E; auto. apply K in E; tauto.
Qed.

Lemma from_vec_spec l :
  let g := from_vec (A := A) l in
  simple_graph g /\ vertex_count g = length l /\ edge_count g = 0 /\
  payloads g = l /\ forall i, nbrs g i = [].
Proof.
  simpl.
  assert (K : forall i c,
     nth_error (map (fun it => ac_new (fst it) (snd it)) (enumerate l)) i = Some c ->
     ac_wf c /\ ac_id c = i /\ ac_neighbors c = []).
  { intros i c H. rewrite nth_error_map, nth_error_enumerate in H.
    destruct (nth_error l i) as [t|]; [|discriminate]. simpl in H. injection H as <-.
    destruct (law_new i t) as (? & ? & ? & ?); auto. }
  splits; auto.
  - apply simple_of_empty; simpl; auto.
  - unfold vertex_count; simpl. rewrite map_length. apply enumerate_from_length.
  - unfold payloads; simpl. rewrite map_map.
    transitivity (map snd (enumerate l)).
    + apply map_ext. intros []; apply law_new.
    + apply map_snd_enumerate_from.
  - intros i. unfold nbrs; simpl.
    destruct (nth_error _ i) eqn:E; auto. apply K in E; tauto.
Qed.

(** *** Writing two containers *)

Lemma put_2_length vs i j (a b : A) : length (put_2 vs i j a b) = length vs.
Proof. unfold put_2; rewrite !upd_length; auto. Qed.

Lemma nth_error_put_2 vs i j (a b : A) k :
  i < length vs -> j < length vs -> i <> j ->
  nth_error (put_2 vs i j a b) k =
  if k =? i then Some a else if k =? j then Some b else nth_error vs k.
Proof.
  intros Hi Hj N. unfold put_2. rewrite nth_error_upd, upd_length, nth_error_upd.
  destruct (Nat.eqb_spec j k), (Nat.eqb_spec k i), (Nat.eqb_spec k j), (Nat.eqb_spec i k);
    subst; try congruence; simpl;
    repeat match goal with |- context [?x <? ?y] => destruct (Nat.ltb_spec x y) end;
    auto; lia.
Qed.

Lemma nbrs_put_2 g g' i j a b :
  i < length (vertices g) -> j < length (vertices g) -> i <> j ->
  vertices g' = put_2 (vertices g) i j a b ->
  forall k, nbrs g' k = if k =? i then ac_neighbors a
                        else if k =? j then ac_neighbors b else nbrs g k.
Proof.
  intros Hi Hj N E k. unfold nbrs. rewrite E, nth_error_put_2 by auto.
  destruct (k =? i); auto. destruct (k =? j); auto.
Qed.

Lemma payloads_put_2 g g' i j a b ci cj :
  nth_error (vertices g) i = Some ci -> nth_error (vertices g) j = Some cj -> i <> j ->
  vertices g' = put_2 (vertices g) i j a b ->
  ac_contained a = ac_contained ci -> ac_contained b = ac_contained cj ->
  payloads g' = payloads g.
Proof.
  intros Hi Hj N E Ea Eb. unfold payloads. rewrite E. unfold put_2.
  rewrite (map_upd_same _ _ _ _ (y := cj)); auto.
  - eapply map_upd_same; eauto.
  - rewrite nth_error_upd_other; auto.
Qed.

(** *** [get_2_mut] *)

Lemma get_2_mut_ok p g i j ci cj :
  simple_graph g -> i < vertex_count g -> j < vertex_count g -> i <> j ->
  nth_error (vertices g) i = Some ci -> nth_error (vertices g) j = Some cj ->
  get_2_mut p g i j = Done (ci, cj).
Proof.
  intros W Hi Hj N Ei Ej. unfold get_2_mut. fold (vertex_count g).
  apply Nat.ltb_lt in Hi. apply Nat.ltb_lt in Hj. apply Nat.eqb_neq in N.
  rewrite Hi, Hj, N, Ei, Ej. simpl. destruct p; auto.
Qed.

Lemma get_2_mut_bad_debug g i j :
  ~ (i < vertex_count g /\ j < vertex_count g /\ i <> j) -> get_2_mut Debug g i j = Panic.
Proof.
  intros H. unfold get_2_mut. fold (vertex_count g).
  destruct (Nat.ltb_spec i (vertex_count g)), (Nat.ltb_spec j (vertex_count g)),
    (Nat.eqb_spec i j); simpl; auto. tauto.
Qed.

Lemma get_2_mut_bad_release g i j :
  simple_graph g ->
  ~ (i < vertex_count g /\ j < vertex_count g /\ i <> j) -> get_2_mut Release g i j = UB.
Proof.
  intros W H. unfold get_2_mut.
  destruct (nth_error (vertices g) i) eqn:Ei; auto.
  destruct (nth_error (vertices g) j) eqn:Ej; auto.
  destruct (Nat.eqb_spec i j); auto.
  apply nth_error_lt in Ei. apply nth_error_lt in Ej.
  rewrite (sg_len W) in *. tauto.
Qed.

(** *** [add_edge] *)

Lemma add_edge_present p g i j :
  simple_graph g -> adj g i j -> add_edge p g i j = Done (Err EdgeExists, g).
Proof.
  intros W H. destruct (adj_lt W H) as [Hi Hj].
  assert (N : i <> j) by (intros ->; eapply sg_irrefl; eauto).
  destruct (container_lt W Hi) as (ci & Ei & Wi & Ii & Ni).
  destruct (container_lt W Hj) as (cj & Ej & Wj & Ij & Nj).
  unfold add_edge. rewrite (get_2_mut_ok p W Hi Hj N Ei Ej); simpl.
  rewrite law_push_err; auto. rewrite Ij, Ni. auto.
Qed.

Lemma add_edge_absent p g i j :
  simple_graph g -> i < vertex_count g -> j < vertex_count g -> i <> j -> ~ adj g i j ->
  exists g', add_edge p g i j = Done (Ok tt, g') /\ simple_graph g' /\
    vertex_count g' = vertex_count g /\ edge_count g' = edge_count g + 1 /\
    payloads g' = payloads g /\
    (forall k, nbrs g' k = if k =? i then nbrs g i ++ [j]
                           else if k =? j then nbrs g j ++ [i] else nbrs g k).
Proof.
  intros W Hi Hj N H.
  destruct (container_lt W Hi) as (ci & Ei & Wi & Ii & Ni).
  destruct (container_lt W Hj) as (cj & Ej & Wj & Ij & Nj).
  assert (Hp : ~ In (ac_id cj) (ac_neighbors ci)) by (rewrite Ij, Ni; auto).
  destruct (law_push_ok ci cj Wi Wj Hp)
    as (a & b & Ep & Wa & Wb & [Ia Ca] & [Ib Cb] & Na & Nb).
  set (g' := mk_graph (next_id g) (edge_count g + 1) (put_2 (vertices g) i j a b)).
  assert (Lv := sg_len W).
  assert (Nk : forall k, nbrs g' k = if k =? i then nbrs g i ++ [j]
                           else if k =? j then nbrs g j ++ [i] else nbrs g k).
  { intros k. rewrite (@nbrs_put_2 g g' i j a b); auto; try lia.
    rewrite Na, Nb, Ni, Nj, Ii, Ij; auto. }
  exists g'. split.
  { unfold add_edge. rewrite (get_2_mut_ok p W Hi Hj N Ei Ej); simpl.
    rewrite Ep; simpl. auto. }
  assert (Ad : forall x y, adj g' x y <-> adj g x y \/ (x = i /\ y = j) \/ (x = j /\ y = i)).
  { intros x y. unfold adj. rewrite Nk.
    destruct (Nat.eqb_spec x i), (Nat.eqb_spec x j); subst;
      rewrite ?in_app_iff; simpl; try tauto; intuition (subst; auto; congruence). }
  assert (H' : ~ adj g j i) by (intros K; apply H, (sg_sym W _ _ K)).
  split; [|split; [reflexivity|split; [reflexivity|split; [|auto]]]].
  - apply simple_intro.
    + simpl. rewrite put_2_length; auto.
    + intros k c. simpl. rewrite nth_error_put_2 by lia.
      destruct (Nat.eqb_spec k i) as [->|].
      { injection 1 as <-. split; auto; congruence. }
      destruct (Nat.eqb_spec k j) as [->|].
      { injection 1 as <-. split; auto; congruence. }
      apply W.
    + intros x y Hxy. apply Ad in Hxy as [Hxy|[[-> ->]|[-> ->]]]; auto.
      apply (sg_range W _ _ Hxy).
    + intros x Hx. apply Ad in Hx as [Hx|[[-> ?]|[-> ?]]]; auto.
      apply (sg_irrefl W _ Hx).
    + intros k. rewrite Nk.
      assert (S : forall l (x : nat), NoDup l -> ~ In x l -> NoDup (l ++ [x])).
      { intros l x Nl Hx. eapply Permutation_NoDup; [apply Permutation_app_comm|].
        simpl; constructor; auto. }
      destruct (k =? i); [apply S; auto; apply W|].
      destruct (k =? j); [apply S; auto; apply W|apply W].
    + intros x y Hxy. apply Ad. apply Ad in Hxy as [Hxy|[[-> ->]|[-> ->]]]; auto.
      left; apply W; auto.
    + simpl. pose proof (simple_degsum W) as D.
      set (f1 := fun k => if k =? i then length (nbrs g i) + 1 else length (nbrs g k)).
      unfold degsum in *.
      pose proof (@sum_over_seq_upd f1 (fun k => length (nbrs g k)) (vertex_count g) i Hi) as S1.
      pose proof (@sum_over_seq_upd (fun k => length (nbrs g' k)) f1 (vertex_count g) j Hj) as S2.
      assert (E1 : f1 i = length (nbrs g i) + 1) by (unfold f1; rewrite Nat.eqb_refl; auto).
      assert (E2 : f1 j = length (nbrs g j)).
      { unfold f1. destruct (Nat.eqb_spec j i); [congruence|auto]. }
      assert (E3 : length (nbrs g' j) = length (nbrs g j) + 1).
      { rewrite Nk. destruct (Nat.eqb_spec j i); [congruence|].
        rewrite Nat.eqb_refl, app_length; auto. }
      specialize (S1 ltac:(intros k Hk; unfold f1; destruct (Nat.eqb_spec k i); [congruence|auto])).
      specialize (S2 ltac:(intros k Hk; unfold f1; rewrite Nk; destruct (k =? i);
        [rewrite app_length; auto|destruct (Nat.eqb_spec k j); [congruence|auto]])).
      change (vertex_count g') with (vertex_count g). lia.
  - apply (payloads_put_2 (g := g) (i := i) (j := j) (a := a) (b := b) (ci := ci) (cj := cj)); auto.
Qed.

(** *** [remove_edge] *)

Lemma remove_edge_absent p g i j :
  simple_graph g -> i < vertex_count g -> j < vertex_count g -> i <> j -> ~ adj g i j ->
  remove_edge p g i j = Done (Err EdgeDoesNotExist, g).
Proof.
  intros W Hi Hj N H.
  destruct (container_lt W Hi) as (ci & Ei & Wi & Ii & Ni).
  destruct (container_lt W Hj) as (cj & Ej & Wj & Ij & Nj).
  unfold remove_edge. rewrite (get_2_mut_ok p W Hi Hj N Ei Ej); simpl.
  rewrite law_remove_err; auto. rewrite Ij, Ni. auto.
Qed.

Lemma remove_edge_present p g i j :
  simple_graph g -> adj g i j ->
  exists g', remove_edge p g i j = Done (Ok tt, g') /\ simple_graph g' /\
    vertex_count g' = vertex_count g /\ edge_count g = edge_count g' + 1 /\
    payloads g' = payloads g /\
    removed_first j (nbrs g i) (nbrs g' i) /\ removed_first i (nbrs g j) (nbrs g' j) /\
    (forall k, k <> i -> k <> j -> nbrs g' k = nbrs g k).
Proof.
  intros W H. destruct (adj_lt W H) as [Hi Hj].
  assert (N : i <> j) by (intros ->; eapply sg_irrefl; eauto).
  destruct (container_lt W Hi) as (ci & Ei & Wi & Ii & Ni).
  destruct (container_lt W Hj) as (cj & Ej & Wj & Ij & Nj).
  assert (H1 : In (ac_id cj) (ac_neighbors ci)) by (rewrite Ij, Ni; auto).
  assert (H2 : In (ac_id ci) (ac_neighbors cj)) by (rewrite Ii, Nj; apply (sg_sym W); auto).
  destruct (law_remove_ok ci cj Wi Wj H1 H2)
    as (a & b & Ep & Wa & Wb & [Ia Ca] & [Ib Cb] & Ra & Rb).
  rewrite Ij, Ni in Ra. rewrite Ii, Nj in Rb.
  set (g' := mk_graph (next_id g) (edge_count g - 1) (put_2 (vertices g) i j a b)).
  assert (Lv := sg_len W).
  assert (Nk : forall k, nbrs g' k = if k =? i then ac_neighbors a
                           else if k =? j then ac_neighbors b else nbrs g k).
  { intros k. apply nbrs_put_2; auto; lia. }
  pose proof (removed_first_perm Ra) as Pa. pose proof (removed_first_perm Rb) as Pb.
  assert (Na' : nbrs g' i = ac_neighbors a) by (rewrite Nk, Nat.eqb_refl; auto).
  assert (Nb' : nbrs g' j = ac_neighbors b).
  { rewrite Nk, Nat.eqb_refl. destruct (Nat.eqb_spec j i); [congruence|auto]. }
  assert (ND : forall k, NoDup (nbrs g' k)).
  { intros k. rewrite Nk. destruct (Nat.eqb_spec k i) as [->|].
    - eapply NoDup_cons_iff. eapply Permutation_NoDup; [exact Pa|apply W].
    - destruct (Nat.eqb_spec k j) as [->|]; [|apply W].
      eapply NoDup_cons_iff. eapply Permutation_NoDup; [exact Pb|apply W]. }
  assert (Ad : forall x y, adj g' x y <-> adj g x y /\ ~ (x = i /\ y = j) /\ ~ (x = j /\ y = i)).
  { assert (Da : ~ In j (ac_neighbors a)).
    { eapply NoDup_cons_iff. eapply Permutation_NoDup; [exact Pa|apply W]. }
    assert (Db : ~ In i (ac_neighbors b)).
    { eapply NoDup_cons_iff. eapply Permutation_NoDup; [exact Pb|apply W]. }
    intros x y. unfold adj. rewrite Nk.
    destruct (Nat.eqb_spec x i) as [->|].
    - rewrite Pa. simpl. intuition (subst; auto; congruence).
    - destruct (Nat.eqb_spec x j) as [->|]; [|tauto].
      rewrite Pb. simpl. intuition (subst; auto; congruence). }
  assert (D' : degsum g = degsum g' + 2).
  { set (f1 := fun k => if k =? i then length (ac_neighbors a) else length (nbrs g k)).
    unfold degsum in *.
    pose proof (@sum_over_seq_upd f1 (fun k => length (nbrs g k)) (vertex_count g) i Hi) as S1.
    pose proof (@sum_over_seq_upd (fun k => length (nbrs g' k)) f1 (vertex_count g) j Hj) as S2.
    assert (E1 : f1 i = length (ac_neighbors a)) by (unfold f1; rewrite Nat.eqb_refl; auto).
    assert (E2 : f1 j = length (nbrs g j)).
    { unfold f1. destruct (Nat.eqb_spec j i); [congruence|auto]. }
    specialize (S1 ltac:(intros k Hk; unfold f1; destruct (Nat.eqb_spec k i); [congruence|auto])).
    specialize (S2 ltac:(intros k Hk; unfold f1; rewrite Nk; destruct (k =? i);
      [auto|destruct (Nat.eqb_spec k j); [congruence|auto]])).
    cbv beta in S1, S2. rewrite Nb' in S2.
    apply Permutation_length in Pa, Pb. simpl in Pa, Pb.
    change (vertex_count g') with (vertex_count g). lia. }
  pose proof (simple_degsum W) as D.
  exists g'. split.
  { unfold remove_edge. rewrite (get_2_mut_ok p W Hi Hj N Ei Ej); simpl.
    rewrite Ep; simpl. unfold usub. destruct (Nat.leb_spec 1 (edge_count g)); [auto|lia]. }
  split; [|split; [reflexivity|split; [simpl; lia|split; [|split; [|split]]]]].
  - apply simple_intro; auto.
    + simpl. rewrite put_2_length; auto.
    + intros k c. simpl. rewrite nth_error_put_2 by lia.
      destruct (Nat.eqb_spec k i) as [->|].
      { injection 1 as <-. split; auto; congruence. }
      destruct (Nat.eqb_spec k j) as [->|].
      { injection 1 as <-. split; auto; congruence. }
      apply W.
    + intros x y Hxy. apply Ad in Hxy as [Hxy _]. apply (sg_range W _ _ Hxy).
    + intros x Hx. apply Ad in Hx as [Hx _]. apply (sg_irrefl W _ Hx).
    + intros x y Hxy. apply Ad. apply Ad in Hxy as (Hxy & H3 & H4).
      split; [apply W; auto|]. tauto.
    + simpl. lia.
  - apply (payloads_put_2 (g := g) (i := i) (j := j) (a := a) (b := b) (ci := ci) (cj := cj)); auto.
  - rewrite Na'; auto.
  - rewrite Nb'; auto.
  - intros k Ki Kj. rewrite Nk. apply Nat.eqb_neq in Ki, Kj. rewrite Ki, Kj; auto.
Qed.

Lemma removed_first_adj g g' i j :
  NoDup (nbrs g i) -> removed_first j (nbrs g i) (nbrs g' i) ->
  forall y, adj g' i y <-> adj g i y /\ y <> j.
Proof.
  intros N R y. apply removed_first_perm in R. unfold adj.
  pose proof (Permutation_NoDup R N) as ND. apply NoDup_cons_iff in ND as [ND _].
  rewrite R; simpl. intuition (subst; auto; congruence).
Qed.

End Facts.
