(** Facts about the remaining operations on graphs: clearing, sorting,
    shuffling, payloads, histories, adding lists of edges, conversions. *)
From Verif Require Import Base BaseFacts Sums Containers ContainerSpec ContainerFacts Graph GraphSpec GraphFacts.
From Coq Require Import Sorted.
Set Implicit Arguments.
Unset Strict Implicit.

Lemma mapM_Forall2 {X Y} (f : X -> outcome Y) (R : X -> Y -> Prop) l :
  (forall x, In x l -> exists y, f x = Done y /\ R x y) ->
  exists l', mapM f l = Done l' /\ Forall2 R l l'.
Proof.
  induction l as [|x l IH]; simpl; intros H.
  - exists []; auto.
  - destruct (H x) as (y & E & Ry); auto. destruct IH as (l' & E' & F); auto.
    exists (y :: l'). rewrite E; simpl. rewrite E'; simpl. auto.
Qed.

Lemma Forall2_nth {X Y} (R : X -> Y -> Prop) l l' :
  Forall2 R l l' -> forall i,
  match nth_error l i, nth_error l' i with
  | Some x, Some y => R x y
  | None, None => True
  | _, _ => False
  end.
Proof.
  induction 1; intros [|i]; simpl; auto. apply IHForall2.
Qed.

Section Ops.
Context {T A : Type} {C : AdjContainer T A} {L : AdjLaws C}.
Implicit Types g : graph A.

(** [c'] is [c] with a permuted neighbour list. *)
Definition reordered (c c' : A) : Prop :=
  ac_wf c' /\ same_vertex c c' /\ Permutation (ac_neighbors c) (ac_neighbors c').

Lemma reorder_spec g vs' :
  simple_graph g ->
  (forall i, match nth_error (vertices g) i, nth_error vs' i with
             | Some c, Some c' => reordered c c'
             | None, None => True
             | _, _ => False
             end) ->
  let g' := mk_graph (next_id g) (edge_count g) vs' in
  simple_graph g' /\ same_topology g g'.
Proof.
  intros W H g'.
  assert (P : forall i, Permutation (nbrs g i) (nbrs g' i)).
  { intros i. specialize (H i). unfold nbrs; simpl.
    destruct (nth_error (vertices g) i), (nth_error vs' i); try contradiction; auto.
    apply H. }
  assert (Le : length vs' = length (vertices g)).
  { apply Nat.le_antisymm; apply nth_error_None.
    - specialize (H (length (vertices g))).
      rewrite (proj2 (nth_error_None _ _) (le_n _)) in H.
      destruct (nth_error vs' _); [contradiction|auto].
    - specialize (H (length vs')).
      rewrite (proj2 (nth_error_None vs' _) (le_n _)) in H.
      destruct (nth_error (vertices g) _); [contradiction|auto]. }
  split; [|split; [|split; [|split]]]; auto.
  - apply (simple_transfer (g := g)); auto.
    + simpl. rewrite Le. apply W.
    + intros i c' E. simpl in E. specialize (H i). rewrite E in H.
      destruct (nth_error (vertices g) i) as [c|] eqn:Ec; [|contradiction].
      destruct H as (? & [Hi _] & _). split; auto. rewrite Hi.
      apply (sg_cont W _ Ec).
  - unfold payloads; simpl. apply list_ext. intros i.
    rewrite !nth_error_map. specialize (H i).
    destruct (nth_error (vertices g) i), (nth_error vs' i); try contradiction; auto.
    destruct H as (_ & [_ Hc] & _). simpl; congruence.
Qed.

Lemma sort_adj_spec g :
  simple_graph g ->
  exists g', sort_adj g = Done g' /\ simple_graph g' /\ same_topology g g' /\
             forall i, StronglySorted lt (nbrs g' i).
Proof.
  intros W. unfold sort_adj.
  destruct (@mapM_Forall2 _ _ (ac_sort_adj (A := A))
              (fun c c' => reordered c c' /\ StronglySorted le (ac_neighbors c'))
              (vertices g)) as (vs' & E & F).
  { intros c Hc. apply In_nth_error in Hc as [i Ei].
    destruct (sg_cont W _ Ei) as [Wc _].
    destruct (law_sort c Wc) as (c' & Es & W' & S' & P' & O').
    exists c'. unfold reordered; auto. }
  rewrite E; simpl. eexists; split; [reflexivity|].
  pose proof (Forall2_nth F) as F'.
  destruct (@reorder_spec g vs' W) as [W' S'].
  { intros i. specialize (F' i).
    destruct (nth_error (vertices g) i), (nth_error vs' i); tauto. }
  splits; auto. intros i.
  assert (Sl : StronglySorted le (nbrs (mk_graph (next_id g) (edge_count g) vs') i)).
  { specialize (F' i). unfold nbrs; simpl.
    destruct (nth_error (vertices g) i), (nth_error vs' i); try tauto; constructor. }
  pose proof (sg_nodup W' i) as N.
  induction Sl as [|a l Sl IH Fa]; [constructor|]. inversion_clear N.
  constructor; auto. rewrite Forall_forall in *. intros x Hx.
  specialize (Fa x Hx). assert (a <> x) by (intros ->; auto). lia.
Qed.

Lemma shuffle_adjs_spec g ps :
  simple_graph g ->
  (forall i, i < vertex_count g -> Permutation (ps i) (seq 0 (length (nbrs g i)))) ->
  exists g', shuffle_adjs g ps = Done g' /\ simple_graph g' /\ same_topology g g'.
Proof.
  intros W Hp. unfold shuffle_adjs.
  destruct (@mapM_Forall2 _ _ (fun ic => ac_shuffle_adj (ps (fst ic)) (snd ic))
              (fun ic c' => reordered (snd ic) c') (enumerate (vertices g))) as (vs' & E & F).
  { intros [k c] Hc. apply In_nth_error in Hc as [i Ei].
    rewrite nth_error_enumerate in Ei.
    destruct (nth_error (vertices g) i) as [c0|] eqn:E0; [|discriminate].
    simpl in Ei. injection Ei as <- ->.
    destruct (sg_cont W _ E0) as [Wc _]. simpl.
    destruct (@law_shuffle _ _ _ _ (ps i) c Wc) as (c' & Es & W' & S' & P').
    { rewrite <- (nbrs_nth E0). apply Hp. rewrite <- (sg_len W). apply (nth_error_lt _ _ E0). }
    exists c'. unfold reordered; auto. }
  rewrite E; simpl. eexists; split; [reflexivity|].
  pose proof (Forall2_nth F) as F'.
  apply reorder_spec; auto.
  intros i. specialize (F' i). rewrite nth_error_enumerate in F'.
  destruct (nth_error (vertices g) i), (nth_error vs' i); tauto.
Qed.

Lemma shuffle_adj_spec g p i :
  simple_graph g -> i < vertex_count g ->
  Permutation p (seq 0 (length (nbrs g i))) ->
  exists g', shuffle_adj g p i = Done g' /\ simple_graph g' /\ same_topology g g'.
Proof.
  intros W Hi Hp. unfold shuffle_adj.
  destruct (container_lt W Hi) as (c & Ec & Wc & Ic & Nc).
  rewrite (vget_done _ _ Ec); simpl. rewrite <- Nc in Hp.
  destruct (@law_shuffle _ _ _ _ p c Wc Hp) as (c' & Es & W' & S' & P').
  rewrite Es; simpl. eexists; split; [reflexivity|].
  apply reorder_spec; auto. intros k.
  rewrite nth_error_upd. rewrite <- (sg_len W) in Hi. apply Nat.ltb_lt in Hi. rewrite Hi.
  destruct (Nat.eqb_spec i k) as [<-|]; simpl.
  - rewrite Ec. unfold reordered; auto.
  - destruct (nth_error (vertices g) k) as [ck|] eqn:E; auto.
    destruct (sg_cont W _ E). unfold reordered, same_vertex; auto.
Qed.

Lemma shuffle_adj_out g p i : simple_graph g -> vertex_count g <= i -> shuffle_adj g p i = Panic.
Proof.
  intros W H. unfold shuffle_adj, vget. rewrite <- (sg_len W) in H.
  apply nth_error_None in H. rewrite H; auto.
Qed.

Lemma no_edges_nbrs g i : simple_graph g -> edge_count g = 0 -> nbrs g i = [].
Proof.
  intros W E. pose proof (simple_degsum W) as D. rewrite E in D. unfold degsum in D.
  destruct (Nat.lt_ge_cases i (vertex_count g)) as [H|H].
  - destruct (nbrs g i) as [|x l] eqn:N; auto. exfalso.
    assert (Hi : In i (seq 0 (vertex_count g))) by (apply in_seq; lia).
    apply in_split in Hi as (l1 & l2 & S). rewrite S in D.
    rewrite sum_over_app, sum_over_cons, N in D. simpl in D. lia.
  - apply nbrs_out. rewrite (sg_len W); auto.
Qed.

Lemma clear_edges_spec g :
  simple_graph g ->
  simple_graph (clear_edges g) /\ vertex_count (clear_edges g) = vertex_count g /\
  edge_count (clear_edges g) = 0 /\ payloads (clear_edges g) = payloads g /\
  forall i, nbrs (clear_edges g) i = [].
Proof.
  intros W. unfold clear_edges. destruct (Nat.eqb_spec (edge_count g) 0) as [E|E].
  - splits; auto. intros; apply no_edges_nbrs; auto.
  - assert (K : forall i c, nth_error (map ac_clear_edges (vertices g)) i = Some c ->
       ac_wf c /\ ac_id c = i /\ ac_neighbors c = []).
    { intros i c H. rewrite nth_error_map in H.
      destruct (nth_error (vertices g) i) as [c0|] eqn:E0; [|discriminate].
      simpl in H. injection H as <-. destruct (law_clear c0) as (? & [Hi _] & ?).
      splits; auto. rewrite Hi. apply (sg_cont W _ E0). }
    splits; auto.
    + apply simple_of_empty; auto. simpl. rewrite map_length. apply W.
    + unfold payloads; simpl. rewrite map_map. apply map_ext.
      intros c. destruct (law_clear c) as (_ & [_ ?] & _); auto.
    + intros i. unfold nbrs; simpl. destruct (nth_error _ i) eqn:H; auto. apply K in H; tauto.
Qed.

Lemma at_mut_set_spec g i t :
  simple_graph g -> i < vertex_count g ->
  exists g', at_mut_set g i t = Done g' /\ simple_graph g' /\
    vertex_count g' = vertex_count g /\ edge_count g' = edge_count g /\
    payloads g' = upd (payloads g) i t /\ forall k, nbrs g' k = nbrs g k.
Proof.
  intros W Hi. destruct (container_lt W Hi) as (c & Ec & Wc & Ic & Nc).
  unfold at_mut_set, container. rewrite (vget_done _ _ Ec); simpl.
  destruct (law_set_contained c t Wc) as (W' & N' & I' & C').
  eexists; split; [reflexivity|].
  set (g' := mk_graph _ _ _).
  assert (Hl : i <? length (vertices g) = true) by (apply Nat.ltb_lt; rewrite (sg_len W); auto).
  assert (K : forall k, nbrs g' k = nbrs g k).
  { intros k. unfold nbrs; simpl. rewrite nth_error_upd, Hl.
    destruct (Nat.eqb_spec i k) as [<-|]; simpl; auto. rewrite Ec; auto. }
  splits; auto.
  - apply (simple_transfer (g := g)); auto.
    + simpl. rewrite upd_length. apply W.
    + intros k x. simpl. rewrite nth_error_upd, Hl.
      destruct (Nat.eqb_spec i k) as [<-|]; simpl; [|apply W].
      injection 1 as <-. split; congruence.
    + intros k. rewrite K; auto.
  - unfold payloads; simpl. rewrite map_upd, C'; auto.
Qed.

Lemma at_mut_set_out g i t : simple_graph g -> vertex_count g <= i -> at_mut_set g i t = Panic.
Proof.
  intros W H. unfold at_mut_set, container, vget. rewrite <- (sg_len W) in H.
  apply nth_error_None in H. rewrite H; auto.
Qed.

Lemma at_spec g i : simple_graph g -> at_ g i = match nth_error (payloads g) i with
  | Some t => Done t | None => Panic end.
Proof.
  intros W. unfold at_, container, vget, payloads. rewrite nth_error_map.
  destruct (nth_error (vertices g) i); auto.
Qed.

Lemma payloads_length g : simple_graph g -> length (payloads g) = vertex_count g.
Proof. intros W. unfold payloads. rewrite map_length. apply W. Qed.

(** *** Inverting calls that returned *)

Lemma add_edge_range p g i j x :
  simple_graph g -> add_edge p g i j = Done x ->
  i < vertex_count g /\ j < vertex_count g /\ i <> j.
Proof.
  intros W E. unfold add_edge in E. apply bind_done in E as ([a b] & E & _).
  destruct (Nat.lt_ge_cases i (vertex_count g)) as [H1|H1];
  destruct (Nat.lt_ge_cases j (vertex_count g)) as [H2|H2];
  destruct (Nat.eq_dec i j) as [H3|H3]; auto; exfalso;
  (destruct p;
   [rewrite get_2_mut_bad_debug in E by (intros (? & ? & ?); lia); discriminate
   |rewrite get_2_mut_bad_release in E by (auto; intros (? & ? & ?); lia); discriminate]).
Qed.

Lemma remove_edge_range p g i j x :
  simple_graph g -> remove_edge p g i j = Done x ->
  i < vertex_count g /\ j < vertex_count g /\ i <> j.
Proof.
  intros W E. unfold remove_edge in E. apply bind_done in E as ([a b] & E & _).
  destruct (Nat.lt_ge_cases i (vertex_count g)) as [H1|H1];
  destruct (Nat.lt_ge_cases j (vertex_count g)) as [H2|H2];
  destruct (Nat.eq_dec i j) as [H3|H3]; auto; exfalso;
  (destruct p;
   [rewrite get_2_mut_bad_debug in E by (intros (? & ? & ?); lia); discriminate
   |rewrite get_2_mut_bad_release in E by (auto; intros (? & ? & ?); lia); discriminate]).
Qed.

Lemma add_edge_simple p g i j r g' :
  simple_graph g -> add_edge p g i j = Done (r, g') ->
  simple_graph g' /\ vertex_count g' = vertex_count g /\ payloads g' = payloads g.
Proof.
  intros W E. destruct (add_edge_range W E) as (Hi & Hj & N).
  destruct (adj_dec g i j) as [H|H].
  - rewrite (add_edge_present p W H) in E. injection E as <- <-; auto.
  - destruct (add_edge_absent p W Hi Hj N H) as (g1 & E1 & W1 & V1 & _ & P1 & _).
    rewrite E1 in E. injection E as <- <-; auto.
Qed.

Lemma remove_edge_simple p g i j r g' :
  simple_graph g -> remove_edge p g i j = Done (r, g') ->
  simple_graph g' /\ vertex_count g' = vertex_count g /\ payloads g' = payloads g.
Proof.
  intros W E. destruct (remove_edge_range W E) as (Hi & Hj & N).
  destruct (adj_dec g i j) as [H|H].
  - destruct (remove_edge_present p W H) as (g1 & E1 & W1 & V1 & _ & P1 & _).
    rewrite E1 in E. injection E as <- <-; auto.
  - rewrite (remove_edge_absent p W Hi Hj N H) in E. injection E as <- <-; auto.
Qed.

(** *** Edge sets *)

Definition is_pair (i j x y : nat) : Prop := (x = i /\ y = j) \/ (x = j /\ y = i).

Lemma add_edge_ok p g i j g' :
  simple_graph g -> add_edge p g i j = Done (Ok tt, g') ->
  ~ adj g i j /\ simple_graph g' /\ vertex_count g' = vertex_count g /\
  edge_count g' = edge_count g + 1 /\ payloads g' = payloads g /\
  (forall x y, adj g' x y <-> adj g x y \/ is_pair i j x y).
Proof.
  intros W E. destruct (add_edge_range W E) as (Hi & Hj & N).
  destruct (adj_dec g i j) as [H|H].
  - rewrite (add_edge_present p W H) in E. discriminate.
  - destruct (add_edge_absent p W Hi Hj N H) as (g1 & E1 & W1 & V1 & C1 & P1 & N1).
    rewrite E1 in E. injection E as <-. splits; auto.
    intros x y. unfold adj, is_pair. rewrite N1.
    destruct (Nat.eqb_spec x i), (Nat.eqb_spec x j); subst;
      rewrite ?in_app_iff; simpl; try tauto; intuition (subst; auto; congruence).
Qed.

Lemma remove_edge_ok p g i j g' :
  simple_graph g -> remove_edge p g i j = Done (Ok tt, g') ->
  adj g i j /\ simple_graph g' /\ vertex_count g' = vertex_count g /\
  edge_count g = edge_count g' + 1 /\ payloads g' = payloads g /\
  (forall x y, adj g' x y <-> adj g x y /\ ~ is_pair i j x y).
Proof.
  intros W E. destruct (remove_edge_range W E) as (Hi & Hj & N).
  destruct (adj_dec g i j) as [H|H].
  - destruct (remove_edge_present p W H) as (g1 & E1 & W1 & V1 & C1 & P1 & R1 & R2 & N1).
    rewrite E1 in E. injection E as <-. splits; auto.
    intros x y. unfold is_pair.
    destruct (Nat.eq_dec x i) as [->|Ni].
    + rewrite (removed_first_adj (sg_nodup W i) R1). intuition (subst; auto; congruence).
    + destruct (Nat.eq_dec x j) as [->|Nj].
      * rewrite (removed_first_adj (sg_nodup W j) R2). intuition (subst; auto; congruence).
      * unfold adj. rewrite N1 by auto. tauto.
  - rewrite (remove_edge_absent p W Hi Hj N H) in E. discriminate.
Qed.

(** *** Adding then removing *)

Lemma add_remove_cancel p g i j g' :
  simple_graph g -> add_edge p g i j = Done (Ok tt, g') ->
  remove_edge p g' i j = Done (Ok tt, g).
Proof.
  intros W E. destruct (add_edge_range W E) as (Hi & Hj & N).
  destruct (add_edge_ok W E) as (H & W' & V' & C' & _).
  destruct (container_lt W Hi) as (ci & Ei & Wi & Ii & Ni).
  destruct (container_lt W Hj) as (cj & Ej & Wj & Ij & Nj).
  unfold add_edge in E. rewrite (get_2_mut_ok p W Hi Hj N Ei Ej) in E; simpl in E.
  apply bind_done in E as (r & Ep & E).
  destruct r as [[a b]|e]; [|discriminate]. injection E as <-.
  set (g' := mk_graph (next_id g) (edge_count g + 1) (put_2 (vertices g) i j a b)) in *.
  assert (Li : i < length (vertices g)) by (rewrite (sg_len W); auto).
  assert (Lj : j < length (vertices g)) by (rewrite (sg_len W); auto).
  assert (Ea : nth_error (vertices g') i = Some a).
  { simpl. rewrite nth_error_put_2, Nat.eqb_refl by auto; auto. }
  assert (Eb : nth_error (vertices g') j = Some b).
  { simpl. rewrite nth_error_put_2 by auto.
    destruct (Nat.eqb_spec j i); [congruence|]. rewrite Nat.eqb_refl; auto. }
  unfold remove_edge. rewrite (get_2_mut_ok p W' Hi Hj N Ea Eb); simpl.
  rewrite (@law_push_remove _ _ _ _ ci cj a b Wi Wj); auto; simpl.
  - unfold usub. destruct (Nat.leb_spec 1 (edge_count g + 1)); [|lia]. simpl.
    do 2 f_equal. replace (edge_count g + 1 - 1) with (edge_count g) by lia.
    replace (put_2 (put_2 (vertices g) i j a b) i j ci cj) with (vertices g).
    { destruct g; auto. }
    apply list_ext. intros k. rewrite !nth_error_put_2; rewrite ?put_2_length; auto.
    destruct (Nat.eqb_spec k i) as [->|]; auto. destruct (Nat.eqb_spec k j) as [->|]; auto.
  - rewrite Ii, Nj. intros K. apply H. apply (sg_sym W _ _ K).
Qed.

Lemma removed_first_app_perm x l l' : removed_first x l l' -> Permutation l (l' ++ [x]).
Proof.
  intros R. rewrite (removed_first_perm R). apply Permutation_cons_append.
Qed.

Lemma remove_add_restores p g i j g' :
  simple_graph g -> remove_edge p g i j = Done (Ok tt, g') ->
  exists g'', add_edge p g' i j = Done (Ok tt, g'') /\ simple_graph g'' /\ same_topology g g''.
Proof.
  intros W E. destruct (remove_edge_range W E) as (Hi & Hj & N).
  destruct (remove_edge_ok W E) as (H & W' & V' & C' & P' & A').
  destruct (remove_edge_present p W H) as (g1 & E1 & _ & _ & _ & _ & R1 & R2 & N1).
  rewrite E1 in E; injection E as ->.
  assert (H' : ~ adj g' i j) by (rewrite A'; unfold is_pair; intuition).
  rewrite <- V' in Hi, Hj.
  destruct (add_edge_absent p W' Hi Hj N H') as (g2 & E2 & W2 & V2 & C2 & P2 & N2).
  exists g2. splits; auto. unfold same_topology. splits; try congruence; try lia.
  intros k. rewrite N2. destruct (Nat.eqb_spec k i) as [->|Ni].
  - apply removed_first_app_perm; auto.
  - destruct (Nat.eqb_spec k j) as [->|Nj].
    + apply removed_first_app_perm; auto.
    + rewrite N1; auto.
Qed.

(** *** Lists of edges *)

Definition same_edge (a b : nat * nat) : Prop := is_pair (fst b) (snd b) (fst a) (snd a).

(** The pairs of [l] are pairwise different as unordered pairs and none is an
    edge of [g]. *)
Definition fresh g (l : list (nat * nat)) : Prop :=
  Forall (fun e => ~ adj g (fst e) (snd e)) l /\
  ForallOrdPairs (fun a b => ~ same_edge a b) l.

Definition pairs_ok n (l : list (nat * nat)) : Prop :=
  Forall (fun e => fst e < n /\ snd e < n /\ fst e <> snd e) l.

Lemma add_edges_spec p l : forall g,
  simple_graph g -> pairs_ok (vertex_count g) l ->
  exists r g', add_edges_try p g l = Done (r, g') /\ simple_graph g' /\
    vertex_count g' = vertex_count g /\ payloads g' = payloads g /\
    ((r = Ok tt /\ fresh g l /\ edge_count g' = edge_count g + length l /\
      forall x y, adj g' x y <-> adj g x y \/ In (x, y) l \/ In (y, x) l)
     \/ (r = Err EdgeExists /\ ~ fresh g l)).
Proof.
  induction l as [|[i j] l IH]; intros g W O; simpl.
  - exists (Ok tt), g. splits; auto. left. splits; auto.
    + split; constructor.
    + simpl; intros; tauto.
  - inversion_clear O as [|? ? (Hi & Hj & N) O']. simpl in Hi, Hj, N.
    destruct (adj_dec g i j) as [H|H].
    + rewrite (add_edge_present p W H); simpl. exists (Err EdgeExists), g.
      splits; auto. right. split; auto. intros [F _]. inversion_clear F; auto.
    + destruct (add_edge_absent p W Hi Hj N H) as (g1 & E1 & _).
      rewrite E1; simpl.
      destruct (add_edge_ok W E1) as (_ & W1 & V1 & C1 & P1 & A1).
      rewrite <- V1 in O'.
      destruct (IH g1 W1 O') as (r & g' & E & W' & V' & P' & D).
      exists r, g'. rewrite E. splits; auto; try congruence.
      assert (FE : fresh g1 l <-> fresh g ((i, j) :: l)).
      { unfold fresh. split.
        - intros [F1 F2]. split; constructor; auto.
          + revert F1. apply Forall_impl. intros e. rewrite A1. tauto.
          + rewrite Forall_forall in *. intros [u v] Huv. specialize (F1 _ Huv).
            simpl in F1. rewrite A1 in F1. unfold same_edge, is_pair in *; simpl.
            intuition.
        - intros [F1 F2]. inversion_clear F1 as [|? ? _ F1']. inversion_clear F2 as [|? ? F2a F2b].
          split; auto. rewrite Forall_forall in *. intros [u v] Huv.
          specialize (F1' _ Huv). specialize (F2a _ Huv). simpl in *.
          rewrite A1. unfold same_edge, is_pair in *; simpl in *. intuition. }
      destruct D as [(-> & F & C' & A')|(-> & F)].
      * left. splits; auto; [tauto|lia|].
        clear x; intros x y. rewrite A', A1. unfold is_pair. simpl.
        assert (Q : (i, j) = (x, y) <-> x = i /\ y = j) by (split; [injection 1; auto|intros [-> ->]; auto]).
        assert (Q' : (i, j) = (y, x) <-> x = j /\ y = i) by (split; [injection 1; auto|intros [-> ->]; auto]).
        tauto.
      * right. split; auto. tauto.
Qed.

(** *** Histories *)

(** One public editing call that returned. *)
Inductive edit (p : profile) (g : graph A) : graph A -> Prop :=
| edit_add i j r g' : add_edge p g i j = Done (r, g') -> edit p g g'
| edit_remove i j r g' : remove_edge p g i j = Done (r, g') -> edit p g g'
| edit_clear : edit p g (clear_edges g)
| edit_sort g' : sort_adj g = Done g' -> edit p g g'
| edit_shuffles ps g' :
    (forall i, i < vertex_count g -> Permutation (ps i) (seq 0 (length (nbrs g i)))) ->
    shuffle_adjs g ps = Done g' -> edit p g g'
| edit_shuffle q i g' :
    Permutation q (seq 0 (length (nbrs g i))) ->
    shuffle_adj g q i = Done g' -> edit p g g'
| edit_ring d r g' : init_ring p g d = Done (r, g') -> edit p g g'
| edit_set i t g' : at_mut_set g i t = Done g' -> edit p g g'.

Inductive history (p : profile) : graph A -> Prop :=
| history_new mk n : history p (graph_new mk n)
| history_from_vec l : history p (from_vec l)
| history_edit g g' : history p g -> edit p g g' -> history p g'.

Lemma add_edges_simple p l : forall g r g',
  simple_graph g -> add_edges_try p g l = Done (r, g') ->
  simple_graph g' /\ vertex_count g' = vertex_count g /\ payloads g' = payloads g.
Proof.
  induction l as [|[i j] l IH]; intros g r g' W E; simpl in E.
  - injection E as <- <-; auto.
  - apply bind_done in E as ([r1 g1] & E1 & E).
    destruct (add_edge_simple W E1) as (W1 & V1 & P1).
    destruct r1.
    + destruct (IH _ _ _ W1 E) as (? & ? & ?). splits; congruence.
    + injection E as <- <-. auto.
Qed.

Lemma init_ring_simple p g d r g' :
  simple_graph g -> init_ring p g d = Done (r, g') ->
  simple_graph g' /\ vertex_count g' = vertex_count g /\ payloads g' = payloads g.
Proof.
  intros W E. unfold init_ring in E.
  destruct (clear_edges_spec W) as (W0 & V0 & _ & P0 & _).
  destruct (add_edges_simple W0 E) as (? & ? & ?). splits; congruence.
Qed.

Lemma edit_simple p g g' : simple_graph g -> edit p g g' ->
  simple_graph g' /\ vertex_count g' = vertex_count g.
Proof.
  intros W [i j r g1 E|i j r g1 E| |g1 E|ps g1 Hp E|q i g1 Hq E|d r g1 E|i t g1 E].
  - destruct (add_edge_simple W E) as (? & ? & ?); auto.
  - destruct (remove_edge_simple W E) as (? & ? & ?); auto.
  - destruct (clear_edges_spec W) as (? & ? & ?); auto.
  - destruct (sort_adj_spec W) as (g2 & E2 & W2 & [S2 _] & _).
    rewrite E2 in E; injection E as <-; auto.
  - destruct (shuffle_adjs_spec W Hp) as (g2 & E2 & W2 & [S2 _]).
    rewrite E2 in E; injection E as <-; auto.
  - destruct (Nat.lt_ge_cases i (vertex_count g)) as [H|H].
    + destruct (shuffle_adj_spec W H Hq) as (g2 & E2 & W2 & [S2 _]).
      rewrite E2 in E; injection E as <-; auto.
    + rewrite shuffle_adj_out in E by auto. discriminate.
  - destruct (init_ring_simple W E) as (? & ? & ?); auto.
  - destruct (Nat.lt_ge_cases i (vertex_count g)) as [H|H].
    + destruct (at_mut_set_spec t W H) as (g2 & E2 & W2 & S2 & _).
      rewrite E2 in E; injection E as <-; auto.
    + rewrite at_mut_set_out in E by auto. discriminate.
Qed.

Lemma history_simple p g : history p g -> simple_graph g.
Proof.
  induction 1 as [mk n|l|g g' H IH E].
  - apply graph_new_spec.
  - apply from_vec_spec.
  - destruct (edit_simple IH E); auto.
Qed.

(** *** Degrees *)

Lemma degree_vec_spec g : degree_vec g = map (fun c => length (ac_neighbors c)) (vertices g).
Proof. apply map_ext. intros; apply law_degree. Qed.

Lemma vertices_nbrs g : map (fun c => ac_neighbors c) (vertices g) =
  map (nbrs g) (seq 0 (length (vertices g))).
Proof.
  apply list_ext. intros i. rewrite !nth_error_map, nth_error_seq.
  destruct (Nat.ltb_spec i (length (vertices g))) as [H|H]; simpl.
  - destruct (vget_lt _ H) as [c E]. rewrite E; simpl. rewrite (nbrs_nth E); auto.
  - apply nth_error_None in H. rewrite H; auto.
Qed.

Lemma degree_vec_nbrs g : simple_graph g ->
  degree_vec g = map (fun i => length (nbrs g i)) (seq 0 (vertex_count g)).
Proof.
  intros W. rewrite degree_vec_spec, <- (sg_len W).
  rewrite <- (map_map (nbrs g) (@length nat)), <- vertices_nbrs, map_map; auto.
Qed.

Lemma degree_sum g : simple_graph g -> list_sum (degree_vec g) = 2 * edge_count g.
Proof. intros W. rewrite degree_vec_nbrs by auto. apply (simple_degsum W). Qed.

Lemma degree_spec g i : simple_graph g ->
  degree g i = if i <? vertex_count g then Some (length (nbrs g i)) else None.
Proof.
  intros W. unfold degree. rewrite <- (sg_len W).
  destruct (Nat.ltb_spec i (length (vertices g))) as [H|H].
  - destruct (vget_lt _ H) as [c E]. rewrite E; simpl. rewrite law_degree, (nbrs_nth E); auto.
  - apply nth_error_None in H. rewrite H; auto.
Qed.

Lemma leaf_count_spec g : simple_graph g ->
  leaf_count g = count (fun i => length (nbrs g i) =? 1) (seq 0 (vertex_count g)).
Proof.
  intros W. unfold leaf_count, count. rewrite !length_filter_sum.
  transitivity (sum_over (fun d => b2n (d =? 1)) (degree_vec g)).
  - unfold degree_vec. rewrite sum_over_map. auto.
  - rewrite degree_vec_nbrs, sum_over_map by auto. auto.
Qed.

End Ops.

(** *** The histogram *)

Lemma hist_fold l : forall lo h,
  (forall v, In v l -> lo <= v < lo + length h) ->
  exists h', foldM (hist_count lo) h l = Done h' /\ length h' = length h /\
    forall k, nth k h' 0 = nth k h 0 + count (fun v => v =? lo + k) l.
Proof.
  induction l as [|v l IH]; intros lo h H; simpl.
  - exists h. splits; auto.
  - assert (Hv : lo <= v < lo + length h) by (apply H; simpl; auto).
    unfold hist_count at 1. destruct (Nat.ltb_spec v lo); [lia|].
    destruct (@vget_lt _ h (v - lo) ltac:(lia)) as [c Ec].
    rewrite (vget_done _ _ Ec); simpl. rewrite vset_done by lia; simpl.
    destruct (IH lo (upd h (v - lo) (c + 1))) as (h' & E' & L' & N').
    { rewrite upd_length. intros; apply H; simpl; auto. }
    exists h'. rewrite E', L', upd_length. splits; auto.
    intros k. rewrite N'. unfold count; simpl.
    assert (Nu : nth k (upd h (v - lo) (c + 1)) 0 = nth k h 0 + b2n (v =? lo + k)).
    { destruct (Nat.eqb_spec v (lo + k)) as [->|Ne]; simpl.
      - replace (lo + k - lo) with k in * by lia.
        rewrite (nth_error_nth _ _ _ (nth_error_upd_same h (i := k) (c + 1) ltac:(lia))).
        rewrite (nth_error_nth _ _ _ Ec); auto.
      - destruct (Nat.lt_ge_cases k (length h)) as [Hk|Hk].
        + destruct (vget_lt _ Hk) as [y Ey].
          assert (Ey' : nth_error (upd h (v - lo) (c + 1)) k = Some y)
            by (rewrite nth_error_upd_other; auto; lia).
          rewrite (nth_error_nth _ _ _ Ey), (nth_error_nth _ _ _ Ey'); auto.
        + rewrite !nth_overflow; rewrite ?upd_length; auto. }
    rewrite Nu. destruct (v =? lo + k); simpl; lia.
Qed.

Lemma min_max_fold l : forall lo0 hi0 lo hi, lo0 <= hi0 ->
  fold_left (fun '(lo, hi) v =>
    if v <? lo then (v, hi) else if hi <? v then (lo, v) else (lo, hi)) l (lo0, hi0) = (lo, hi) ->
  lo <= lo0 /\ hi0 <= hi /\ (forall v, In v l -> lo <= v <= hi) /\
  (lo = lo0 \/ In lo l) /\ (hi = hi0 \/ In hi l).
Proof.
  induction l as [|v l IH]; intros lo0 hi0 lo hi H0 E; simpl in E.
  - injection E as <- <-. splits; auto. intros v [].
  - assert (K : exists lo1 hi1, (if v <? lo0 then (v, hi0) else if hi0 <? v then (lo0, v) else (lo0, hi0))
       = (lo1, hi1) /\ lo1 <= lo0 /\ hi0 <= hi1 /\ lo1 <= v <= hi1 /\
       (lo1 = lo0 \/ lo1 = v) /\ (hi1 = hi0 \/ hi1 = v)).
    { destruct (Nat.ltb_spec v lo0); [exists v, hi0|
        destruct (Nat.ltb_spec hi0 v); [exists lo0, v|exists lo0, hi0]]; splits; auto; lia. }
    destruct K as (lo1 & hi1 & K & K1 & K2 & K3 & K4 & K5). rewrite K in E.
    apply IH in E as (E1 & E2 & E3 & E4 & E5); [|lia].
    splits; try lia.
    + intros x [<-|Hx]; [lia|auto].
    + simpl. intuition (subst; auto).
    + simpl. intuition (subst; auto).
Qed.

Lemma degree_histogram_spec {T A} {C : AdjContainer T A} {L : AdjLaws C} (g : graph A) :
  simple_graph g -> vertex_count g <> 0 ->
  exists lo h, degree_histogram g = Done (lo, h) /\ h <> [] /\
    (exists i, i < vertex_count g /\ length (nbrs g i) = lo) /\
    (exists i, i < vertex_count g /\ length (nbrs g i) = lo + length h - 1) /\
    (forall i, i < vertex_count g -> lo <= length (nbrs g i) < lo + length h) /\
    (forall d, lo <= d < lo + length h ->
       nth_error h (d - lo) =
       Some (count (fun i => length (nbrs g i) =? d) (seq 0 (vertex_count g)))).
Proof.
  intros W Hn. unfold degree_histogram.
  pose proof (degree_vec_nbrs W) as D.
  assert (M : forall v, In v (degree_vec g) <-> exists i, i < vertex_count g /\ length (nbrs g i) = v).
  { intros v. rewrite D, in_map_iff. split; intros (i & H1 & H2).
    - apply in_seq in H2. exists i; split; [lia|auto].
    - exists i; split; auto. apply in_seq; lia. }
  destruct (degree_vec g) as [|f r] eqn:Ed.
  { assert (Le : length (@nil nat) = vertex_count g) by (rewrite D, map_length, seq_length; auto).
    simpl in Le. lia. }
  match goal with |- context [fold_left ?F r (f, f)] => destruct (fold_left F r (f, f)) as [lo hi] eqn:Ef end.
  apply min_max_fold in Ef as (E1 & E2 & E3 & E4 & E5); auto.
  assert (Lr : length (repeat 0 (hi + 1 - lo)) = hi + 1 - lo) by apply repeat_length.
  assert (R : forall v, In v (f :: r) -> lo <= v <= hi).
  { intros v [<-|Hv]; [lia|auto]. }
  destruct (@hist_fold (f :: r) lo (repeat 0 (hi + 1 - lo))) as (h & Eh & Lh & Nh).
  { intros v Hv. specialize (R v Hv). lia. }
  rewrite Eh; simpl. exists lo, h. rewrite Lr in Lh. rewrite Lh.
  splits; auto.
  - intros ->. simpl in Lh. lia.
  - apply M. destruct E4; subst; simpl; auto.
  - replace (lo + (hi + 1 - lo) - 1) with hi by lia. apply M. destruct E5; subst; simpl; auto.
  - intros i Hi. assert (K : lo <= length (nbrs g i) <= hi) by (apply R, M; eauto). lia.
  - intros d Hd. rewrite (nth_error_nth' h 0) by lia. rewrite Nh. f_equal.
    replace (nth (d - lo) (repeat 0 (hi + 1 - lo)) 0) with 0
      by (symmetry; apply nth_repeat).
    replace (lo + (d - lo)) with d by lia. simpl. rewrite D.
    unfold count. rewrite !length_filter_sum, sum_over_map. auto.
Qed.

Lemma degree_histogram_empty {T A} {C : AdjContainer T A} {L : AdjLaws C} (g : graph A) :
  simple_graph g -> vertex_count g = 0 -> degree_histogram g = Panic.
Proof.
  intros W E. unfold degree_histogram. rewrite degree_vec_nbrs, E by auto. auto.
Qed.
