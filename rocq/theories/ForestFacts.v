(** The number of edges, of components, and the 2-core. *)
From Verif Require Import Base BaseFacts Containers ContainerSpec Graph GraphSpec GraphFacts.
From Verif Require Import GraphOps Search Traversal TraversalSpec TraversalFacts.
From Verif Require Import Components ComponentSpec ComponentFacts CoreFacts.
From Verif Require Import LoadSpec LoadFacts LoadSums EnsembleFacts ErMFacts MeasureFacts ConsistencyFacts.
From Coq Require Import Sorted.
Set Implicit Arguments.
Unset Strict Implicit.

Lemma filter_parts {X} (f : X -> bool) l :
  length (filter f l) + length (filter (fun x => negb (f x)) l) = length l.
Proof. induction l as [|a l IH]; simpl; auto. destruct (f a); simpl; lia. Qed.

Lemma filter_none {X} (f : X -> bool) l : (forall x, f x = false) -> filter f l = [].
Proof. intros H. induction l as [|a l IH]; simpl; auto. rewrite H. auto. Qed.

Section Forest.
Context {T A : Type} {C : AdjContainer T A} {L : AdjLaws C}.
Variables (g : graph A) (D : nat -> nat -> option nat).
Hypothesis W : simple_graph g.
Hypothesis HD : distances g D.

Local Notation n := (vertex_count g).

Definition near (s v : nat) : bool := match D s v with Some _ => true | None => false end.
Definition root (v : nat) : nat := match find (fun s => near s v) (seq 0 n) with Some s => s | None => v end.
Definition depth (v : nat) : nat := match D (root v) v with Some d => d | None => 0 end.
Definition parent (v : nat) : nat :=
  match find (fun u => S (depth u) =? depth v) (nbrs g v) with Some u => u | None => v end.
Definition up_edge (v : nat) : nat * nat := (Nat.min v (parent v), Nat.max v (parent v)).
Definition nonroots : list nat := filter (fun v => negb (root v =? v)) (seq 0 n).
Definition edges : list (nat * nat) := filter (fun ij => adjb g (fst ij) (snd ij)) (pairs_below n).

Lemma near_joined s v : s < n -> near s v = true <-> joined (adj g) s v.
Proof using W HD.
  intros Hs. unfold near. destruct (D s v) as [d|] eqn:E.
  - apply HD in E; auto. split; auto. intros _. exists d. apply E.
  - split; [discriminate|]. intros J. destruct (dist_exists W Hs J) as [d Hd]. apply HD in Hd; auto. congruence.
Qed.

Lemma find_seq_min (f : nat -> bool) m s : find f (seq 0 m) = Some s ->
  s < m /\ f s = true /\ forall t, t < s -> f t = false.
Proof using.
  enough (G : forall a, find f (seq a m) = Some s -> a <= s < a + m /\ f s = true /\ forall t, a <= t < s -> f t = false).
  { intros H. destruct (G 0 H) as (H1 & H2 & H3). split; [lia|]. split; [auto|]. intros t Ht. apply H3. lia. }
  induction m as [|m IH]; intros a H; simpl in H; [discriminate|].
  destruct (f a) eqn:E.
  - injection H as <-. split; [lia|]. split; [auto|]. intros t Ht. lia.
  - apply IH in H as (H1 & H2 & H3). split; [lia|]. split; [auto|].
    intros t Ht. destruct (Nat.eq_dec t a) as [->|]; auto. apply H3. lia.
Qed.

Lemma root_spec v : v < n -> root v < n /\ joined (adj g) (root v) v /\
  forall s, s < n -> joined (adj g) s v -> root v <= s.
Proof using W HD.
  intros Hv. unfold root. destruct (find (fun s => near s v) (seq 0 n)) as [s|] eqn:E.
  - apply find_seq_min in E as (Hs & Js & Mn). split; [auto|]. split; [apply near_joined; auto|].
    intros t Ht Jt. destruct (Nat.le_gt_cases s t) as [|K]; auto. apply Mn in K.
    apply near_joined in Jt; auto. congruence.
  - exfalso. assert (K : near v v = false) by (apply (find_none _ _ E), in_seq; lia).
    assert (near v v = true) by (apply near_joined; auto; apply joined_refl). congruence.
Qed.

Lemma root_joined u v : u < n -> v < n -> joined (adj g) u v -> root u = root v.
Proof using W HD.
  intros Hu Hv J. destruct (root_spec Hu) as (Ru & Ju & Mu). destruct (root_spec Hv) as (Rv & Jv & Mv).
  apply Nat.le_antisymm.
  - apply Mu; auto. eapply joined_trans; [apply Jv|]. apply joined_sym; auto. apply (sg_sym W).
  - apply Mv; auto. eapply joined_trans; eauto.
Qed.

Lemma depth_dist v : v < n -> is_dist (adj g) (root v) v (depth v).
Proof using W HD.
  intros Hv. destruct (root_spec Hv) as (Ru & Ju & _). unfold depth.
  apply (near_joined v Ru) in Ju. unfold near in Ju.
  destruct (D (root v) v) as [d|] eqn:E; [|discriminate]. apply HD; auto.
Qed.

Lemma parent_spec v : v < n -> root v <> v -> adj g v (parent v) /\ S (depth (parent v)) = depth v.
Proof using W HD.
  intros Hv N. unfold parent.
  destruct (find (fun u => S (depth u) =? depth v) (nbrs g v)) as [u|] eqn:E.
  - apply find_some in E as [H1 H2]. apply Nat.eqb_eq in H2. auto.
  - exfalso. destruct (depth_dist Hv) as [Wk Mn].
    remember (depth v) as d eqn:Ed. destruct d as [|d]; [apply walk_zero in Wk; auto|].
    inversion Wk as [|u w k Wu Huv]; subst.
    assert (Hu : u < n) by apply (sg_range W _ _ (sg_sym W _ _ Huv)).
    assert (Du : is_dist (adj g) (root v) u d).
    { split; auto. intros k Hk. assert (S d <= S k); [|lia]. apply Mn. econstructor; eauto. }
    assert (Er : root u = root v) by (apply root_joined; auto; exists 1; apply walk_one; auto).
    pose proof (depth_dist Hu) as Du'. rewrite Er in Du'.
    pose proof (is_dist_fun Du Du') as Ek.
    pose proof (find_none _ _ E u (sg_sym W _ _ Huv)) as K. cbn beta in K.
    rewrite <- Ek, Nat.eqb_refl in K. discriminate.
Qed.

Lemma in_nonroots v : In v nonroots <-> v < n /\ root v <> v.
Proof using. unfold nonroots. rewrite filter_In, in_seq, negb_true_iff, Nat.eqb_neq. intuition lia. Qed.

Lemma in_edges i j : In (i, j) edges <-> i < j /\ adj g i j.
Proof using W.
  unfold edges. rewrite filter_In, In_pairs_below. cbn [fst snd]. rewrite adjb_adj.
  split; [tauto|]. intros [H1 H2]. splits; auto. apply (sg_range W _ _ H2).
Qed.

Lemma edges_length : length edges = edge_count g.
Proof using W. rewrite (sg_count W). auto. Qed.

Lemma up_edges_incl : incl (map up_edge nonroots) edges.
Proof using W HD.
  intros e He. apply in_map_iff in He as (v & <- & Hv). apply in_nonroots in Hv as [Hv N].
  destruct (parent_spec Hv N) as [Ha _]. unfold up_edge. apply in_edges.
  assert (v <> parent v) by (intros E; rewrite <- E in Ha; apply (sg_irrefl W _ Ha)).
  destruct (Nat.le_gt_cases v (parent v)).
  - rewrite Nat.min_l, Nat.max_r by lia. split; auto. lia.
  - rewrite Nat.min_r, Nat.max_l by lia. split; [lia|]. apply (sg_sym W). auto.
Qed.

Lemma up_edges_NoDup : NoDup (map up_edge nonroots).
Proof using W HD.
  apply NoDup_map_in; [|apply NoDup_filter, seq_NoDup].
  intros u v Hu Hv E. apply in_nonroots in Hu as [Hu Nu]. apply in_nonroots in Hv as [Hv Nv].
  destruct (parent_spec Hu Nu) as [_ Du]. destruct (parent_spec Hv Nv) as [_ Dv].
  unfold up_edge in E. injection E as E1 E2.
  destruct (Nat.eq_dec u v) as [|N]; auto. exfalso.
  assert (parent u = v /\ parent v = u) as [P1 P2] by lia. rewrite P1 in Du. rewrite P2 in Dv. lia.
Qed.

Lemma roots_nonroots sizes : connected_components g = Done sizes ->
  length nonroots + length sizes = n.
Proof using W HD.
  intros E. destruct (sizes_numbers W) as (num & ids & sizes' & sugg & _ & E' & Es & L1 & L2).
  rewrite E' in E. injection E as ->.
  destruct (suggest_spec W) as (sugg' & Es' & So & Mn & Ev & Un). rewrite Es' in Es. injection Es as ->.
  assert (P : Permutation (filter (fun v => root v =? v) (seq 0 n)) sugg).
  { apply NoDup_Permutation.
    - apply NoDup_filter, seq_NoDup.
    - clear - So. induction So as [|a l So IH F]; constructor; auto.
      rewrite Forall_forall in F. intros H. apply F in H. lia.
    - intros v. rewrite filter_In, in_seq, Nat.eqb_eq. split.
      + intros [Hv Er]. destruct (Ev v) as (s & Hs & Js); [lia|].
        destruct (Mn s Hs) as [Hsn M]. specialize (M v Js).
        destruct (@root_spec v) as (_ & _ & Mv); [lia|]. specialize (Mv s Hsn Js).
        assert (s = v) by lia. subst; auto.
      + intros Hs. destruct (Mn v Hs) as [Hv M]. split; [lia|].
        destruct (root_spec Hv) as (Rv & Jv & Mv). apply Nat.le_antisymm.
        * apply Mv; auto. apply joined_refl.
        * apply M. apply joined_sym; auto. apply (sg_sym W). }
  rewrite L1, <- L2, <- (Permutation_length P). unfold nonroots.
  pose proof (filter_parts (fun v => root v =? v) (seq 0 n)) as K. rewrite seq_length in K. lia.
Qed.

Lemma edges_enough sizes : connected_components g = Done sizes -> n <= edge_count g + length sizes.
Proof using W HD.
  intros E. pose proof (roots_nonroots E). pose proof (NoDup_incl_length up_edges_NoDup up_edges_incl) as K.
  rewrite map_length, edges_length in K. lia.
Qed.

(** If there are no more edges than that, every edge leads to a parent. *)
Lemma only_up_edges sizes u v : connected_components g = Done sizes -> edge_count g + length sizes = n ->
  adj g u v -> parent u = v /\ depth u = S (depth v) \/ parent v = u /\ depth v = S (depth u).
Proof using W HD.
  intros E Eq H. pose proof (roots_nonroots E).
  assert (I : incl edges (map up_edge nonroots)).
  { apply NoDup_length_incl; [apply up_edges_NoDup| |apply up_edges_incl].
    rewrite map_length, edges_length. lia. }
  assert (K : exists w, In w nonroots /\ up_edge w = (Nat.min u v, Nat.max u v)).
  { assert (N : u <> v) by (intros ->; apply (sg_irrefl W _ H)).
    assert (He : In (Nat.min u v, Nat.max u v) edges).
    { apply in_edges. destruct (Nat.le_gt_cases u v).
      - rewrite Nat.min_l, Nat.max_r by lia. split; [lia|auto].
      - rewrite Nat.min_r, Nat.max_l by lia. split; [lia|]. apply (sg_sym W); auto. }
    apply I, in_map_iff in He as (w & Ew & Hw). eauto. }
  destruct K as (w & Hw & Ew). apply in_nonroots in Hw as [Hw N].
  destruct (parent_spec Hw N) as [_ Dw]. unfold up_edge in Ew. injection Ew as E1 E2.
  assert (K : w = u /\ parent w = v \/ w = v /\ parent w = u) by lia.
  destruct K as [[K1 K2]|[K1 K2]]; [left|right]; rewrite K1, K2 in *; auto.
Qed.

Lemma forest_core sizes v : connected_components g = Done sizes -> edge_count g + length sizes = n ->
  ~ in_core g 2 v.
Proof using W HD.
  intros E Eq (S & Dn & Sv).
  (* a vertex of [S] of the greatest depth *)
  assert (M : exists m, S m = true /\ forall w, S w = true -> depth w <= depth m).
  { assert (G : forall k, (forall w, S w = true -> depth w <= k) \/
        exists m, S m = true /\ k < depth m /\ forall w, S w = true -> depth w <= depth m).
    { intros k.
      remember (filter (fun w => S w && (k <? depth w)) (seq 0 n)) as l eqn:El.
      assert (Hl : forall w, In w l <-> w < n /\ S w = true /\ k < depth w).
      { intros w. subst l. rewrite filter_In, in_seq, andb_true_iff, Nat.ltb_lt. intuition lia. }
      destruct l as [|a l].
      - left. intros w Hw. destruct (Nat.le_gt_cases (depth w) k) as [|K]; auto.
        exfalso. apply (Hl w). splits; auto. apply (Dn w Hw).
      - right. clear El.
        assert (X : exists m, In m (a :: l) /\ forall w, In w (a :: l) -> depth w <= depth m).
        { clear. revert a. induction l as [|b l IH]; intros a.
          - exists a. split; [simpl; auto|]. intros w [<-|[]]. auto.
          - destruct (IH b) as (m & Hm & Mm). destruct (Nat.le_gt_cases (depth a) (depth m)).
            + exists m. split; [simpl; simpl in Hm; tauto|]. intros w [<-|Hw]; auto.
            + exists a. split; [simpl; auto|]. intros w [<-|Hw]; auto. specialize (Mm w Hw). lia. }
        destruct X as (m & Hm & Mm). exists m. apply Hl in Hm as (H1 & H2 & H3). splits; auto.
        intros w Hw. destruct (Nat.le_gt_cases (depth w) k); [lia|]. apply Mm, Hl. splits; auto. apply (Dn w Hw). }
    destruct (G (depth v)) as [H|(m & H1 & _ & H2)]; eauto. }
  destruct M as (m & Sm & Mm). destruct (Dn m Sm) as [_ H2]. unfold count in H2.
  pose proof (NoDup_filter S (sg_nodup W m)) as Nd.
  destruct (filter S (nbrs g m)) as [|a [|b l]] eqn:Ef; simpl in H2; try lia.
  assert (Ha : In a (filter S (nbrs g m))) by (rewrite Ef; simpl; auto).
  assert (Hb : In b (filter S (nbrs g m))) by (rewrite Ef; simpl; auto).
  apply filter_In in Ha as [Ha Sa]. apply filter_In in Hb as [Hb Sb].
  assert (Up : forall x, adj g m x -> S x = true -> x = parent m).
  { intros x Hx Sx. destruct (only_up_edges E Eq Hx) as [[K _]|[_ K]]; auto.
    specialize (Mm x Sx). lia. }
  apply NoDup_cons_iff in Nd as [Nd _]. apply Nd. rewrite (Up a Ha Sa), (Up b Hb Sb). simpl; auto.
Qed.
End Forest.

(** ** A graph with an empty 2-core is a forest *)

Section Peeling.
Context {T A : Type} {C : AdjContainer T A} {L : AdjLaws C}.
Variable g : graph A.
Hypothesis W : simple_graph g.
Hypothesis Empty : forall v, ~ in_core g 2 v.

Local Notation n := (vertex_count g).
Definition inb (l : list nat) (v : nat) : bool := existsb (Nat.eqb v) l.

Lemma inb_In l v : inb l v = true <-> In v l.
Proof using.
  unfold inb. rewrite existsb_exists. split.
  - intros (x & Hx & E). apply Nat.eqb_eq in E. congruence.
  - intros H. exists v. split; auto. apply Nat.eqb_refl.
Qed.

(** Every non-empty set of vertices has one with at most one neighbour in it. *)
Lemma thin_vertex l : l <> [] -> (forall v, In v l -> v < n) ->
  exists v, In v l /\ count (inb l) (nbrs g v) <= 1.
Proof using W Empty.
  intros Ne R.
  destruct (Exists_dec (fun v => count (inb l) (nbrs g v) <= 1) l) as [H|H].
  { intros v. apply le_dec. }
  - apply Exists_exists in H. auto.
  - exfalso. destruct l as [|a l]; [congruence|]. apply (Empty (v := a)).
    exists (inb (a :: l)). split; [|apply inb_In; simpl; auto].
    intros v Hv. apply inb_In in Hv. split; auto.
    destruct (Nat.le_gt_cases 2 (count (inb (a :: l)) (nbrs g v))) as [|K]; auto.
    exfalso. apply H, Exists_exists. exists v. split; auto. lia.
Qed.

(** An order in which each vertex has at most one later neighbour. *)
Inductive thin : list nat -> Prop :=
| thin_nil : thin []
| thin_cons v l : ~ In v l -> count (inb l) (nbrs g v) <= 1 -> thin l -> thin (v :: l).

Lemma thin_order k : forall l, length l = k -> NoDup l -> (forall v, In v l -> v < n) ->
  exists o, Permutation o l /\ thin o.
Proof using W Empty.
  induction k as [|k IH]; intros l Hl Nd R.
  - destruct l; [|discriminate]. exists []. split; auto. constructor.
  - destruct (@thin_vertex l) as (v & Hv & Cv); auto. { intros ->. discriminate. }
    apply in_split in Hv as (l1 & l2 & ->).
    assert (P : Permutation (l1 ++ v :: l2) (v :: l1 ++ l2)) by (symmetry; apply Permutation_middle).
    pose proof (Permutation_NoDup P Nd) as Nd'. apply NoDup_cons_iff in Nd' as [Nv Nd'].
    destruct (IH (l1 ++ l2)) as (o & Po & To); auto.
    { rewrite app_length in *. simpl in Hl. lia. }
    { intros w Hw. apply R. apply (Permutation_in _ (Permutation_sym P)). simpl; auto. }
    exists (v :: o). split.
    + rewrite P. constructor. auto.
    + constructor; auto.
      * intros H. apply Nv. apply (Permutation_in _ Po H).
      * eapply Nat.le_trans; [|apply Cv]. apply count_le. intros x _ Hx. apply inb_In in Hx. apply inb_In.
        apply (Permutation_in _ (Permutation_sym P)). simpl. right. apply (Permutation_in _ Po Hx).
Qed.

(** Later neighbours, counted over the whole order. *)
Fixpoint later (o : list nat) : nat :=
  match o with
  | [] => 0
  | v :: l => count (inb l) (nbrs g v) + later l
  end.

Fixpoint ends (o : list nat) : list nat :=
  match o with
  | [] => []
  | v :: l => if count (inb l) (nbrs g v) =? 0 then v :: ends l else ends l
  end.

Lemma thin_count o : thin o -> later o + length (ends o) = length o.
Proof using.
  induction 1 as [|v l Nv Hc To IH]; simpl; auto.
  destruct (Nat.eqb_spec (count (inb l) (nbrs g v)) 0); simpl; lia.
Qed.

(** The edges within the vertices of the order. *)
Definition inner (o : list nat) : list (nat * nat) :=
  filter (fun ij => adjb g (fst ij) (snd ij) && inb o (fst ij) && inb o (snd ij)) (pairs_below n).

Lemma inner_later o : NoDup o -> (forall v, In v o -> v < n) -> length (inner o) <= later o.
Proof using W.
  induction o as [|v l IH]; intros Nd R.
  { unfold inner. rewrite filter_none; auto. intros [i j]. simpl. rewrite andb_false_r. auto. }
  apply NoDup_cons_iff in Nd as [Nv Nd]. cbn [later].
  eapply Nat.le_trans; [|apply Nat.add_le_mono_l, IH; auto; intros; apply R; simpl; auto].
  set (f := fun w => (Nat.min v w, Nat.max v w)).
  unfold count. rewrite <- (map_length f (filter (inb l) (nbrs g v))), <- app_length.
  apply NoDup_incl_length; [apply NoDup_filter, NoDup_pairs_below|].
  intros [i j] He. unfold inner in He. apply filter_In in He as [Hp He]. cbn [fst snd] in He.
  apply andb_true_iff in He as [He Hj]. apply andb_true_iff in He as [He Hi].
  apply adjb_adj in He. apply inb_In in Hi, Hj. apply In_pairs_below in Hp as Hij.
  apply in_app_iff. destruct Hi as [->|Hi]; [|destruct Hj as [->|Hj]].
  - left. apply in_map_iff. exists j. split; [unfold f; f_equal; lia|].
    apply filter_In. split; auto. apply inb_In. destruct Hj as [->|]; auto. lia.
  - left. apply in_map_iff. exists i. split; [unfold f; f_equal; lia|].
    apply filter_In. split; [apply (sg_sym W); auto|apply inb_In; auto].
  - right. unfold inner. apply filter_In. split; auto. cbn [fst snd].
    rewrite (proj2 (adjb_adj _ _ _) He), (proj2 (inb_In _ _) Hi), (proj2 (inb_In _ _) Hj). auto.
Qed.

(** From every vertex of the order one gets to an end. *)
Lemma to_end o v : thin o -> In v o -> exists e, In e (ends o) /\ joined (adj g) v e.
Proof using W.
  intros To. revert v. induction To as [|v l Nv Hc To IH]; intros w Hw; [destruct Hw|].
  destruct Hw as [<-|Hw].
  - cbn [ends]. destruct (Nat.eqb_spec (count (inb l) (nbrs g v)) 0) as [Z|Z].
    + exists v. split; [simpl; auto|apply joined_refl].
    + unfold count in Z. destruct (filter (inb l) (nbrs g v)) as [|u r] eqn:Ef; [simpl in Z; lia|].
      assert (Hu : In u (filter (inb l) (nbrs g v))) by (rewrite Ef; simpl; auto).
      apply filter_In in Hu as [Hu Iu]. apply inb_In in Iu. destruct (IH u Iu) as (e & He & Je).
      exists e. split; auto. eapply joined_trans; [|apply Je]. exists 1. apply walk_one. auto.
  - destruct (IH w Hw) as (e & He & Je). exists e. split; auto. cbn [ends].
    destruct (_ =? 0); simpl; auto.
Qed.

Lemma ends_incl o e : In e (ends o) -> In e o.
Proof using.
  induction o as [|v l IH]; simpl; auto. destruct (_ =? 0); simpl; intuition.
Qed.

Lemma forest_edges sizes : connected_components g = Done sizes -> edge_count g + length sizes <= n.
Proof using W Empty.
  intros E. destruct (@thin_order n (seq 0 n)) as (o & Po & To).
  { apply seq_length. } { apply seq_NoDup. } { intros v Hv. apply in_seq in Hv. lia. }
  assert (No : NoDup o) by (eapply Permutation_NoDup; [apply Permutation_sym, Po|apply seq_NoDup]).
  assert (Ro : forall v, In v o <-> v < n).
  { intros v. split; intros Hv.
    - apply (Permutation_in _ Po), in_seq in Hv. lia.
    - apply (Permutation_in _ (Permutation_sym Po)), in_seq. lia. }
  assert (He : edge_count g <= later o).
  { rewrite (sg_count W). eapply Nat.le_trans; [|apply inner_later; auto; intros; apply Ro; auto].
    unfold number_of_edges, count, inner. erewrite filter_ext_in; [apply le_n|].
    intros [i j] Hp. apply In_pairs_below in Hp. cbn [fst snd].
    rewrite (proj2 (inb_In o i)), (proj2 (inb_In o j)) by (apply Ro; lia). rewrite !andb_true_r. auto. }
  assert (Hs : length sizes <= length (ends o)).
  { destruct (components_spec W) as (z & p & E' & _ & Ps & Pc & Ne & K).
    rewrite E' in E. injection E as ->. rewrite (Permutation_length Ps), map_length.
    assert (Np : NoDup (concat p)) by (eapply Permutation_NoDup; [apply Permutation_sym, Pc|apply seq_NoDup]).
    assert (Rp : forall c x, In c p -> In x c -> x < n).
    { intros c x Hc Hx. assert (Hi : In x (concat p)) by (apply in_concat; eauto).
      apply (Permutation_in _ Pc), in_seq in Hi. lia. }
    assert (Q : forall c, In c p -> exists e, In e (ends o) /\ In e c).
    { intros c Hc. specialize (Ne c Hc). destruct c as [|u c]; [congruence|].
      assert (Hu : u < n) by (eapply Rp; [eauto|simpl; auto]).
      destruct (@to_end o u To) as (e & He1 & Je); [apply Ro; auto|].
      exists e. split; auto. apply (K (u :: c) u e); simpl; auto. apply Ro, ends_incl. auto. }
    clear - Np Q. revert Np Q. generalize (ends o) as es.
    induction p as [|c p IH]; intros es Np Q; simpl; [lia|].
    cbn [concat] in Np. apply NoDup_app_iff in Np as (_ & Np & Dj).
    destruct (Q c) as (e & He & Hc); [simpl; auto|].
    apply in_split in He as (e1 & e2 & ->). rewrite app_length. simpl. rewrite Nat.add_succ_r.
    apply le_n_S. rewrite <- app_length. apply IH; auto.
    intros d Hd. destruct (Q d) as (x & Hx & Hxd); [simpl; auto|]. exists x. split; auto.
    apply in_app_iff in Hx. apply in_app_iff. simpl in Hx. destruct Hx as [Hx|[<-|Hx]]; auto.
    exfalso. apply (Dj e Hc). apply in_concat. eauto. }
  pose proof (thin_count To) as Tc. rewrite (Permutation_length Po), seq_length in Tc. lia.
Qed.
End Peeling.
