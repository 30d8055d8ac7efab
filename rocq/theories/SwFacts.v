(** Proofs about small-world graphs: single changes of one edge. *)
From Verif Require Import Base BaseFacts Sums Containers ContainerSpec ContainerFacts Graph GraphSpec GraphFacts GraphOps GraphBuild Rng RngFacts EnsembleFacts Sw SwSpec.
Set Implicit Arguments.
Unset Strict Implicit.

Lemma NoDup_map_eq {X Y} (f : X -> Y) l a b :
  NoDup (map f l) -> In a l -> In b l -> f a = f b -> a = b.
Proof.
  induction l as [|x l IH]; simpl; intros N Ha Hb E; [tauto|].
  apply NoDup_cons_iff in N as [Nx N]. destruct Ha as [->|Ha], Hb as [->|Hb]; auto.
  - destruct Nx. rewrite E. apply in_map; auto.
  - destruct Nx. rewrite <- E. apply in_map; auto.
Qed.

Lemma NoDup_map_pre {X Y} (f : X -> Y) l : NoDup (map f l) -> NoDup l.
Proof. apply NoDup_map_inv. Qed.

(** Position of an element by a key that is unique. *)
Lemma position_key l e : NoDup (map se_to l) -> In e l ->
  exists k, position (Nat.eqb (se_to e)) (map se_to l) = Some k /\ nth_error l k = Some e.
Proof.
  intros N H.
  destruct (position_exists (Nat.eqb (se_to e)) (map se_to l) (se_to e)) as [k E];
    [apply in_map; auto|apply Nat.eqb_refl|].
  exists k. split; auto. destruct (position_nth _ _ E) as (x & Hx & Q).
  apply Nat.eqb_eq in Q. subst x. rewrite nth_error_map in Hx.
  destruct (nth_error l k) as [e'|] eqn:K; [|discriminate]. injection Hx as Hx.
  f_equal. eapply NoDup_map_eq; eauto. eapply nth_error_In; eauto.
Qed.

Section Facts.
Context {T : Type}.
Implicit Types g h : graph (sw_container T).

Lemma nbrs_entries g i : nbrs g i = map se_to (entries g i).
Proof. unfold nbrs, entries. destruct (nth_error (vertices g) i); reflexivity. Qed.

Lemma adj_entries g i j : adj g i j <-> exists e, In e (entries g i) /\ se_to e = j.
Proof.
  unfold adj. rewrite nbrs_entries, in_map_iff. split; intros (e & H1 & H2); eauto.
Qed.

Lemma entry_adj g i e : In e (entries g i) -> adj g i (se_to e).
Proof. intros H. apply adj_entries; eauto. Qed.

Lemma rooted_adj g i j : rooted g i j -> adj g i j.
Proof. intros [o H]. apply (entry_adj H). Qed.

Lemma entry_unique g i e e' : simple_graph g -> In e (entries g i) -> In e' (entries g i) ->
  se_to e = se_to e' -> e = e'.
Proof.
  intros W H H' E. eapply NoDup_map_eq; eauto. rewrite <- nbrs_entries. apply W.
Qed.

Lemma entries_NoDup g i : simple_graph g -> NoDup (entries g i).
Proof. intros W. apply (NoDup_map_pre (f := se_to)). rewrite <- nbrs_entries. apply W. Qed.

(** Loose ends sit exactly opposite to roots. *)
Definition partner g : Prop :=
  forall i j, In (mk_se j None) (entries g i) <-> rooted g j i.

Definition sw_inv (n d : nat) g : Prop :=
  simple_graph g /\ vertex_count g = n /\ edge_count g = n * d /\
  (forall i, i < n -> Permutation (root_targets g i) (ring_targets n d i)) /\ partner g.

Lemma sw_ok_inv n d g : sw_ok n d g <-> sw_inv n d g.
Proof.
  split.
  - intros [W V E R O]. unfold sw_inv. splits; auto. intros i j. split.
    + intros H. pose proof (entry_adj H) as A. cbn [se_to] in A.
      destruct (O _ _ A) as [[[o Hr] _]|[Hr _]]; auto. exfalso.
      pose proof (entry_unique W H Hr eq_refl). discriminate.
    + intros Hr. pose proof (sg_sym W _ _ (rooted_adj Hr)) as A.
      apply adj_entries in A as ([t o] & He & E1). cbn [se_to] in E1. subst t.
      destruct o as [o|]; auto. exfalso.
      assert (rooted g i j) by (exists o; auto).
      destruct (O _ _ (rooted_adj Hr)) as [[_ N]|[_ N]]; auto.
  - intros (W & V & E & R & P). constructor; auto. intros i j A.
    apply adj_entries in A as ([t o] & He & E1). cbn [se_to] in E1. subst t.
    destruct o as [o|].
    + left. split; [exists o; auto|]. intros Hr. apply P in Hr.
      pose proof (entry_unique W He Hr eq_refl). discriminate.
    + right. split; [apply P; auto|]. intros [o Hr].
      pose proof (entry_unique W He Hr eq_refl). discriminate.
Qed.

(** ** Moving the end of one edge *)

(** [g'] is [g] with the edge rooted at [i0] moved from [i1] to [i2]. *)
Definition moved g (i0 i1 i2 o : nat) g' : Prop :=
  vertex_count g' = vertex_count g /\ edge_count g' = edge_count g /\
  payloads g' = payloads g /\ length (vertices g') = length (vertices g) /\
  (forall i c, nth_error (vertices g') i = Some c ->
     exists c0, nth_error (vertices g) i = Some c0 /\ sc_id c = sc_id c0) /\
  (exists rest, Permutation (entries g i0) (mk_se i1 (Some o) :: rest) /\
                Permutation (entries g' i0) (mk_se i2 (Some o) :: rest)) /\
  Permutation (entries g i1) (mk_se i0 None :: entries g' i1) /\
  Permutation (entries g' i2) (mk_se i0 None :: entries g i2) /\
  (forall x, x <> i0 -> x <> i1 -> x <> i2 -> entries g' x = entries g x).

Lemma moved_In g i0 i1 i2 o g' :
  simple_graph g -> i0 <> i1 -> i0 <> i2 -> i1 <> i2 -> moved g i0 i1 i2 o g' ->
  forall x e, In e (entries g' x) <->
    (In e (entries g x) /\ ~ (x = i0 /\ e = mk_se i1 (Some o)) /\ ~ (x = i1 /\ e = mk_se i0 None)) \/
    (x = i0 /\ e = mk_se i2 (Some o)) \/ (x = i2 /\ e = mk_se i0 None).
Proof.
  intros W N1 N2 N3 (_ & _ & _ & _ & _ & (rest & P0 & P0') & P1 & P2 & Px) x e.
  pose proof (entries_NoDup i0 W) as D0. rewrite P0 in D0. apply NoDup_cons_iff in D0 as [D0 _].
  pose proof (entries_NoDup i1 W) as D1. rewrite P1 in D1. apply NoDup_cons_iff in D1 as [D1 _].
  destruct (Nat.eq_dec x i0) as [->|X0]; [|destruct (Nat.eq_dec x i1) as [->|X1];
    [|destruct (Nat.eq_dec x i2) as [->|X2]]].
  - rewrite P0', P0. simpl. split.
    + intros [<-|H]; auto. left. splits; auto; try tauto. intros [_ ->]; auto.
    + intros [([H|H] & H1 & H2)|[[_ ->]|[? _]]]; auto; try congruence. destruct H1; auto.
  - rewrite P1. simpl. split.
    + intros H. left. splits; auto; try tauto. intros [_ ->]; auto.
    + intros [([H|H] & H1 & H2)|[[? _]|[? _]]]; auto; try congruence. destruct H2; auto.
  - rewrite P2. simpl. split.
    + intros [<-|H]; auto. left. splits; auto; intros [? _]; congruence.
    + intros [(H & _)|[[? _]|[_ ->]]]; auto; congruence.
  - rewrite Px by auto. split.
    + intros H. left. splits; auto; tauto.
    + intros [(H & _)|[[? _]|[? _]]]; auto; congruence.
Qed.

Lemma moved_rooted g i0 i1 i2 o g' :
  simple_graph g -> i0 <> i1 -> i0 <> i2 -> i1 <> i2 -> moved g i0 i1 i2 o g' ->
  forall x y, rooted g' x y <-> (rooted g x y /\ ~ (x = i0 /\ y = i1)) \/ (x = i0 /\ y = i2).
Proof.
  intros W N1 N2 N3 M x y. pose proof (moved_In W N1 N2 N3 M) as I. unfold rooted, rooted_from. split.
  - intros [o' H]. apply I in H as [(H & H1 & H2)|[[-> H]|[_ H]]]; try discriminate.
    + left. split; eauto. intros [-> ->]. apply H1. split; auto.
      destruct M as (_ & _ & _ & _ & _ & (rest & P0 & _) & _).
      apply (entry_unique W H); auto. rewrite P0. simpl; auto.
    + injection H as -> ->. auto.
  - intros [[[o' H] N]|[-> ->]].
    + exists o'. apply I. left. splits; auto.
      * intros [-> E]. injection E as -> ->. auto.
      * intros [_ E]. discriminate.
    + exists o. apply I. auto.
Qed.

Lemma moved_inv n d g i0 i1 i2 o g' :
  sw_inv n d g -> i0 <> i1 -> i0 <> i2 -> i1 <> i2 -> i0 < n -> i1 < n -> i2 < n ->
  ~ adj g i0 i2 -> moved g i0 i1 i2 o g' -> sw_inv n d g'.
Proof.
  intros (W & V & Ec & R & Pa) N1 N2 N3 H0 H1 H2 Na M.
  pose proof (moved_In W N1 N2 N3 M) as I. pose proof (moved_rooted W N1 N2 N3 M) as Ro.
  destruct M as (V' & E' & P' & L' & C' & (rest & P0 & P0') & P1 & P2 & Px).
  assert (Pa' : partner g').
  { intros x y. rewrite Ro, I. split.
    - intros [(H & H3 & H4)|[[_ H]|[-> H]]]; try discriminate.
      + left. split; [apply Pa; auto|]. intros [-> ->]. auto.
      + injection H as ->. auto.
    - intros [[H H3]|[-> ->]]; auto. left. splits.
      + apply Pa; auto.
      + intros [_ E]. discriminate.
      + intros [-> E]. injection E as ->. auto. }
  assert (Na' : ~ In i0 (nbrs g i2)) by (intros X; apply Na, (sg_sym W _ _ X)).
  assert (ND : forall x, NoDup (nbrs g' x)).
  { intros x. rewrite nbrs_entries. pose proof (sg_nodup W x) as D. rewrite nbrs_entries in D.
    destruct (Nat.eq_dec x i0) as [->|X0]; [|destruct (Nat.eq_dec x i1) as [->|X1];
      [|destruct (Nat.eq_dec x i2) as [->|X2]]].
    - rewrite P0'. rewrite P0 in D. cbn [map se_to] in *. apply NoDup_cons_iff in D as [_ D].
      constructor; auto. intros X. apply Na. unfold adj. rewrite nbrs_entries, P0. cbn [map]. simpl; auto.
    - rewrite P1 in D. cbn [map] in D. apply NoDup_cons_iff in D; tauto.
    - rewrite P2. cbn [map se_to]. constructor; auto. rewrite <- nbrs_entries. auto.
    - rewrite Px by auto. auto. }
  assert (Sy : forall x y, adj g' x y -> adj g' y x).
  { intros x y A. apply adj_entries in A as ([t q] & He & Eq). cbn [se_to] in Eq. subst t.
    destruct q as [q|].
    - assert (Hr : rooted g' x y) by (exists q; auto). apply Pa' in Hr. apply (entry_adj Hr).
    - apply Pa' in He. apply rooted_adj; auto. }
  unfold sw_inv. splits; auto; try congruence.
  - apply simple_intro; auto.
    + rewrite L', V'. apply W.
    + intros i c Hc. destruct (C' _ _ Hc) as (c0 & Hc0 & Ei).
      destruct (sg_cont W _ Hc0) as [_ Id]. split; [exact Logic.I|]. cbn in *. congruence.
    + intros x y A. apply adj_entries in A as (e & He & <-). rewrite V', V.
      apply I in He as [(He & _)|[[-> ->]|[-> ->]]]; cbn [se_to]; auto.
      rewrite <- V. apply (sg_range W _ _ (entry_adj He)).
    + intros x A. apply adj_entries in A as (e & He & Ex).
      apply I in He as [(He & _)|[[-> ->]|[-> ->]]]; cbn [se_to] in Ex; try congruence.
      pose proof (entry_adj He) as A. rewrite Ex in A. apply (sg_irrefl W _ A).
    + rewrite E', <- (simple_degsum W). unfold degsum. rewrite V', V.
      set (f := fun i => length (nbrs g i)). set (f' := fun i => length (nbrs g' i)).
      set (fm := fun k => if k =? i1 then f' i1 else f k).
      assert (L1 : f i1 = S (f' i1)).
      { unfold f, f'. rewrite !nbrs_entries, !map_length, (Permutation_length P1). reflexivity. }
      assert (L2 : f' i2 = S (f i2)).
      { unfold f, f'. rewrite !nbrs_entries, !map_length, (Permutation_length P2). reflexivity. }
      assert (Fx : forall k, k <> i1 -> k <> i2 -> f' k = f k).
      { intros k K1 K2. unfold f, f'. rewrite !nbrs_entries, !map_length.
        destruct (Nat.eq_dec k i0) as [->|K0]; [|rewrite Px; auto].
        rewrite (Permutation_length P0), (Permutation_length P0'). reflexivity. }
      pose proof (@sum_over_seq_upd fm f n i1 H1) as S1.
      pose proof (@sum_over_seq_upd f' fm n i2 H2) as S2.
      assert (E1 : fm i1 = f' i1) by (unfold fm; rewrite Nat.eqb_refl; auto).
      assert (E2 : fm i2 = f i2) by (unfold fm; destruct (Nat.eqb_spec i2 i1); congruence).
      specialize (S1 ltac:(intros k Hk; unfold fm; destruct (Nat.eqb_spec k i1); congruence)).
      specialize (S2 ltac:(intros k Hk; unfold fm; destruct (Nat.eqb_spec k i1); [congruence|auto])).
      lia.
  - intros i Hi. rewrite <- (R i Hi). unfold root_targets.
    destruct (Nat.eq_dec i i0) as [->|X0]; [|destruct (Nat.eq_dec i i1) as [->|X1];
      [|destruct (Nat.eq_dec i i2) as [->|X2]]].
    + rewrite P0', P0. reflexivity.
    + rewrite P1. reflexivity.
    + rewrite P2. reflexivity.
    + rewrite Px by auto. reflexivity.
Qed.

(** Everything in [sw_inv] is about the stored edges up to order. *)
Lemma alike_refl g : sw_alike g g.
Proof. unfold sw_alike; splits; auto. Qed.

Lemma alike_rooted g h x y : sw_alike g h -> rooted g x y <-> rooted h x y.
Proof.
  intros (_ & _ & _ & P). unfold rooted, rooted_from. split; intros [o H]; exists o.
  - rewrite <- P; auto.
  - rewrite P; auto.
Qed.

Lemma alike_adj g h x y : sw_alike g h -> adj g x y <-> adj h x y.
Proof.
  intros (_ & _ & _ & P). rewrite !adj_entries. split; intros (e & H & E); exists e; split; auto.
  - rewrite <- P; auto.
  - rewrite P; auto.
Qed.

(** Moving an edge back on a graph that is the same up to order. *)
Lemma moved_back g i0 i1 i2 o g' h h' :
  i0 <> i1 -> i0 <> i2 -> i1 <> i2 ->
  moved g i0 i1 i2 o g' -> sw_alike g' h -> moved h i0 i2 i1 o h' -> sw_alike g h'.
Proof.
  intros N1 N2 N3 (V & Ec & Pl & _ & _ & (rest & P0 & P0') & P1 & P2 & Px) (Va & Ea & Pa & Sa)
    (V' & Ec' & Pl' & _ & _ & (rest' & Q0 & Q0') & Q1 & Q2 & Qx).
  unfold sw_alike. splits; try congruence. intros x.
  destruct (Nat.eq_dec x i0) as [->|X0]; [|destruct (Nat.eq_dec x i1) as [->|X1];
      [|destruct (Nat.eq_dec x i2) as [->|X2]]].
  - assert (R : Permutation rest rest').
    { apply (Permutation_cons_inv (a := mk_se i2 (Some o))). rewrite <- P0', <- Q0. auto. }
    rewrite P0, Q0', R. reflexivity.
  - rewrite P1, Q2, Sa. reflexivity.
  - apply (Permutation_cons_inv (a := mk_se i0 None)). rewrite <- P2, <- Q1. auto.
  - rewrite Qx by auto. rewrite <- Sa, Px by auto. reflexivity.
Qed.

(** ** [rewire_edge] and [reset_edge] *)

Lemma container_entries g i : simple_graph g -> i < vertex_count g ->
  exists c, nth_error (vertices g) i = Some c /\ sc_id c = i /\ sc_adj c = entries g i.
Proof.
  intros W H. destruct (container_lt W H) as (c & E & _ & I & _). exists c. splits; auto.
  unfold entries. rewrite E. auto.
Qed.

Lemma get_3_mut_ok p g i j k a b c :
  i <> j -> j <> k -> k <> i -> i < vertex_count g -> j < vertex_count g -> k < vertex_count g ->
  nth_error (vertices g) i = Some a -> nth_error (vertices g) j = Some b ->
  nth_error (vertices g) k = Some c -> get_3_mut p g i j k = Done (a, b, c).
Proof.
  intros N1 N2 N3 Hi Hj Hk Ea Eb Ec. unfold get_3_mut. fold (vertex_count g).
  rewrite Ea, Eb, Ec.
  destruct (Nat.ltb_spec i (vertex_count g)), (Nat.ltb_spec j (vertex_count g)),
    (Nat.ltb_spec k (vertex_count g)); try lia.
  destruct (Nat.eqb_spec i j), (Nat.eqb_spec j k), (Nat.eqb_spec k i); try congruence.
  destruct p; reflexivity.
Qed.

Lemma sc_position_entry g i c e : simple_graph g -> nth_error (vertices g) i = Some c ->
  In e (entries g i) ->
  exists k, sc_adj_position c (se_to e) = Some k /\ nth_error (sc_adj c) k = Some e.
Proof.
  intros W E H. unfold sc_adj_position, sc_neighbors. unfold entries in H. rewrite E in H.
  apply position_key; auto. pose proof (sg_nodup W i) as D. rewrite (nbrs_nth E) in D. exact D.
Qed.

Lemma sc_adjacent_adj g i c x : nth_error (vertices g) i = Some c ->
  sc_is_adjacent c x = true <-> adj g i x.
Proof. intros E. rewrite <- adjb_adj. unfold adjb. rewrite (nbrs_nth E). reflexivity. Qed.

Lemma with_vertices_same g : with_vertices g (vertices g) = g.
Proof. destruct g; reflexivity. Qed.

Lemma with_vertices_twice g a b : with_vertices (with_vertices g a) b = with_vertices g b.
Proof. reflexivity. Qed.

Lemma entries_vertices g g' i : nth_error (vertices g') i = nth_error (vertices g) i ->
  entries g' i = entries g i.
Proof. unfold entries. intros ->; auto. Qed.

Lemma root_end g i0 i1 o : simple_graph g -> partner g -> rooted_from g i0 i1 o ->
  i0 <> i1 /\ i0 < vertex_count g /\ i1 < vertex_count g /\ In (mk_se i0 None) (entries g i1).
Proof.
  intros W P H. assert (R : rooted g i0 i1) by (exists o; auto).
  destruct (adj_lt W (rooted_adj R)). splits; auto.
  - intros ->. apply (sg_irrefl W _ (rooted_adj R)).
  - apply P; auto.
Qed.

Lemma rewire_blocked p n d g i0 i1 i2 o :
  sw_inv n d g -> rooted_from g i0 i1 o -> i1 <> i2 -> i0 <> i2 -> adj g i0 i2 ->
  sw_rewire_edge p g i0 i1 i2 = Done (Sw_BlockedByExistingEdge, g).
Proof.
  intros (W & V & _ & _ & P) H N3 N2 A. destruct (root_end W P H) as (N1 & H0 & H1 & _).
  destruct (adj_lt W A) as [_ H2].
  destruct (container_entries W H0) as (c0 & E0 & D0 & _).
  destruct (container_entries W H1) as (c1 & E1 & D1 & _).
  destruct (container_entries W H2) as (c2 & E2 & D2 & _).
  unfold sw_rewire_edge. destruct (Nat.eqb_spec i1 i2); [congruence|].
  rewrite (@get_3_mut_ok p g i0 i1 i2 c0 c1 c2) by auto. cbn [bind].
  destruct (sc_position_entry W E0 H) as (k & Ek & _). cbn [se_to] in Ek.
  unfold sc_rewire. rewrite D1, D2, Ek, (proj2 (sc_adjacent_adj i2 E0) A). cbn [bind].
  rewrite (upd_same _ _ E0), (upd_same _ _ E1), (upd_same _ _ E2), with_vertices_same. reflexivity.
Qed.

Lemma payloads_of g g' :
  length (vertices g') = length (vertices g) ->
  (forall i c, nth_error (vertices g') i = Some c ->
     exists c0, nth_error (vertices g) i = Some c0 /\ sc_node c = sc_node c0) ->
  payloads g' = payloads g.
Proof.
  intros L H. unfold payloads. apply list_ext. intros i. rewrite !nth_error_map.
  destruct (nth_error (vertices g') i) as [c|] eqn:E.
  - destruct (H _ _ E) as (c0 & -> & Q). cbn. congruence.
  - apply nth_error_None in E. rewrite L in E. apply nth_error_None in E. rewrite E. reflexivity.
Qed.

(** Three containers replaced by ones with the same id and payload. *)
Lemma moved_intro g i0 i1 i2 o c0 c1 c2 l0 l1 l2 vs' rest :
  i0 <> i1 -> i0 <> i2 -> i1 <> i2 ->
  nth_error (vertices g) i0 = Some c0 -> nth_error (vertices g) i1 = Some c1 ->
  nth_error (vertices g) i2 = Some c2 ->
  vs' = upd (upd (upd (vertices g) i0 (sc_with c0 l0)) i1 (sc_with c1 l1)) i2 (sc_with c2 l2) ->
  Permutation (sc_adj c0) (mk_se i1 (Some o) :: rest) -> Permutation l0 (mk_se i2 (Some o) :: rest) ->
  Permutation (sc_adj c1) (mk_se i0 None :: l1) -> Permutation l2 (mk_se i0 None :: sc_adj c2) ->
  moved g i0 i1 i2 o (with_vertices g vs').
Proof.
  intros N1 N2 N3 E0 E1 E2 Ev P0 P0' P1 P2.
  assert (Hn : forall x, nth_error vs' x =
    if x =? i0 then Some (sc_with c0 l0) else if x =? i1 then Some (sc_with c1 l1)
    else if x =? i2 then Some (sc_with c2 l2) else nth_error (vertices g) x).
  { intros x. pose proof (nth_error_lt _ _ E0). pose proof (nth_error_lt _ _ E1).
    pose proof (nth_error_lt _ _ E2). rewrite Ev.
    destruct (Nat.eqb_spec x i0) as [->|X0]; [|destruct (Nat.eqb_spec x i1) as [->|X1];
      [|destruct (Nat.eqb_spec x i2) as [->|X2]]].
    - rewrite !nth_error_upd_other by auto. apply nth_error_upd_same; auto.
    - rewrite nth_error_upd_other by auto. apply nth_error_upd_same. rewrite upd_length; auto.
    - apply nth_error_upd_same. rewrite !upd_length; auto.
    - rewrite !nth_error_upd_other by auto. reflexivity. }
  assert (Lv : length vs' = length (vertices g)) by (rewrite Ev, !upd_length; auto).
  assert (Id : forall i c, nth_error vs' i = Some c ->
     exists c0, nth_error (vertices g) i = Some c0 /\ sc_id c = sc_id c0 /\ sc_node c = sc_node c0).
  { intros i c. rewrite Hn. destruct (Nat.eqb_spec i i0) as [->|X0];
      [|destruct (Nat.eqb_spec i i1) as [->|X1]; [|destruct (Nat.eqb_spec i i2) as [->|X2]]].
    - intros X. injection X as <-. exists c0; auto.
    - intros X. injection X as <-. exists c1; auto.
    - intros X. injection X as <-. exists c2; auto.
    - eauto. }
  assert (Ex : forall x, entries (with_vertices g vs') x =
    if x =? i0 then l0 else if x =? i1 then l1 else if x =? i2 then l2 else entries g x).
  { intros x. unfold entries at 1. cbn [with_vertices vertices]. rewrite Hn.
    destruct (x =? i0); auto. destruct (x =? i1); auto. destruct (x =? i2); auto. }
  assert (F0 : entries g i0 = sc_adj c0) by (unfold entries; rewrite E0; auto).
  assert (F1 : entries g i1 = sc_adj c1) by (unfold entries; rewrite E1; auto).
  assert (F2 : entries g i2 = sc_adj c2) by (unfold entries; rewrite E2; auto).
  unfold moved. splits; auto.
  - apply payloads_of; auto. intros i c Hc. destruct (Id _ _ Hc) as (c' & ? & _ & ?). eauto.
  - intros i c Hc. destruct (Id _ _ Hc) as (c' & ? & ? & _). eauto.
  - exists rest. rewrite F0, Ex, Nat.eqb_refl. auto.
  - rewrite F1, Ex, Nat.eqb_refl. destruct (Nat.eqb_spec i1 i0); [congruence|auto].
  - rewrite F2, Ex, Nat.eqb_refl. destruct (Nat.eqb_spec i2 i0); [congruence|].
    destruct (Nat.eqb_spec i2 i1); [congruence|auto].
  - intros x X0 X1 X2. rewrite Ex.
    destruct (Nat.eqb_spec x i0), (Nat.eqb_spec x i1), (Nat.eqb_spec x i2); congruence.
Qed.

Lemma upd_entry (l : list sw_edge) k e e' : nth_error l k = Some e ->
  exists rest, Permutation l (e :: rest) /\ Permutation (upd l k e') (e' :: rest).
Proof.
  revert k. induction l as [|a l IH]; intros [|k] H; try discriminate.
  - injection H as ->. exists l. auto.
  - destruct (IH _ H) as (rest & P & Q). exists (a :: rest). cbn [upd]. split.
    + rewrite P. apply perm_swap.
    + rewrite Q. apply perm_swap.
Qed.

Lemma rewire_ok p n d g i0 i1 i2 o :
  sw_inv n d g -> rooted_from g i0 i1 o -> i1 <> i2 -> i0 <> i2 -> i2 < n -> ~ adj g i0 i2 ->
  exists g', sw_rewire_edge p g i0 i1 i2 = Done (Sw_Rewire i0 i1 i2, g') /\ moved g i0 i1 i2 o g'.
Proof.
  intros (W & V & _ & _ & P) H N3 N2 H2 A. destruct (root_end W P H) as (N1 & H0 & H1 & Hl).
  rewrite <- V in H2.
  destruct (container_entries W H0) as (c0 & E0 & D0 & A0).
  destruct (container_entries W H1) as (c1 & E1 & D1 & A1).
  destruct (container_entries W H2) as (c2 & E2 & D2 & A2).
  unfold sw_rewire_edge. destruct (Nat.eqb_spec i1 i2); [congruence|].
  rewrite (@get_3_mut_ok p g i0 i1 i2 c0 c1 c2) by auto. cbn [bind].
  destruct (sc_position_entry W E0 H) as (k & Ek & Nk). cbn [se_to] in Ek.
  destruct (sc_position_entry W E1 Hl) as (k1 & Ek1 & Nk1). cbn [se_to] in Ek1.
  unfold sc_rewire. rewrite D0, D1, D2, Ek, Ek1.
  destruct (sc_is_adjacent c0 i2) eqn:Ad; [apply (sc_adjacent_adj i2 E0) in Ad; tauto|].
  unfold vget. rewrite Nk. cbn [bind].
  replace (debug_assert p (se_is_root (mk_se i1 (Some o)))) with (Done tt) by (destruct p; reflexivity).
  cbn [bind expect]. destruct (swap_remove_spec _ _ Nk1) as (l1 & -> & Pl1). cbn [bind].
  eexists. split; [reflexivity|].
  destruct (upd_entry (se_rewire (mk_se i1 (Some o)) i2) Nk) as (rest & R1 & R2).
  eapply moved_intro with (l1 := l1); eauto.
  symmetry. apply Permutation_cons_append.
Qed.

Lemma reset_nothing p n d g i0 i1 :
  sw_inv n d g -> rooted_from g i0 i1 i1 -> sw_reset_edge p g i0 i1 = Done (Sw_Nothing, g).
Proof.
  intros (W & V & _ & _ & P) H. destruct (root_end W P H) as (N1 & H0 & H1 & Hl).
  destruct (container_entries W H0) as (c0 & E0 & D0 & A0).
  destruct (container_entries W H1) as (c1 & E1 & D1 & A1).
  unfold sw_reset_edge. rewrite (get_2_mut_ok p W H0 H1 N1 E0 E1). cbn [bind].
  destruct (sc_position_entry W E0 H) as (k & Ek & Nk). cbn [se_to] in Ek.
  destruct (sc_position_entry W E1 Hl) as (k1 & Ek1 & Nk1). cbn [se_to] in Ek1.
  unfold sc_reset. rewrite D0, D1, Ek, Ek1. cbn [expect bind]. unfold vget_asserted, vget.
  rewrite Nk, Nk1. cbn [bind].
  replace (debug_assert p (negb (se_is_root (mk_se i0 None)))) with (Done tt) by (destruct p; reflexivity).
  cbn [bind]. unfold se_is_at_root. cbn [se_orig se_to]. rewrite Nat.eqb_refl. reflexivity.
Qed.

Lemma reset_blocked p n d g i0 i1 o :
  sw_inv n d g -> rooted_from g i0 i1 o -> o <> i1 -> adj g i0 o ->
  sw_reset_edge p g i0 i1 = Done (Sw_BlockedByExistingEdge, g).
Proof.
  intros (W & V & _ & _ & P) H No A. destruct (root_end W P H) as (N1 & H0 & H1 & Hl).
  destruct (container_entries W H0) as (c0 & E0 & D0 & A0).
  destruct (container_entries W H1) as (c1 & E1 & D1 & A1).
  unfold sw_reset_edge. rewrite (get_2_mut_ok p W H0 H1 N1 E0 E1). cbn [bind].
  destruct (sc_position_entry W E0 H) as (k & Ek & Nk). cbn [se_to] in Ek.
  destruct (sc_position_entry W E1 Hl) as (k1 & Ek1 & Nk1). cbn [se_to] in Ek1.
  unfold sc_reset. rewrite D0, D1, Ek, Ek1. cbn [expect bind]. unfold vget_asserted, vget.
  rewrite Nk, Nk1. cbn [bind].
  replace (debug_assert p (negb (se_is_root (mk_se i0 None)))) with (Done tt) by (destruct p; reflexivity).
  cbn [bind]. unfold se_is_at_root. cbn [se_orig se_to].
  destruct (Nat.eqb_spec o i1); [congruence|]. cbn [expect bind].
  rewrite (proj2 (sc_adjacent_adj o E0) A). reflexivity.
Qed.

Lemma reset_ok p n d g i0 i1 o :
  sw_inv n d g -> rooted_from g i0 i1 o -> o <> i1 -> i0 <> o -> o < n -> ~ adj g i0 o ->
  exists g', sw_reset_edge p g i0 i1 = Done (Sw_Reset i0 i1 o, g') /\ moved g i0 i1 o o g'.
Proof.
  intros (W & V & _ & _ & P) H No N2 H2 A. destruct (root_end W P H) as (N1 & H0 & H1 & Hl).
  rewrite <- V in H2.
  destruct (container_entries W H0) as (c0 & E0 & D0 & A0).
  destruct (container_entries W H1) as (c1 & E1 & D1 & A1).
  destruct (container_entries W H2) as (c2 & E2 & D2 & A2).
  unfold sw_reset_edge. rewrite (get_2_mut_ok p W H0 H1 N1 E0 E1). cbn [bind].
  destruct (sc_position_entry W E0 H) as (k & Ek & Nk). cbn [se_to] in Ek.
  destruct (sc_position_entry W E1 Hl) as (k1 & Ek1 & Nk1). cbn [se_to] in Ek1.
  unfold sc_reset. rewrite D0, D1, Ek, Ek1. cbn [expect bind]. unfold vget_asserted, vget.
  rewrite Nk, Nk1. cbn [bind].
  replace (debug_assert p (negb (se_is_root (mk_se i0 None)))) with (Done tt) by (destruct p; reflexivity).
  cbn [bind]. unfold se_is_at_root. cbn [se_orig se_to].
  destruct (Nat.eqb_spec o i1); [congruence|]. cbn [expect bind].
  destruct (sc_is_adjacent c0 o) eqn:Ad; [apply (sc_adjacent_adj o E0) in Ad; tauto|].
  cbn [bind se_reset expect se_orig]. destruct (swap_remove_spec _ _ Nk1) as (l1 & -> & Pl1).
  cbn [bind se_to]. cbv zeta. cbn [with_vertices vertices]. unfold put_2.
  rewrite !nth_error_upd_other, E2 by auto. cbn [bind].
  unfold sc_push_single.
  assert (Ad2 : sc_is_adjacent c2 i0 = false).
  { destruct (sc_is_adjacent c2 i0) eqn:X; auto. apply (sc_adjacent_adj i0 E2) in X.
    destruct A. apply (sg_sym W _ _ X). }
  rewrite Ad2. replace (debug_assert p (negb false)) with (Done tt) by (destruct p; reflexivity).
  cbn [bind]. eexists. split; [reflexivity|]. rewrite with_vertices_twice.
  destruct (upd_entry (mk_se o (Some o)) Nk) as (rest & R1 & R2).
  eapply moved_intro with (l1 := l1) (c0 := c0) (c1 := c1) (c2 := c2); eauto; try congruence.
  symmetry. apply Permutation_cons_append.
Qed.

Lemma get_3_mut_done p g i j k r : simple_graph g -> get_3_mut p g i j k = Done r ->
  i <> j /\ j <> k /\ k <> i /\ i < vertex_count g /\ j < vertex_count g /\ k < vertex_count g.
Proof.
  intros W. unfold get_3_mut. cbv zeta.
  destruct (Nat.eqb_spec i j), (Nat.eqb_spec j k), (Nat.eqb_spec k i); cbn [negb andb];
    rewrite ?andb_false_r;
    try (destruct p; repeat (destruct (nth_error _ _)); discriminate).
  intros E.
  assert (E' : match nth_error (vertices g) i, nth_error (vertices g) j, nth_error (vertices g) k with
    | Some a, Some b, Some c => Done (a, b, c) | _, _, _ => UB end = Done r).
  { destruct p; [|exact E]. destruct (_ && _); [exact E|discriminate]. }
  destruct (nth_error (vertices g) i) eqn:Ei; [|discriminate].
  destruct (nth_error (vertices g) j) eqn:Ej; [|discriminate].
  destruct (nth_error (vertices g) k) eqn:Ek; [|discriminate].
  splits; auto; rewrite <- (sg_len W); eapply nth_error_lt; eauto.
Qed.

(** There is no edge to move. *)
Lemma rewire_missing p g i0 i1 i2 : simple_graph g ->
  i0 < vertex_count g -> i1 < vertex_count g -> i2 < vertex_count g ->
  i0 <> i1 -> i1 <> i2 -> i0 <> i2 -> ~ adj g i0 i1 ->
  sw_rewire_edge p g i0 i1 i2 = Done (Sw_InvalidAdjecency, g).
Proof.
  intros W H0 H1 H2 N1 N3 N2 A.
  destruct (container_entries W H0) as (c0 & E0 & D0 & A0).
  destruct (container_entries W H1) as (c1 & E1 & D1 & A1).
  destruct (container_entries W H2) as (c2 & E2 & D2 & A2).
  unfold sw_rewire_edge. destruct (Nat.eqb_spec i1 i2); [congruence|].
  rewrite (@get_3_mut_ok p g i0 i1 i2 c0 c1 c2) by auto. cbn [bind].
  unfold sc_rewire. rewrite D1.
  destruct (sc_adj_position c0 i1) as [k|] eqn:Ek.
  - destruct A. unfold adj. rewrite (nbrs_nth E0).
    destruct (position_nth _ _ Ek) as (x & Hx & Q). apply Nat.eqb_eq in Q. subst x.
    eapply nth_error_In; eauto.
  - cbn [bind]. rewrite (upd_same _ _ E0), (upd_same _ _ E1), (upd_same _ _ E2).
    rewrite with_vertices_same. reflexivity.
Qed.

(** Whatever a returning [rewire_edge] is asked to do, it keeps the invariant. *)
Lemma rewire_any p n d g i0 i1 i2 s g' :
  sw_inv n d g -> p = Debug \/ rooted g i0 i1 ->
  sw_rewire_edge p g i0 i1 i2 = Done (s, g') -> sw_inv n d g' /\ payloads g' = payloads g.
Proof.
  intros I Hp E. pose proof I as (W & V & _ & _ & P).
  destruct (Nat.eqb_spec i1 i2) as [Eq|N3].
  { unfold sw_rewire_edge in E. rewrite Eq, Nat.eqb_refl in E. injection E as <- <-. auto. }
  assert (H : exists r, get_3_mut p g i0 i1 i2 = Done r).
  { unfold sw_rewire_edge in E. destruct (Nat.eqb_spec i1 i2); [congruence|].
    apply bind_done in E as (r & E & _). eauto. }
  destruct H as [r H]. destruct (get_3_mut_done W H) as (N1 & _ & N2 & H0 & H1 & H2). clear H r.
  assert (N2' : i0 <> i2) by auto. rewrite V in H0, H1, H2.
  assert (C : (exists o, rooted_from g i0 i1 o) \/ ~ rooted g i0 i1).
  { destruct (adj_dec g i0 i1) as [A|A].
    - apply adj_entries in A as ([t o] & He & Et). cbn [se_to] in Et. subst t. destruct o as [o|].
      + left. exists o. exact He.
      + right. intros [o Hr]. pose proof (entry_unique W He Hr eq_refl). discriminate.
    - right. intros R. apply A, rooted_adj, R. }
  destruct C as [[o R]|R].
  - destruct (adj_dec g i0 i2) as [A|A].
    + rewrite (rewire_blocked p I R N3 N2' A) in E. injection E as <- <-. auto.
    + destruct (rewire_ok p I R N3 N2' H2 A) as (g1 & E1 & M). rewrite E1 in E. injection E as <- <-.
      split; [apply (moved_inv I N1 N2' N3 H0 H1 H2 A M)|]. apply M.
  - destruct Hp as [->|]; [|tauto]. rewrite <- V in H0, H1, H2.
    destruct (container_entries W H0) as (c0 & E0 & D0 & A0).
    destruct (container_entries W H1) as (c1 & E1 & D1 & A1).
    destruct (container_entries W H2) as (c2 & E2 & D2 & A2).
    unfold sw_rewire_edge in E. destruct (Nat.eqb_spec i1 i2); [congruence|].
    rewrite (@get_3_mut_ok Debug g i0 i1 i2 c0 c1 c2) in E by auto. cbn [bind] in E.
    unfold sc_rewire in E. rewrite D0, D1, D2 in E.
    assert (U : with_vertices g (upd (upd (upd (vertices g) i0 c0) i1 c1) i2 c2) = g)
      by (rewrite (upd_same _ _ E0), (upd_same _ _ E1), (upd_same _ _ E2); apply with_vertices_same).
    destruct (adj_dec g i0 i1) as [A|A].
    + apply adj_entries in A as ([t o] & He & Et). cbn [se_to] in Et. subst t.
      destruct o as [o|]; [destruct R; exists o; exact He|].
      destruct (sc_position_entry W E0 He) as (k & Ek & Nk). cbn [se_to] in Ek. rewrite Ek in E.
      destruct (sc_is_adjacent c0 i2).
      * cbn [bind] in E. injection E as <- <-. rewrite U. auto.
      * unfold vget in E. rewrite Nk in E. discriminate.
    + destruct (sc_adj_position c0 i1) as [k|] eqn:Ek.
      * destruct A. unfold adj. rewrite (nbrs_nth E0).
        destruct (position_nth _ _ Ek) as (x & Hx & Q). apply Nat.eqb_eq in Q. subst x.
        eapply nth_error_In; eauto.
      * cbn [bind] in E. injection E as <- <-. rewrite U. auto.
Qed.

(** Twice as many neighbours as rooted edges have to fit in. *)
Lemma sw_inv_size n d g : sw_inv n d g -> 0 < n -> 2 * d < n.
Proof.
  intros (W & V & E & _ & _) Hn.
  assert (B : forall i, i < n -> length (nbrs g i) <= n - 1).
  { intros i Hi.
    assert (L : length (i :: nbrs g i) <= length (seq 0 n)).
    { apply NoDup_incl_length.
      - constructor; [apply (sg_irrefl W)|apply W].
      - intros x [<-|Hx]; apply in_seq; [lia|]. pose proof (sg_range W _ _ Hx). lia. }
    cbn [length] in L. rewrite seq_length in L. lia. }
  pose proof (simple_degsum W) as D. unfold degsum in D. rewrite V, E in D.
  assert (S : forall m, m <= n -> sum_over (fun i => length (nbrs g i)) (seq 0 m) <= m * (n - 1)).
  { induction m as [|m IH]; intros Hm; [apply Nat.le_refl|].
    rewrite seq_S, sum_over_app, sum_over_one. cbn [plus].
    specialize (IH ltac:(lia)). specialize (B m ltac:(lia)). nia. }
  specialize (S n ltac:(lia)). nia.
Qed.

Lemma ring_targets_In n d i o : d < n -> i < n -> In o (ring_targets n d i) -> o < n /\ o <> i.
Proof.
  intros Hd Hi H. unfold ring_targets in H. apply in_map_iff in H as (k & <- & Hk).
  apply in_seq in Hk. split; [apply Nat.mod_upper_bound; lia|].
  destruct (Nat.ltb_spec (i + k) n).
  - rewrite Nat.mod_small by auto. lia.
  - replace (i + k) with ((i + k - n) + 1 * n) by lia. rewrite Nat.mod_add by lia.
    rewrite Nat.mod_small by lia. lia.
Qed.

Lemma rooted_from_target g i j o : rooted_from g i j o -> In o (root_targets g i).
Proof.
  intros H. unfold root_targets. apply in_flat_map. exists (mk_se j (Some o)). simpl; auto.
Qed.

Lemma rooted_from_range n d g i j o : sw_inv n d g -> rooted_from g i j o -> o < n /\ o <> i.
Proof.
  intros I H. pose proof I as (W & V & _ & R & P). destruct (root_end W P H) as (_ & Hi & _).
  rewrite V in Hi. pose proof (sw_inv_size I ltac:(lia)).
  apply ring_targets_In with (d := d); try lia. rewrite <- R by auto. eapply rooted_from_target; eauto.
Qed.

Lemma length_root_targets g i : length (root_targets g i) = length (filter se_is_root (entries g i)).
Proof.
  unfold root_targets. induction (entries g i) as [|[t [o|]] l IH]; cbn; auto.
Qed.

Lemma roots_length n d g i : sw_inv n d g -> i < n -> length (filter se_is_root (entries g i)) = d.
Proof.
  intros (_ & _ & _ & R & _) Hi. rewrite <- length_root_targets, (Permutation_length (R i Hi)).
  unfold ring_targets. rewrite map_length, seq_length. auto.
Qed.

Lemma rooted_filter g i j : rooted g i j <-> In j (map se_to (filter se_is_root (entries g i))).
Proof.
  rewrite in_map_iff. unfold rooted, rooted_from. split.
  - intros [o H]. exists (mk_se j (Some o)). split; auto. apply filter_In; auto.
  - intros ([t o] & <- & H). apply filter_In in H as [H Hr]. destruct o as [o|]; [|discriminate].
    exists o; auto.
Qed.

Lemma roots_NoDup g i : simple_graph g -> NoDup (map se_to (filter se_is_root (entries g i))).
Proof.
  intros W. pose proof (sg_nodup W i) as D. rewrite nbrs_entries in D.
  induction (entries g i) as [|e l IH]; cbn; [constructor|].
  cbn [map] in D. apply NoDup_cons_iff in D as [D1 D2]. destruct (se_is_root e); auto.
  cbn [map]. constructor; auto. intros H. apply D1. apply in_map_iff in H as (x & E & H).
  apply filter_In in H as [H _]. rewrite <- E. apply in_map; auto.
Qed.

(** ** The ring *)

Lemma sw_add_edge p g i j :
  simple_graph g -> i < vertex_count g -> j < vertex_count g -> i <> j -> ~ adj g i j ->
  exists g', add_edge p g i j = Done (Ok tt, g') /\
    forall x, entries g' x = if x =? i then entries g i ++ [mk_se j (Some j)]
                             else if x =? j then entries g j ++ [mk_se i None] else entries g x.
Proof.
  intros W Hi Hj N A.
  destruct (container_entries W Hi) as (ci & Ei & Di & Ai).
  destruct (container_entries W Hj) as (cj & Ej & Dj & Aj).
  unfold add_edge. rewrite (get_2_mut_ok p W Hi Hj N Ei Ej). cbn [bind].
  change (ac_push ci cj) with (sc_push ci cj). unfold sc_push. rewrite Di, Dj.
  destruct (sc_is_adjacent ci j) eqn:Q; [apply (sc_adjacent_adj j Ei) in Q; tauto|].
  cbn [bind]. eexists. split; [reflexivity|]. intros x. unfold entries at 1. cbn [vertices].
  rewrite nth_error_put_2; [|eapply nth_error_lt; eauto|eapply nth_error_lt; eauto|auto].
  rewrite <- Ai, <- Aj. destruct (x =? i), (x =? j); cbn [sc_adj]; auto.
Qed.

Lemma ring_roots p l : forall g r g',
  simple_graph g -> partner g -> pairs_ok (vertex_count g) l ->
  add_edges_try p g l = Done (Ok r, g') ->
  partner g' /\ forall x, root_targets g' x = root_targets g x ++ map snd (filter (fun e => fst e =? x) l).
Proof.
  induction l as [|[i j] l IH]; intros g r g' W P O E.
  - cbn in E. injection E as _ <-. split; auto. intros x. cbn. rewrite app_nil_r. auto.
  - apply Forall_cons_iff in O as [(Hi & Hj & N) O']. cbn [fst snd] in Hi, Hj, N.
    cbn [add_edges_try] in E.
    destruct (adj_dec g i j) as [A|A]; [rewrite (add_edge_present p W A) in E; discriminate|].
    destruct (sw_add_edge p W Hi Hj N A) as (g1 & E1 & X1). rewrite E1 in E. cbn [bind] in E.
    destruct (add_edge_ok W E1) as (_ & W1 & V1 & _). rewrite <- V1 in O'.
    assert (I1 : forall x e, In e (entries g1 x) <->
      In e (entries g x) \/ (x = i /\ e = mk_se j (Some j)) \/ (x = j /\ e = mk_se i None)).
    { intros x e. rewrite X1. destruct (Nat.eqb_spec x i) as [Ea|Na]; [|destruct (Nat.eqb_spec x j) as [Eb|Nb]].
      - rewrite in_app_iff, Ea. simpl. intuition congruence.
      - rewrite in_app_iff, Eb. simpl. intuition congruence.
      - intuition congruence. }
    assert (P1 : partner g1).
    { intros x y. unfold rooted, rooted_from. rewrite I1. split.
      - intros [H|[[_ H]|[-> H]]]; try discriminate.
        + apply P in H as [o H]. exists o. apply I1. auto.
        + injection H as ->. exists j. apply I1. auto.
      - intros [o H]. apply I1 in H as [H|[[-> H]|[_ H]]]; try discriminate.
        + left. apply P. exists o; auto.
        + injection H as -> ->. auto. }
    destruct (IH _ _ _ W1 P1 O' E) as [P' R']. split; auto.
    intros x. rewrite R'. cbn [filter fst]. unfold root_targets. rewrite X1.
    destruct (Nat.eqb_spec x i) as [Ea|Na].
    + rewrite Ea, Nat.eqb_refl, flat_map_app, <- app_assoc. reflexivity.
    + destruct (Nat.eqb_spec i x); [congruence|]. destruct (Nat.eqb_spec x j) as [Eb|Nb]; auto.
      rewrite Eb, flat_map_app. cbn. rewrite app_nil_r. reflexivity.
Qed.

Lemma filter_flat_map {X Y} (f : X -> list Y) (q : Y -> bool) l :
  filter q (flat_map f l) = flat_map (fun x => filter q (f x)) l.
Proof. induction l as [|a l IH]; cbn; auto. rewrite filter_app, IH. auto. Qed.

Lemma ring_pairs_from n d x : d < n -> x < n ->
  map snd (filter (fun e => fst e =? x) (ring_pairs n d)) = ring_targets n d x.
Proof.
  intros Hd Hx. unfold ring_pairs. rewrite filter_flat_map.
  assert (S : seq 0 n = seq 0 x ++ x :: seq (S x) (n - x - 1)).
  { replace n with (x + (1 + (n - x - 1))) at 1 by lia. rewrite seq_app. reflexivity. }
  rewrite S, flat_map_app. cbn [flat_map].
  assert (Z : forall l, ~ In x l -> flat_map (fun i => filter (fun e : nat * nat => fst e =? x)
      (map (fun add => (i, if n <=? i + add then i + add - n else i + add)) (seq 1 d))) l = []).
  { induction l as [|a l IH]; intros H; auto. cbn [flat_map]. rewrite IH by (simpl in H; tauto).
    rewrite app_nil_r. apply not_in_cons in H as [H _].
    generalize (seq 1 d). induction l0 as [|b l0 IH0]; auto. cbn [map filter fst].
    destruct (Nat.eqb_spec a x); [congruence|auto]. }
  rewrite !Z by (rewrite in_seq; lia). rewrite app_nil_r. cbn [app].
  unfold ring_targets. rewrite <- (seq_length d 1) at 1.
  assert (H : forall k, In k (seq 1 d) -> k <= d) by (intros k Hk; apply in_seq in Hk; lia).
  rewrite seq_length. revert H. generalize (seq 1 d). induction l as [|k l IH]; intros H; auto.
  cbn [map filter fst]. rewrite Nat.eqb_refl. cbn [map snd]. f_equal.
  - specialize (H k (or_introl eq_refl)). destruct (Nat.leb_spec n (x + k)).
    + replace (x + k) with ((x + k - n) + 1 * n) at 2 by lia. rewrite Nat.mod_add by lia.
      rewrite Nat.mod_small; lia.
    + rewrite Nat.mod_small; lia.
  - apply IH. intros; apply H; simpl; auto.
Qed.

Lemma sw_ring p g d : simple_graph g -> 2 * d < vertex_count g ->
  exists g', init_ring p g d = Done (Ok tt, g') /\ sw_inv (vertex_count g) d g' /\
    payloads g' = payloads g.
Proof.
  intros W Hd. destruct (init_ring_ok p W Hd) as (g' & E & W' & V' & P' & C' & _).
  exists g'. splits; auto. unfold init_ring in E.
  destruct (clear_edges_spec W) as (W0 & V0 & _ & _ & N0). rewrite V0 in E.
  assert (Z : forall x, entries (clear_edges g) x = []).
  { intros x. specialize (N0 x). rewrite nbrs_entries in N0. destruct (entries (clear_edges g) x); auto.
    discriminate. }
  assert (P0 : partner (clear_edges g)).
  { intros x y. unfold rooted, rooted_from. rewrite !Z. simpl. split; [tauto|intros [? []]]. }
  assert (O : pairs_ok (vertex_count (clear_edges g)) (ring_pairs (vertex_count g) d))
    by (rewrite V0; apply init_ring_range_ok; lia).
  destruct (ring_roots W0 P0 O E) as [Pa R].
  unfold sw_inv. splits; auto. intros i Hi. rewrite R. unfold root_targets at 1. rewrite Z. cbn.
  rewrite ring_pairs_from by lia. auto.
Qed.

End Facts.
