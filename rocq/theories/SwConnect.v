(** Proofs about the small-world ensemble: [make_connected], histories and counts. *)
From Verif Require Import Base BaseFacts Sums Containers ContainerSpec ContainerFacts Graph GraphSpec GraphFacts GraphOps GraphBuild Search Traversal TraversalSpec TraversalFacts Components ComponentFacts Rng RngFacts EnsembleFacts Sw SwSpec SwFacts SwChain.
From Coq Require Import QArith.
Set Implicit Arguments.
Unset Strict Implicit.
Local Open Scope nat_scope.

Lemma filter_count_upd (f f' : nat -> bool) n i : i < n ->
  (forall k, k <> i -> f' k = f k) -> f i = false -> f' i = true ->
  length (filter f' (seq 0 n)) = S (length (filter f (seq 0 n))).
Proof.
  intros Hi H F F'.
  assert (S : seq 0 n = seq 0 i ++ i :: seq (S i) (n - i - 1)).
  { replace n with (i + (1 + (n - i - 1))) at 1 by lia. rewrite seq_app. reflexivity. }
  rewrite S, !filter_app. cbn [filter]. rewrite F, F', !app_length. cbn [length].
  rewrite (@filter_ext_in _ f' f (seq 0 i)), (@filter_ext_in _ f' f (seq (Datatypes.S i) (n - i - 1))); [lia| |];
    intros k Hk; apply H; apply in_seq in Hk; lia.
Qed.

Lemma filter_length_le {X} (f : X -> bool) l : length (filter f l) <= length l.
Proof. induction l as [|x l IH]; cbn; auto. destruct (f x); cbn; lia. Qed.

Section Connect.
Context {T : Type}.
Implicit Types g : graph (sw_container T).
Implicit Types e : sw_ensemble T.

(** ** [make_connected] *)

Definition next n i := Nat.modulo (i + 1) n.

Lemma next_lt n i : 0 < n -> next n i < n.
Proof. intros H. apply Nat.mod_upper_bound. lia. Qed.

Lemma next_cases n i : i < n -> (i + 1 < n /\ next n i = i + 1) \/ (i + 1 = n /\ next n i = 0).
Proof.
  intros H. unfold next. destruct (Nat.eq_dec (i + 1) n) as [E|E].
  - right. rewrite E, Nat.mod_same by lia. auto.
  - left. rewrite Nat.mod_small; lia.
Qed.

(** The edge from [i] to the next vertex is in its original place. *)
Definition home_entry n i (x : sw_edge) : bool :=
  (se_to x =? next n i) && match se_orig x with Some o => o =? next n i | None => false end.
Definition at_home n g i : bool := existsb (home_entry n i) (entries g i).
Definition homes n g : nat := length (filter (at_home n g) (seq 0 n)).

Lemma at_home_iff n g i : at_home n g i = true <-> rooted_from g i (next n i) (next n i).
Proof.
  unfold at_home. rewrite existsb_exists. split.
  - intros ([t [o|]] & H & Q); unfold home_entry in Q; cbn [se_to se_orig] in Q;
      apply andb_prop in Q as [Q1 Q2]; [|discriminate].
    apply Nat.eqb_eq in Q1. apply Nat.eqb_eq in Q2. subst. exact H.
  - intros H. eexists. split; [exact H|]. unfold home_entry. cbn. rewrite Nat.eqb_refl. reflexivity.
Qed.

Lemma homes_le n g : homes n g <= n.
Proof. unfold homes. etransitivity; [apply filter_length_le|]. rewrite seq_length. auto. Qed.

Lemma find_orig n d g i c : sw_inv n d g -> 0 < d -> i < n -> nth_error (vertices g) i = Some c ->
  exists j, find (fun x => match se_orig x with Some o => o =? next n i | None => false end) (sc_adj c)
    = Some (mk_se j (Some (next n i))) /\ rooted_from g i j (next n i).
Proof.
  intros I Hd Hi Ec. pose proof I as (W & V & _ & R & _).
  assert (Ee : entries g i = sc_adj c) by (unfold entries; rewrite Ec; auto).
  destruct (find _ (sc_adj c)) as [x|] eqn:F.
  - apply find_some in F as [Hx Q]. destruct x as [t [o|]]; cbn [se_orig] in Q; [|discriminate].
    apply Nat.eqb_eq in Q. subst o. exists t. split; auto. unfold rooted_from. rewrite Ee; auto.
  - exfalso. assert (H : In (next n i) (root_targets g i)).
    { rewrite (R i Hi). unfold ring_targets. apply in_map_iff. exists 1. split; auto. apply in_seq; lia. }
    unfold root_targets in H. apply in_flat_map in H as ([t [o|]] & H & Ho); [|destruct Ho].
    destruct Ho as [Ho|[]]. rewrite Ee in H. pose proof (find_none _ _ F _ H) as Q.
    cbn [se_orig] in Q. rewrite Ho, Nat.eqb_refl in Q. discriminate.
Qed.

(** One reset inside a pass. *)
Lemma connect_reset p n d g i j : sw_inv n d g -> 0 < d -> i < n ->
  rooted_from g i j (next n i) -> ~ adj g i (next n i) ->
  exists s g', sw_reset_edge p g i j = Done (s, g') /\ sw_inv n d g' /\ payloads g' = payloads g /\
    homes n g' = S (homes n g) /\
    forall x y, adj g' x y -> adj g x y \/ (x = i /\ y = next n i) \/ (x = next n i /\ y = i).
Proof.
  intros I Hd Hi R A. pose proof I as (W & V & _ & _ & P).
  destruct (root_end W P R) as (N1 & H0 & H1 & _). rewrite V in *.
  destruct (rooted_from_range I R) as [Ho No].
  assert (Nj : next n i <> j).
  { intros E. apply A. rewrite E. apply rooted_adj. exists (next n i). exact R. }
  destruct (reset_ok p I R Nj (not_eq_sym No) Ho A) as (g' & E & M).
  assert (Nj' : j <> next n i) by auto.
  exists (Sw_Reset i j (next n i)), g'. splits; auto.
  - apply (moved_inv I N1 (not_eq_sym No) Nj' H0 H1 Ho A M).
  - apply M.
  - pose proof (moved_In W N1 (not_eq_sym No) Nj' M) as Im.
    unfold homes. apply filter_count_upd with (i := i); auto.
    + intros k Nk. apply eq_true_iff_eq. rewrite !at_home_iff. unfold rooted_from. rewrite Im. split.
      * intros [(H & _)|[[? _]|[_ ?]]]; auto; try congruence.
      * intros H. left. splits; auto; [intros [? _]; auto|intros [_ ?]; discriminate].
    + apply not_true_iff_false. rewrite at_home_iff. intros H. apply A, rooted_adj. eexists; eauto.
    + apply at_home_iff. apply Im. auto.
  - pose proof (moved_In W N1 (not_eq_sym No) Nj' M) as Im.
    intros x y H. apply adj_entries in H as (z & Hz & Ez).
    apply Im in Hz as [(Hz & _)|[[-> ->]|[-> ->]]]; cbn [se_to] in Ez; auto.
    left. rewrite <- Ez. apply entry_adj; auto.
Qed.

Definition label (ids : list (option nat)) v : nat :=
  match nth_error ids v with Some (Some c) => c | _ => 0 end.

Lemma connect_vertex_eq p n ids g nc i num :
  (forall v, v < n -> exists c, nth_error ids v = Some (Some c) /\ c < num) ->
  length nc = num -> i < n ->
  exists b, nth_error nc (Nat.min (label ids i) (label ids (next n i))) = Some b /\
  sw_connect_vertex p n ids (g, nc) i =
    (if negb b && negb (label ids i =? label ids (next n i)) then
       do c <- vget (vertices g) i;
       do x <- expect (find (fun x => match se_orig x with Some o => o =? next n i | None => false end)
                         (sc_adj c));
       do ' (_, g') <- sw_reset_edge p g i (se_to x);
       Done (g', upd nc (Nat.min (label ids i) (label ids (next n i))) true)
     else Done (g, nc)).
Proof.
  intros H L Hi. destruct (H i Hi) as (a & Ea & La).
  destruct (H (next n i) (@next_lt n i ltac:(lia))) as (b & Eb & Lb).
  assert (Fa : label ids i = a) by (unfold label; rewrite Ea; auto).
  assert (Fb : label ids (next n i) = b) by (unfold label; rewrite Eb; auto).
  destruct (vget_lt nc (i := Nat.min a b)) as [x Hx]; [lia|].
  exists x. rewrite Fa, Fb. split; auto.
  unfold sw_connect_vertex. fold (next n i). unfold vget at 1 2. rewrite Ea, Eb. cbn [bind label_min expect label_eqb].
  unfold vget at 1. rewrite Hx. cbn [bind]. unfold vset. 
  destruct (Nat.ltb_spec (Nat.min a b) (length nc)); [|lia]. reflexivity.
Qed.

Lemma connect_pass p n d ids num l : forall g nc,
  sw_inv n d g -> 0 < d -> 3 <= n ->
  (forall v, v < n -> exists c, nth_error ids v = Some (Some c) /\ c < num) ->
  length nc = num -> NoDup l -> Forall (fun i => i < n) l ->
  (forall i, In i l -> adj g i (next n i) -> label ids i = label ids (next n i)) ->
  exists g' nc', foldM (sw_connect_vertex p n ids) (g, nc) l = Done (g', nc') /\
    sw_inv n d g' /\ payloads g' = payloads g /\ homes n g <= homes n g' /\
    (homes n g' = homes n g -> forall i, In i l ->
       nth_error nc (Nat.min (label ids i) (label ids (next n i))) = Some true \/
       label ids i = label ids (next n i)).
Proof.
  induction l as [|i l IH]; intros g nc I Hd Hn H L ND F A.
  - exists g, nc. cbn [foldM]. splits; auto. simpl; tauto.
  - apply Forall_cons_iff in F as [Hi F]. apply NoDup_cons_iff in ND as [Ni ND].
    destruct (@connect_vertex_eq p n ids g nc i num H L Hi) as (b & Eb & E).
    cbn [foldM]. rewrite E. clear E.
    destruct (negb b && negb (label ids i =? label ids (next n i))) eqn:Q.
    + apply andb_prop in Q as [Q1 Q2]. apply negb_true_iff in Q2. apply Nat.eqb_neq in Q2.
      assert (Na : ~ adj g i (next n i)) by (intros X; apply Q2, A; simpl; auto).
      assert (Hv : i < vertex_count g) by (destruct I as (_ & -> & _); auto).
      destruct (container_entries (proj1 I) Hv) as (c & Ec & _).
      unfold vget at 1. rewrite Ec. cbn [bind].
      destruct (find_orig I Hd Hi Ec) as (j & -> & R). cbn [expect bind se_to].
      destruct (connect_reset p I Hd Hi R Na) as (s & g1 & -> & I1 & P1 & H1 & A1). cbn [bind].
      destruct (IH g1 (upd nc (Nat.min (label ids i) (label ids (next n i))) true)) as (g2 & nc2 & E2 & I2 & P2 & M2 & _);
        auto.
      * rewrite upd_length; auto.
      * intros x Hx Ax. apply A1 in Ax as [Ax|[[-> _]|[E1 E2]]].
        -- apply A; simpl; auto.
        -- tauto.
        -- exfalso. rewrite Forall_forall in F. specialize (F x Hx).
           destruct (next_cases Hi), (next_cases F); lia.
      * exists g2, nc2. splits; auto; try congruence; lia.
    + cbn [bind]. destruct (IH g nc) as (g2 & nc2 & E2 & I2 & P2 & M2 & D2); auto.
      { intros x Hx. apply A. simpl; auto. }
      exists g2, nc2. splits; auto. intros Eh x [<-|Hx]; auto.
      apply andb_false_iff in Q as [Q|Q]; apply negb_false_iff in Q.
      * left. rewrite Eb, Q. reflexivity.
      * right. apply Nat.eqb_eq in Q. auto.
Qed.

(** Neighbours on the ring being joined makes everything joined. *)
Lemma ring_connected n g : vertex_count g = n -> 
  (forall i, i < n -> joined (adj g) i (next n i)) -> simple_graph g -> connected g.
Proof.
  intros V H W.
  assert (Z : forall i, i < n -> joined (adj g) 0 i).
  { induction i as [|i IH]; intros Hi; [apply joined_refl|].
    apply joined_trans with i; [apply IH; lia|].
    destruct (@next_cases n i ltac:(lia)) as [[_ E]|[E _]]; [|lia].
    replace (S i) with (next n i) by lia. apply H. lia. }
  intros u v Hu Hv. rewrite V in *. apply joined_trans with 0; auto.
  apply joined_sym; auto. intros x y. apply W.
Qed.

Lemma sw_connect_spec p n m : forall g,
  sw_inv n 2 g -> n - homes n g <= m ->
  exists g', (forall fuel, m < fuel -> sw_connect p fuel g = Done g') /\
    sw_inv n 2 g' /\ payloads g' = payloads g /\ connected g' /\ (connected g -> g' = g).
Proof.
  induction m as [m IHm] using lt_wf_ind. intros g I Hm. pose proof I as (W & V & _).
  destruct (is_connected_spec W) as [[Z E]|[(Z & Hc & E)|(Z & Hc & E)]].
  - exists g. splits; auto.
    + intros [|f] Hf; [lia|]. cbn [sw_connect]. rewrite E. reflexivity.
    + intros u v Hu. lia.
  - exists g. splits; auto. intros [|f] Hf; [lia|]. cbn [sw_connect]. rewrite E. reflexivity.
  - rewrite V in Z. pose proof (sw_inv_size I Z) as Hn.
    destruct (ids_spec W) as (num & ids & Ei & Li & Hl & _ & Hj). rewrite V in *.
    assert (F : Forall (fun i => i < n) (seq 0 n))
      by (apply Forall_forall; intros i Hi; apply in_seq in Hi; lia).
    assert (Same : forall u v, u < n -> v < n -> (label ids u = label ids v <-> joined (adj g) u v)).
    { intros u v Hu Hv. rewrite <- Hj by auto. destruct (Hl u Hu) as (a & Ea & _), (Hl v Hv) as (b & Eb & _).
      unfold label. rewrite Ea, Eb. split; congruence. }
    destruct (@connect_pass p n 2 ids num (seq 0 n) g (repeat false num)) as (g1 & nc1 & E1 & I1 & P1 & M1 & D1);
      auto; try lia.
    + apply repeat_length.
    + apply seq_NoDup.
    + intros i Hi A. apply in_seq in Hi. apply Same; try lia; [apply next_lt; lia|].
      apply joined_step with i; [apply joined_refl|auto].
    + assert (Hh : homes n g < homes n g1).
      { destruct (Nat.eq_dec (homes n g1) (homes n g)) as [Eh|]; [|lia]. exfalso. apply Hc.
        apply (@ring_connected n g); auto. intros i Hi. apply Same; auto; [apply next_lt; lia|].
        destruct (D1 Eh i) as [Q|Q]; auto; [apply in_seq; lia|].
        apply nth_error_In, repeat_spec in Q. discriminate. }
      pose proof (homes_le n g1).
      destruct (IHm (m - 1)) with (g := g1) as (g2 & F2 & I2 & P2 & C2 & _); auto; try lia.
      exists g2. splits; auto; try congruence; try tauto.
      intros [|f] Hf; [lia|]. cbn [sw_connect]. rewrite E. cbn [bind]. rewrite Ei. cbn [bind].
      rewrite V, E1. cbn [bind]. apply F2. lia.
Qed.

Lemma sw_connect_done p n : forall fuel g g', sw_inv n 2 g -> sw_connect p fuel g = Done g' ->
  sw_inv n 2 g'.
Proof.
  intros fuel g g' I E.
  assert (M : forall f g g' k, sw_connect p f g = Done g' -> sw_connect p (f + k) g = Done g').
  { clear. induction f as [|f IH]; intros g g' k E; [discriminate|].
    cbn [sw_connect plus] in *. destruct (is_connected g) as [[[]|]| | |]; cbn [bind] in *; auto.
    apply bind_done in E as ([num ids] & E1 & E). apply bind_done in E as ([g1 nc] & E2 & E).
    rewrite E1. cbn [bind]. rewrite E2. cbn [bind]. auto. }
  destruct (@sw_connect_spec p n (n - homes n g) g I (le_n _)) as (g1 & F & I1 & _).
  specialize (M _ _ _ (S (n - homes n g)) E). rewrite F in M by lia. congruence.
Qed.

(** ** Sorting *)

Lemma sw_sort_alike g g' : sort_adj g = Done g' -> sw_alike g g' /\
  forall i c, nth_error (vertices g') i = Some c ->
     exists c0, nth_error (vertices g) i = Some c0 /\ sc_id c = sc_id c0.
Proof.
  intros E. unfold sort_adj in E.
  destruct (@mapM_Forall2 _ _ (ac_sort_adj (A := sw_container T))
    (fun c c' => sc_id c' = sc_id c /\ sc_node c' = sc_node c /\ Permutation (sc_adj c) (sc_adj c'))
    (vertices g)) as (vs & Ev & F).
  { intros c _. eexists. split; [reflexivity|]. cbn. splits; auto. symmetry. apply sort_by_perm. }
  rewrite Ev in E. cbn [bind] in E. injection E as <-.
  assert (L : length (vertices g) = length vs) by (clear - F; induction F; cbn; auto). pose proof (Forall2_nth F) as N.
  assert (K : forall i c, nth_error vs i = Some c -> exists c0, nth_error (vertices g) i = Some c0 /\
     sc_id c = sc_id c0 /\ sc_node c = sc_node c0 /\ Permutation (sc_adj c0) (sc_adj c)).
  { intros i c Hc. specialize (N i). rewrite Hc in N.
    destruct (nth_error (vertices g) i) as [c0|]; [|tauto]. exists c0. tauto. }
  split.
  - unfold sw_alike. splits; auto.
    + apply payloads_of; auto. intros i c Hc. destruct (K _ _ Hc) as (c0 & ? & _ & ? & _). eauto.
    + intros i. unfold entries. cbn [vertices].
      destruct (nth_error vs i) as [c|] eqn:Hc.
      * destruct (K _ _ Hc) as (c0 & -> & _ & _ & P). auto.
      * apply nth_error_None in Hc. rewrite <- L in Hc. apply nth_error_None in Hc. rewrite Hc. auto.
  - intros i c Hc. destruct (K _ _ Hc) as (c0 & ? & ? & _). eauto.
Qed.

Lemma sw_sort_inv n d g g' : sw_inv n d g -> sort_adj g = Done g' -> sw_inv n d g'.
Proof.
  intros (W & V & E & R & P) H. destruct (sw_sort_alike H) as [A _].
  destruct (sort_adj_spec W) as (g1 & E1 & W1 & _). rewrite H in E1. injection E1 as <-.
  pose proof A as (V' & E' & _ & Pe). unfold sw_inv. splits; auto; try congruence.
  - intros i Hi. rewrite <- (R i Hi). unfold root_targets. rewrite (Pe i). reflexivity.
  - intros i j. rewrite <- (alike_rooted j i A), <- (Pe i). apply P.
Qed.

Lemma sw_history_inv p n e : 5 <= n -> sw_history p n e -> sw_inv n 2 (sw_graph e).
Proof.
  intros Hn. induction 1 as [mk q rs e rs' E|e rs e' rs' H IH E|e rs s e' rs' H IH E
    |e s s' e' H IH U E|e fuel e' H IH E|e g' H IH E|e q H IH].
  - pose proof (@sw_new_spec T p mk n q rs Hn) as S. rewrite E in S. apply S.
  - pose proof (@randomize_spec T p n 2 e rs IH (le_n 2) (or_intror eq_refl)) as S. rewrite E in S. apply S.
  - pose proof (@m_step_spec T p n e rs IH ltac:(lia)) as S. rewrite E in S.
    destruct S as (i0 & i1 & _ & C & _). apply (changed_inv IH C).
  - apply (undo_any IH U E).
  - unfold sw_make_connected in E. apply bind_done in E as (g' & E & E'). injection E' as <-.
    cbn [sw_set sw_graph]. eapply sw_connect_done; eauto.
  - cbn [sw_set sw_graph]. eapply sw_sort_inv; eauto.
  - exact IH.
Qed.

(** ** Counting *)

Lemma long_range_iff g i j : long_range g i j <->
  exists x, In x (entries g i) /\ se_is_long_ranging_root x = true /\ se_to x = j.
Proof.
  unfold long_range, rooted_from. split.
  - intros (o & H & N). exists (mk_se j (Some o)). splits; auto. cbn.
    destruct (Nat.eqb_spec o j); [congruence|auto].
  - intros ([t [o|]] & H & Q & <-); cbn in *; [|discriminate]. exists o. split; auto.
    apply negb_true_iff, Nat.eqb_neq in Q. auto.
Qed.

Definition long_list g i : list nat := map se_to (filter se_is_long_ranging_root (entries g i)).

Lemma long_list_In g i j : In j (long_list g i) <-> long_range g i j.
Proof.
  rewrite long_range_iff. unfold long_list. rewrite in_map_iff. split.
  - intros (x & E & H). apply filter_In in H as []. eauto.
  - intros (x & H & Q & E). exists x. split; auto. apply filter_In; auto.
Qed.

Lemma long_list_NoDup g i : simple_graph g -> NoDup (long_list g i).
Proof.
  intros W. pose proof (sg_nodup W i) as D. rewrite nbrs_entries in D. unfold long_list.
  induction (entries g i) as [|x l IH]; cbn; [constructor|].
  cbn [map] in D. apply NoDup_cons_iff in D as [D1 D2]. destruct (se_is_long_ranging_root x); auto.
  cbn [map]. constructor; auto. intros H. apply D1. apply in_map_iff in H as (y & E & H).
  apply filter_In in H as [H _]. rewrite <- E. apply in_map; auto.
Qed.

Definition long_pairs g : list (nat * nat) :=
  flat_map (fun i => map (pair i) (long_list g i)) (seq 0 (length (vertices g))).

Lemma long_pairs_In g i j : simple_graph g -> In (i, j) (long_pairs g) <-> long_range g i j.
Proof.
  intros W. unfold long_pairs. rewrite in_flat_map. split.
  - intros (x & _ & H). apply in_map_iff in H as (y & E & H). injection E as -> ->.
    apply long_list_In; auto.
  - intros H. exists i. split.
    + apply in_seq. destruct H as (o & H & _). apply entry_adj in H. destruct (adj_lt W H).
      rewrite (sg_len W). lia.
    + apply in_map, long_list_In. auto.
Qed.

Lemma long_pairs_NoDup g : simple_graph g -> NoDup (long_pairs g).
Proof.
  intros W. unfold long_pairs. apply NoDup_flat_map.
  - apply seq_NoDup.
  - intros x _. apply NoDup_map_in; [|apply long_list_NoDup; auto]. intros a b _ _ E. congruence.
  - intros x y z _ _ H1 H2. apply in_map_iff in H1 as (? & <- & _). apply in_map_iff in H2 as (? & E & _).
    congruence.
Qed.

Lemma long_pairs_length g : count_long_ranging_edges g = length (long_pairs g).
Proof.
  unfold count_long_ranging_edges, long_pairs.
  assert (K : forall l a, (forall i c, nth_error l i = Some c -> entries g (a + i) = sc_adj c) ->
    length (filter se_is_long_ranging_root (flat_map (@sc_adj T) l)) =
    length (flat_map (fun i => map (pair i) (long_list g i)) (seq a (length l)))).
  { induction l as [|c l IH]; intros a H; auto. cbn [flat_map length seq].
    rewrite filter_app, !app_length, (IH (S a)).
    - unfold long_list at 2. rewrite !map_length, <- (H 0 c eq_refl), Nat.add_0_r. reflexivity.
    - intros i c' Hc. rewrite <- (H (S i) c' Hc). f_equal. lia. }
  apply K. intros i c Hc. unfold entries. cbn. rewrite Hc. auto.
Qed.

(** The end points marked. *)
Lemma count_nodes_spec g : simple_graph g ->
  exists marks, count_nodes_with_long_ranging_edges g = Done (length (filter (fun b => b) marks)) /\
    length marks = vertex_count g /\
    forall v, nth_error marks v = Some true <-> exists u, long_range g u v \/ long_range g v u.
Proof.
  intros W. unfold count_nodes_with_long_ranging_edges.
  set (inner := fun (i : nat) marks (x : sw_edge) => do marks1 <- vset marks i true; vset marks1 (se_to x) true).
  assert (In1 : forall i l marks, i < length marks -> (forall x, In x l -> se_to x < length marks) ->
    exists marks', foldM (inner i) marks l = Done marks' /\ length marks' = length marks /\
      forall v, nth_error marks' v = Some true <->
        nth_error marks v = Some true \/ (l <> [] /\ v = i) \/ In v (map se_to l)).
  { induction l as [|x l IH]; intros marks Hi Hl.
    - exists marks. cbn [foldM]. splits; auto. simpl. intros v. split; [auto|].
      intros [?|[[? _]|[]]]; auto. congruence.
    - pose proof (Hl x (or_introl eq_refl)) as Hx.
      assert (St : inner i marks x = Done (upd (upd marks i true) (se_to x) true)).
      { unfold inner. rewrite vset_done by auto. cbn [bind]. apply vset_done. rewrite upd_length; auto. }
      cbn [foldM]. rewrite St. cbn [bind].
      destruct (IH (upd (upd marks i true) (se_to x) true)) as (m' & E & L & N).
      + rewrite !upd_length; auto.
      + intros y Hy. rewrite !upd_length. apply Hl. simpl; auto.
      + exists m'. rewrite !upd_length in L. splits; auto. intros v. rewrite N.
        cbn [map In]. rewrite !nth_error_upd, !upd_length.
        destruct (Nat.ltb_spec (se_to x) (length marks)); [|lia].
        destruct (Nat.ltb_spec i (length marks)); [|lia]. rewrite !andb_true_r.
        destruct (Nat.eqb_spec (se_to x) v) as [Ex|Nx]; [|destruct (Nat.eqb_spec i v) as [Ei|Ni]].
        * split; auto.
        * split; [|auto]. intros _. right. left. split; [discriminate|auto].
        * split; [intros [?|[[? ?]|?]]; auto; congruence|].
          intros [?|[[? ?]|[?|?]]]; auto; congruence. }
  assert (Out : forall l a marks, length marks = vertex_count g ->
    (forall i c, nth_error l i = Some c -> nth_error (vertices g) (a + i) = Some c) ->
    exists marks', foldM (fun marks ic => foldM (inner (fst ic)) marks
        (filter se_is_long_ranging_root (sc_adj (snd ic)))) marks (enumerate_from a l) = Done marks' /\
      length marks' = vertex_count g /\
      forall v, nth_error marks' v = Some true <-> nth_error marks v = Some true \/
        exists u w, a <= u < a + length l /\ long_range g u w /\ (v = u \/ v = w)).
  { induction l as [|c l IH]; intros a marks Lm Hl.
    - exists marks. cbn [enumerate_from foldM]. splits; auto. intros v. split; auto.
      intros [?|(u & w & Hu & _)]; auto. simpl in Hu. lia.
    - cbn [enumerate_from foldM]. cbn [fst snd].
      pose proof (Hl 0 c eq_refl) as Hc. rewrite Nat.add_0_r in Hc.
      assert (Ee : entries g a = sc_adj c) by (unfold entries; rewrite Hc; auto).
      destruct (In1 a (filter se_is_long_ranging_root (sc_adj c)) marks) as (m1 & E1 & L1 & N1).
      { rewrite Lm, <- (sg_len W). eapply nth_error_lt; eauto. }
      { intros x Hx. apply filter_In in Hx as [Hx _]. rewrite <- Ee in Hx. rewrite Lm.
        apply (sg_range W _ _ (entry_adj Hx)). }
      rewrite E1. cbn [bind]. destruct (IH (S a) m1) as (m2 & E2 & L2 & N2); [congruence| |].
      { intros i c' Hc'. rewrite <- (Hl (S i) c' Hc'). f_equal. lia. }
      exists m2. splits; auto. intros v. rewrite N2, N1. cbn [length]. split.
      + intros [[H|[[H1 H2]|H]]|(u & w & Hu & H)]; auto.
        * right. destruct (filter se_is_long_ranging_root (sc_adj c)) as [|x l'] eqn:Ef; [congruence|].
          exists a, (se_to x). splits; try lia. apply long_list_In. unfold long_list.
          rewrite Ee, Ef. simpl; auto.
        * right. exists a, v. splits; try lia. apply long_list_In. unfold long_list. rewrite Ee. auto.
        * right. exists u, w. splits; try tauto; lia.
      + intros [H|(u & w & Hu & H & Hv)]; auto.
        destruct (Nat.eq_dec u a) as [->|Nu].
        * left. right. apply long_list_In in H. unfold long_list in H. rewrite Ee in H.
          destruct Hv as [->| ->]; auto. left. split; auto. intros Z. rewrite Z in H. destruct H.
        * right. exists u, w. splits; auto; lia. }
  destruct (Out (vertices g) 0 (repeat false (vertex_count g))) as (marks & E & L & N); auto.
  - apply repeat_length.
  - exists marks. split; [exact (f_equal (fun o => bind o (fun m => Done (length (filter (fun b => b) m)))) E)|].
    splits; auto.
    intros v. rewrite N. split.
    + intros [H|(u & w & _ & H & [->| ->])]; eauto.
      apply nth_error_In, repeat_spec in H. discriminate.
    + intros [u [H|H]]; right.
      * exists u, v. splits; auto; try lia. destruct H as (o & H & _). apply entry_adj in H.
        destruct (adj_lt W H). rewrite (sg_len W). lia.
      * exists v, u. splits; auto; try lia. destruct H as (o & H & _). apply entry_adj in H.
        destruct (adj_lt W H). rewrite (sg_len W). lia.
Qed.

End Connect.
