(** Proofs about the Watts-Strogatz ensemble: whole runs. *)
From Verif Require Import Base BaseFacts Sums Containers ContainerSpec ContainerFacts Graph GraphSpec GraphFacts GraphOps GraphBuild Rng RngFacts Runs Ws WsSpec WsFacts.
From Coq Require Import QArith.
Set Implicit Arguments.
Unset Strict Implicit.
Local Open Scope nat_scope.

Definition accepts (q : Q) (r : nat) : bool := Qle_bool (unit_float r) q.

Lemma nth_error_skipn {X} (l : list X) k i : nth_error (skipn k l) i = nth_error l (k + i).
Proof. revert l. induction k as [|k IH]; intros [|a l]; cbn; auto. destruct i; auto. Qed.

Lemma In_skipn_swap_remove {X} (l l' : list X) k x :
  swap_remove l k = Done l' -> In x (skipn k l') -> In x (skipn (S k) l).
Proof.
  intros E H.
  destruct (exists_last (l := l)) as (m & y & ->).
  { intros ->. discriminate E. }
  destruct (Nat.lt_ge_cases k (length (m ++ [y]))) as [Hk|Hk].
  2:{ unfold swap_remove in E. rewrite rev_app_distr in E. cbn [rev app] in E.
      destruct (Nat.ltb_spec k (length (m ++ [y]))); [lia|discriminate]. }
  rewrite app_length in Hk. cbn [length] in Hk.
  rewrite swap_remove_snoc in E by lia.
  injection E as <-. destruct (Nat.eqb_spec k (length m)) as [->|N].
  - rewrite skipn_all in H. destruct H.
  - apply In_nth_error in H as [i Hi]. rewrite nth_error_skipn in Hi.
    rewrite nth_error_upd in Hi.
    rewrite skipn_app. apply in_app_iff.
    destruct (Nat.eqb_spec k (k + i)) as [Ei|Ni]; cbn [andb] in Hi.
    + destruct (Nat.ltb_spec k (length m)); [|lia]. injection Hi as <-.
      right. replace (S k - length m) with 0 by lia. simpl; auto.
    + left. apply nth_error_In with (n := i - 1). rewrite nth_error_skipn.
      rewrite <- Hi. f_equal. lia.
Qed.

Lemma mapM_nth {X Y} (f : X -> outcome Y) l : forall l', mapM f l = Done l' -> forall i,
  match nth_error l i with
  | Some x => exists y, nth_error l' i = Some y /\ f x = Done y
  | None => nth_error l' i = None
  end.
Proof.
  induction l as [|x l IH]; intros l' E i; cbn [mapM] in E.
  - injection E as <-. destruct i; reflexivity.
  - destruct (f x) as [y| | |] eqn:Ef; try discriminate E. cbn [bind] in E.
    destruct (mapM f l) as [ys| | |]; try discriminate E. cbn [bind] in E. injection E as <-.
    destruct i; cbn [nth_error]; [eauto|]. apply (IH _ eq_refl).
Qed.

(** Choosing the edges to rewire. *)
Lemma pick_runs (live : Prop) q k : forall (l rv : list (nat * original_edge)), k <= length l ->
  runs live (fun s => exists l' rv', s = (map fst l', map snd l', map snd (rv ++ rv')) /\
      Permutation l (l' ++ rv') /\ Forall (fun x => oe_at_origin (snd x) = true) rv' /\
      ((forall r, accepts q r = true) ->
       forall x, In x l' -> oe_at_origin (snd x) = true -> In x (skipn k l)))
    (fun rs => foldM (ws_pick q) (map fst l, map snd l, map snd rv, rs) (rev (seq 0 k))).
Proof.
  induction k as [|k IH]; intros l rv Hk.
  - cbn [seq rev foldM]. apply runs_ret. exists l, []. rewrite !app_nil_r. splits; auto.
  - destruct (nth_error l k) as [e|] eqn:E; [|apply nth_error_None in E; lia].
    rewrite seq_S, rev_app_distr. cbn [plus rev app foldM].
    assert (Sk : skipn k l = e :: skipn (S k) l).
    { clear - E. revert k E. induction l as [|a l IH]; intros [|k] E; cbn in *; try discriminate.
      - congruence.
      - rewrite (IH _ E). destruct l; auto. }
    assert (V : vget (map snd l) k = Done (snd e)) by (unfold vget; rewrite nth_error_map, E; reflexivity).
    destruct (oe_at_origin (snd e)) eqn:O.
    + apply runs_ext with (m := fun rs => do ' (r, rs1) <- draw rs;
        (fun r rs1 => do s <- (if accepts q r then
            do orig' <- swap_remove (map snd l) k;
            do to' <- swap_remove (map fst l) k;
            Done (to', orig', map snd rv ++ [snd e])
          else Done (map fst l, map snd l, map snd rv));
          foldM (ws_pick q) (s, rs1) (rev (seq 0 k))) r rs1).
      { intros rs. unfold ws_pick at 2. rewrite V. cbn [bind]. rewrite O. unfold gen_f64.
        destruct rs as [|r rs]; cbn [draw bind]; auto. fold (accepts q r).
        destruct (accepts q r); cbn [bind]; auto.
        destruct (swap_remove (map snd l) k); cbn [bind]; auto.
        destruct (swap_remove (map fst l) k); cbn [bind]; auto. }
      apply (@runs_bind live nat _ (fun _ => True) _ draw _); [apply runs_draw|].
      intros r _. destruct (accepts q r) eqn:Ac.
      * destruct (swap_remove_spec _ _ E) as (l1 & E1 & P1).
        rewrite (swap_remove_map fst _ _ E1), (swap_remove_map snd _ _ E1). cbn [bind].
        replace (map snd rv ++ [snd e]) with (map snd (rv ++ [e])) by (rewrite map_app; auto).
        eapply runs_weaken; [|apply (IH l1 (rv ++ [e]))].
        -- intros s (l' & rv' & -> & P' & F' & A'). exists l', (e :: rv').
           rewrite <- app_assoc. splits; auto.
           ++ rewrite P1, P'. apply Permutation_middle.
           ++ intros Al x Hx Ox. apply (In_skipn_swap_remove E1). auto.
        -- apply Permutation_length in P1. cbn [length] in P1. lia.
      * cbn [bind]. eapply runs_weaken; [|apply (IH l rv); lia].
        intros s (l' & rv' & -> & P' & F' & A'). exists l', rv'. splits; auto.
        intros Al. rewrite Al in Ac. discriminate.
    + apply runs_ext with (m := fun rs => foldM (ws_pick q) (map fst l, map snd l, map snd rv, rs) (rev (seq 0 k))).
      { intros rs. unfold ws_pick at 2. rewrite V. cbn [bind]. rewrite O. reflexivity. }
      eapply runs_weaken; [|apply (IH l rv); lia].
      intros s (l' & rv' & -> & P' & F' & A'). exists l', rv'. splits; auto.
      intros Al x Hx Ox. specialize (A' Al x Hx Ox). rewrite Sk in A'. destruct A' as [<-|]; auto. congruence.
Qed.

(** A run that picks nothing. *)
Lemma pick_none q k : forall to orig rv rs to' orig' rv' rs',
  foldM (ws_pick q) (to, orig, rv, rs) (rev (seq 0 k)) = Done (to', orig', rv', rs') ->
  (exists more, rv' = rv ++ more) /\
  (rv' = rv -> to' = to /\ orig' = orig /\
    exists u, rs = u ++ rs' /\ Forall (fun r => accepts q r = false) u /\
      length u = length (filter oe_at_origin (firstn k orig))).
Proof.
  induction k as [|k IH]; intros to orig rv rs to' orig' rv' rs' E.
  - cbn in E. injection E as <- <- <- <-. split; [exists []; rewrite app_nil_r; auto|].
    intros _. splits; auto. exists []. auto.
  - rewrite seq_S, rev_app_distr in E. cbn [plus rev app foldM] in E.
    unfold ws_pick at 1 in E. unfold vget in E. destruct (nth_error orig k) as [e|] eqn:En; [|discriminate E].
    cbn [bind] in E.
    assert (Fk : firstn (S k) orig = firstn k orig ++ [e]).
    { clear - En. revert k En. induction orig as [|a l IH]; intros [|k] E; cbn in *; try discriminate.
      - congruence.
      - rewrite <- (IH _ E). destruct l; auto. }
    rewrite Fk, filter_app, app_length. cbn [filter].
    destruct (oe_at_origin e) eqn:O.
    + unfold gen_f64 in E. destruct rs as [|r rs]; [discriminate E|]. cbn [draw bind] in E.
      fold (accepts q r) in E. destruct (accepts q r) eqn:Ac.
      * destruct (swap_remove orig k) as [o1| | |]; try discriminate E. cbn [bind] in E.
        destruct (swap_remove to k) as [t1| | |]; try discriminate E. cbn [bind] in E.
        destruct (IH _ _ _ _ _ _ _ _ E) as [[more ->] _]. split.
        -- exists ([e] ++ more). rewrite <- app_assoc. auto.
        -- intros H. exfalso. apply (f_equal (@length _)) in H. rewrite !app_length in H. cbn [length] in H. lia.
      * destruct (IH _ _ _ _ _ _ _ _ E) as [M H]. split; auto. intros Hrv.
        destruct (H Hrv) as (-> & -> & u & -> & Fu & Lu). splits; auto.
        exists (r :: u). splits; auto. cbn [length]. lia.
    + destruct (IH _ _ _ _ _ _ _ _ E) as [M H]. split; auto. intros Hrv.
      destruct (H Hrv) as (-> & -> & u & -> & Fu & Lu). splits; auto.
      exists u. splits; auto. cbn [length]. lia.
Qed.

Lemma pick_reject q k : forall to orig rv u, k <= length orig ->
  Forall (fun r => accepts q r = false) u ->
  length u = length (filter oe_at_origin (firstn k orig)) ->
  forall rs, foldM (ws_pick q) (to, orig, rv, u ++ rs) (rev (seq 0 k)) = Done (to, orig, rv, rs).
Proof.
  induction k as [|k IH]; intros to orig rv u Hk Fu Lu rs.
  - destruct u; [reflexivity|discriminate Lu].
  - rewrite seq_S, rev_app_distr. cbn [plus rev app foldM].
    unfold ws_pick at 1, vget. destruct (nth_error orig k) as [e|] eqn:En; [|apply nth_error_None in En; lia].
    cbn [bind].
    assert (Fk : firstn (S k) orig = firstn k orig ++ [e]).
    { clear - En. revert k En. induction orig as [|a l IH]; intros [|k] E; cbn in *; try discriminate.
      - congruence.
      - rewrite <- (IH _ E). destruct l; auto. }
    rewrite Fk, filter_app, app_length in Lu. cbn [filter] in Lu.
    destruct (oe_at_origin e) eqn:O; cbn [length] in Lu.
    + destruct u as [|r u]; cbn [length] in Lu; [lia|].
      apply Forall_cons_iff in Fu as [Ar Fu]. unfold gen_f64. cbn [app draw bind].
      fold (accepts q r). rewrite Ar. cbn [bind]. apply IH; auto; lia.
    + apply IH; auto; lia.
Qed.

Section Run.
Context {T : Type}.
Implicit Types g : graph (ws_container T).

(** What one vertex does to the graph. *)
Definition vertex_post n q g P i g' : Prop :=
  shape n g' /\ payloads g' = payloads g /\ edge_count g' = edge_count g /\
  good n (ws_entries g') P /\
  (* nothing becomes unmoved *)
  (forall k x, In x (ws_entries g' k) -> oe_at_origin (snd x) = true -> In x (ws_entries g k)) /\
  (* edges elsewhere stay *)
  (forall k x, In x (ws_entries g k) -> k <> i -> fst x <> i -> In x (ws_entries g' k)) /\
  (* moved edges stay *)
  (forall k x, In x (ws_entries g k) -> oe_at_origin (snd x) = false -> In x (ws_entries g' k)) /\
  ((forall r, accepts q r = true) -> forall x, In x (ws_entries g' i) -> oe_at_origin (snd x) = false).

(** After the removals, before the additions. *)
Lemma vertex_removed n g P i l' rv c :
  shape n g -> good n (ws_entries g) P -> i < n -> nth_error (vertices g) i = Some c ->
  Permutation (ws_entries g i) (l' ++ rv) -> Forall (fun x => oe_at_origin (snd x) = true) rv ->
  exists g2, foldM ws_remove_other
      (ws_with g (upd (vertices g) i (mk_wc (wc_id c) (wc_node c) (map fst l') (map snd l'))))
      (map snd rv) = Done g2 /\
    shape n g2 /\ payloads g2 = payloads g /\ edge_count g2 = edge_count g /\
    good n (ws_entries g2) (origs n (ws_entries g2)) /\
    Permutation P (map ends (map snd rv) ++ map (fun o => flip (ends o)) (map snd rv)
                   ++ origs n (ws_entries g2)) /\
    ws_entries g2 i = l' /\
    (forall k x, In x (ws_entries g2 k) -> In x (ws_entries g k)) /\
    (forall k x, In x (ws_entries g k) -> k <> i -> fst x <> i -> In x (ws_entries g2 k)) /\
    (forall k x, In x (ws_entries g k) -> oe_at_origin (snd x) = false -> In x (ws_entries g2 k)).
Proof.
  intros S G Hi Hc Pl Fr.
  set (g1 := ws_with g _).
  assert (Ll : length (map fst l') = length (map snd l')) by (rewrite !map_length; auto).
  destruct (shape_upd S Hc Ll) as [S1 P1]. fold g1 in S1, P1.
  assert (E1 : forall k, ws_entries g1 k = if k =? i then l' else ws_entries g k).
  { intros k. unfold g1. rewrite (@entries_upd T n) by auto. rewrite combine_map_fst_snd. auto. }
  assert (G1 : good n (fun k => if k =? i then ws_entries g1 i ++ rv else ws_entries g1 k) P).
  { apply (good_perm G). intros k. rewrite !E1, Nat.eqb_refl. destruct (Nat.eqb_spec k i) as [->|]; auto. }
  assert (Hrv : forall x, In x rv -> oe_from (snd x) = i /\ oe_to (snd x) = fst x /\ oe_at_origin (snd x) = true).
  { intros [j o] Hx. rewrite Forall_forall in Fr. specialize (Fr _ Hx). cbn [fst snd] in *.
    assert (H : In (j, o) (ws_entries g i)) by (rewrite Pl; apply in_app_iff; auto).
    pose proof (gd_origin G H) as Og. unfold og, ends in Og. rewrite Fr in Og. splits; congruence. }
  destruct (@remove_others T n i rv g1 P S1 Hi Hrv G1) as (g2 & E & S2 & P2 & C2 & G2 & Pm & Ei & Sub & Keep).
  assert (Sub' : forall k x, In x (ws_entries g2 k) -> In x (ws_entries g k)).
  { intros k x H. apply Sub in H. rewrite E1 in H. destruct (Nat.eqb_spec k i) as [->|]; auto.
    rewrite Pl. apply in_app_iff. auto. }
  assert (Ei' : ws_entries g2 i = l') by (rewrite Ei, E1, Nat.eqb_refl; auto).
  exists g2. splits; auto; try congruence.
  - rewrite !map_map. auto.
  - intros k x H Nk Nx. apply Keep; auto. rewrite E1. destruct (Nat.eqb_spec k i); congruence.
  - intros k [j o] H O. cbn [snd] in O.
    destruct (Nat.eq_dec k i) as [->|Nk].
    { rewrite Ei'. rewrite Pl in H. apply in_app_iff in H as [H|H]; auto.
      rewrite Forall_forall in Fr. specialize (Fr _ H). cbn in Fr. congruence. }
    destruct (Nat.eq_dec j i) as [->|Nj].
    + (* through the partner *)
      pose proof (gd_partner G H) as Hp. rewrite Pl in Hp. apply in_app_iff in Hp as [Hp|Hp].
      * rewrite <- Ei' in Hp. apply (gd_partner G2) in Hp. rewrite oe_swap_swap in Hp. auto.
      * rewrite Forall_forall in Fr. specialize (Fr _ Hp). cbn in Fr. congruence.
    + apply Keep; auto. rewrite E1. destruct (Nat.eqb_spec k i); congruence.
Qed.

Lemma vertex_unfold p q g i c rs : nth_error (vertices g) i = Some c ->
  length (wc_to c) = length (wc_original c) ->
  ws_randomize_vertex p q (g, rs) i =
  do ' (s, rs1) <- foldM (ws_pick q) (wc_to c, wc_original c, [], rs) (rev (seq 0 (length (wc_original c))));
  (fun s rs1 => let '(to, orig, rewire) := s in
    do g2 <- foldM ws_remove_other (ws_with g (upd (vertices g) i (mk_wc (wc_id c) (wc_node c) to orig))) rewire;
    foldM (ws_add_random_edge p) (g2, rs1) rewire) s rs1.
Proof.
  intros Hc L. unfold ws_randomize_vertex, vget. rewrite Hc. cbn [bind]. rewrite L, Nat.eqb_refl.
  replace (match p with Debug => Done tt | Release => Done tt end) with (Done tt) by (destruct p; auto).
  cbn [bind]. destruct (foldM _ _ _) as [[[[to orig] rewire] rs1]| | |]; reflexivity.
Qed.

Lemma vertex_runs (live : Prop) p q n g P i :
  shape n g -> good n (ws_entries g) P -> i < n -> (live -> length P < n * (n - 1)) ->
  runs live (vertex_post n q g P i) (fun rs => ws_randomize_vertex p q (g, rs) i).
Proof.
  intros S G Hi Live. destruct (container_ws S Hi) as (c & Hc & Ec & Lc).
  apply runs_ext with (m := fun rs =>
    do ' (s, rs1) <- foldM (ws_pick q) (wc_to c, wc_original c, [], rs) (rev (seq 0 (length (wc_original c))));
    (fun s rs1 => let '(to, orig, rewire) := s in
      do g2 <- foldM ws_remove_other (ws_with g (upd (vertices g) i (mk_wc (wc_id c) (wc_node c) to orig))) rewire;
      foldM (ws_add_random_edge p) (g2, rs1) rewire) s rs1).
  { intros rs. rewrite (vertex_unfold p q rs Hc Lc). reflexivity. }
  assert (E1 : wc_to c = map fst (ws_entries g i)) by (rewrite Ec, map_fst_combine; auto).
  assert (E2 : wc_original c = map snd (ws_entries g i)) by (rewrite Ec, map_snd_combine; auto).
  eapply runs_bind.
  { rewrite E1, E2, map_length. change (@nil original_edge) with (map snd (@nil (nat * original_edge))).
    apply (pick_runs live q (l := ws_entries g i) [] (le_n _)). }
  cbv beta. intros s (l' & rv & -> & Pl & Fr & Al). cbn [app].
  destruct (vertex_removed S G Hi Hc Pl Fr) as (g2 & Er & S2 & P2 & C2 & G2 & Pm & Ei & Sub & Keep & KeepM).
  eapply runs_pure; [exact Er|].
  pose proof (Permutation_length Pm) as Lm. rewrite !app_length, !map_length in Lm.
  eapply runs_weaken; [|apply (@add_edges_runs T live p n (map snd rv) g2 (origs n (ws_entries g2)) S2); [lia|exact G2|]].
  - intros g3 (S3 & P3 & C3 & G3 & K3 & O3). unfold vertex_post. splits; auto; try congruence.
    + apply (good_P G3). rewrite Pm. reflexivity.
    + intros k x H O. destruct (O3 _ _ H); [auto|congruence].
    + intros Ac x H. destruct (O3 _ _ H) as [H2|]; auto.
      rewrite Ei in H2. destruct (oe_at_origin (snd x)) eqn:O; auto.
      specialize (Al Ac _ H2 O). rewrite skipn_all in Al. destruct Al.
  - intros A. specialize (Live A). rewrite map_length. lia.
Qed.

(** All the vertices. *)
Definition loop_post n g P g' : Prop :=
  shape n g' /\ payloads g' = payloads g /\ edge_count g' = edge_count g /\
  good n (ws_entries g') P /\
  (forall k x, In x (ws_entries g k) -> oe_at_origin (snd x) = false -> In x (ws_entries g' k)).

Lemma loop_runs (live : Prop) p q n P l : forall g,
  shape n g -> good n (ws_entries g) P -> (forall i, In i l -> i < n) -> (live -> length P < n * (n - 1)) ->
  runs live (loop_post n g P) (fun rs => foldM (ws_randomize_vertex p q) (g, rs) l).
Proof.
  intros g S G Hl Live. apply runs_foldM.
  - intros g1 i (S1 & P1 & C1 & G1 & K1) Hi.
    eapply runs_weaken; [|apply (vertex_runs p q (P := P) S1 G1 (Hl _ Hi) Live)].
    intros g2 (S2 & P2 & C2 & G2 & _ & _ & K2 & _). unfold loop_post. splits; auto; congruence.
  - unfold loop_post. splits; auto.
Qed.

(** ** The ring *)

Lemma ws_add_edge p g i j :
  simple_graph g -> i < vertex_count g -> j < vertex_count g -> i <> j -> ~ adj g i j ->
  exists g', add_edge p g i j = Done (Ok tt, g') /\
    forall x, ws_entries g' x = if x =? i then ws_entries g i ++ [(j, mk_oe i j true)]
                                else if x =? j then ws_entries g j ++ [(i, mk_oe j i true)] else ws_entries g x.
Proof.
  intros W Hi Hj N A.
  destruct (container_ws (simple_shape W eq_refl) Hi) as (ci & Ei & Ai & Li).
  destruct (container_ws (simple_shape W eq_refl) Hj) as (cj & Ej & Aj & Lj).
  assert (Di : wc_id ci = i) by apply (sg_cont W _ Ei).
  assert (Dj : wc_id cj = j) by apply (sg_cont W _ Ej).
  unfold add_edge. rewrite (get_2_mut_ok p W Hi Hj N Ei Ej). cbn [bind].
  change (ac_push ci cj) with (wc_push ci cj). unfold wc_push. rewrite Di, Dj.
  destruct (contains (wc_to ci) j) eqn:Q.
  { exfalso. apply A. unfold adj, nbrs. rewrite Ei. unfold contains in Q. apply existsb_exists in Q as (x & Hx & E).
    apply Nat.eqb_eq in E. subst x. auto. }
  cbn [bind]. eexists. split; [reflexivity|]. intros x. unfold ws_entries at 1. cbn [vertices].
  rewrite nth_error_put_2; [|eapply nth_error_lt; eauto|eapply nth_error_lt; eauto|auto].
  destruct (x =? i); [cbn [wc_to wc_original]; rewrite combine_app, Ai; auto|].
  destruct (x =? j); [cbn [wc_to wc_original]; rewrite combine_app, Aj; auto|]. reflexivity.
Qed.

Lemma ring_good p n l : forall g P r g',
  simple_graph g -> vertex_count g = n -> good n (ws_entries g) P ->
  (forall k x, In x (ws_entries g k) -> oe_at_origin (snd x) = true) -> pairs_ok n l ->
  add_edges_try p g l = Done (Ok r, g') ->
  good n (ws_entries g') (l ++ map flip l ++ P) /\
  (forall k x, In x (ws_entries g' k) -> oe_at_origin (snd x) = true).
Proof.
  induction l as [|[i j] l IH]; intros g P r g' W V G Or O E.
  - cbn in E. injection E as _ <-. auto.
  - apply Forall_cons_iff in O as [(Hi & Hj & N) O']. cbn [fst snd] in Hi, Hj, N.
    cbn [add_edges_try] in E. rewrite <- V in Hi, Hj.
    destruct (adj_dec g i j) as [A|A]; [rewrite (add_edge_present p W A) in E; discriminate|].
    destruct (ws_add_edge p W Hi Hj N A) as (g1 & E1 & X1). rewrite E1 in E. cbn [bind] in E.
    destruct (add_edge_ok W E1) as (_ & W1 & V1 & _).
    assert (G1 : good n (ws_entries g1) ((i, j) :: (j, i) :: P)).
    { change (i, j) with (ends (mk_oe i j true)) at 1. change (j, i) with (flip (ends (mk_oe i j true))).
      apply good_add with (ent := ws_entries g) (i := i) (j := j); auto; try congruence.
      - rewrite (map_fst_entries i (simple_shape W V)). auto.
      - unfold og. reflexivity.
      - rewrite X1, Nat.eqb_refl. symmetry. apply Permutation_cons_append.
      - rewrite X1, Nat.eqb_refl. destruct (Nat.eqb_spec j i); [congruence|].
        symmetry. apply Permutation_cons_append.
      - intros k K1 K2. rewrite X1. destruct (Nat.eqb_spec k i), (Nat.eqb_spec k j); congruence. }
    assert (Or1 : forall k x, In x (ws_entries g1 k) -> oe_at_origin (snd x) = true).
    { intros k x H. rewrite X1 in H. destruct (k =? i); [apply in_app_iff in H as [H|[<-|[]]]; eauto|].
      destruct (k =? j); [apply in_app_iff in H as [H|[<-|[]]]; eauto|eauto]. }
    destruct (IH g1 _ _ _ W1 (eq_trans V1 V) G1 Or1 O' E) as [G' Or']. split; auto.
    apply (good_P G'). cbn [map flip fst snd app].
    rewrite <- !Permutation_middle. reflexivity.
Qed.

Lemma ring_edges_pairs n d : d < n -> ring_edges n d = ring_pairs n d.
Proof.
  intros Hd. unfold ring_edges, ring_pairs.
  assert (H : forall i, In i (seq 0 n) -> i < n) by (intros i Hi; apply in_seq in Hi; lia).
  revert H. generalize (seq 0 n). induction l as [|i l IH]; intros H; auto.
  cbn [flat_map]. rewrite IH by (intros; apply H; simpl; auto). f_equal.
  specialize (H i (or_introl eq_refl)). apply map_ext_in. intros k Hk. apply in_seq in Hk. cbv zeta. f_equal.
  destruct (Nat.leb_spec n (i + k)).
  - replace (i + k) with ((i + k - n) + 1 * n) at 1 by lia. rewrite Nat.mod_add, Nat.mod_small; lia.
  - rewrite Nat.mod_small; lia.
Qed.

Definition ring_both n d := ring_edges n d ++ map flip (ring_edges n d).

Lemma ring_both_length n d : d < n -> length (ring_both n d) = 2 * (n * d).
Proof.
  intros Hd. unfold ring_both. rewrite app_length, map_length, ring_edges_pairs, ring_pairs_length by auto. lia.
Qed.

Lemma ws_ring p g d : simple_graph g -> 2 * d < vertex_count g ->
  let n := vertex_count g in
  exists g', init_ring p g d = Done (Ok tt, g') /\ shape n g' /\ payloads g' = payloads g /\
    edge_count g' = n * d /\ good n (ws_entries g') (ring_both n d) /\
    (forall k x, In x (ws_entries g' k) -> oe_at_origin (snd x) = true) /\
    (forall k, k < n -> length (ws_entries g' k) = 2 * d).
Proof.
  intros W Hd n. destruct (init_ring_ok p W Hd) as (g' & E & W' & V' & P' & C' & A' & D').
  exists g'. destruct (clear_edges_spec W) as (W0 & V0 & _ & _ & N0).
  pose proof (simple_shape W' V') as S'.
  assert (Z : forall x, ws_entries (clear_edges g) x = []).
  { intros x. specialize (N0 x). rewrite <- (map_fst_entries x (simple_shape W0 eq_refl)) in N0.
    apply map_eq_nil in N0. auto. }
  assert (G0 : good n (ws_entries (clear_edges g)) []).
  { constructor; intros; try (rewrite Z in *); auto; try (simpl in *; tauto); [constructor|].
    unfold origs. induction (seq 0 n) as [|a l IH]; auto. cbn [flat_map]. rewrite Z. auto. }
  unfold init_ring in E.
  destruct (@ring_good p n (ring_pairs (vertex_count (clear_edges g)) d) (clear_edges g) [] tt g')
    as [G' Or']; auto.
  { intros k x H. rewrite Z in H. destruct H. }
  { rewrite V0. apply init_ring_range_ok. lia. }
  splits; auto.
  - apply (good_P G'). rewrite app_nil_r, V0. unfold ring_both. fold n. rewrite ring_edges_pairs by (unfold n; lia). auto.
  - intros k Hk. rewrite <- (D' k Hk), <- (map_fst_entries k S'), map_length. auto.
Qed.

Lemma good_ws_ok n d g : shape n g -> 2 * d < n -> edge_count g = n * d ->
  good n (ws_entries g) (ring_both n d) -> ws_ok n d g.
Proof.
  intros S Hd C G. constructor; auto.
  - apply (good_simple S G). rewrite ring_both_length; lia.
  - apply S.
  - apply S.
  - intros i j o H. apply (gd_partner G H).
  - intros i j o H. apply (gd_origin G H).
  - apply (gd_all G).
Qed.

Lemma ws_ok_good n d g : ws_ok n d g -> shape n g /\ good n (ws_entries g) (ring_both n d).
Proof.
  intros [H1 H2 H3 H4 H5 H6 H7]. pose proof (simple_shape H1 H2) as S. split; auto. constructor; auto.
  - intros i Hi. unfold ws_entries. destruct S as (S1 & _).
    rewrite (proj2 (nth_error_None _ _)); auto. lia.
  - intros i j o H. rewrite <- H2. apply (sg_range H1 i). apply (adj_ws i j S). eauto.
  - intros i j o H E. subst j. apply (sg_irrefl H1 i). apply (adj_ws i i S). eauto.
  - intros i. rewrite (map_fst_entries i S). apply H1.
Qed.

(** ** [randomize] and [new] *)

Definition ens_post n d q (ps : list T) (e : ws_ensemble T) : Prop :=
  ws_ok n d (ws_graph e) /\ payloads (ws_graph e) = ps /\ ws_rewire_prob e = q /\ ws_distance e = d.

Lemma randomize_runs (live : Prop) p (e : ws_ensemble T) n d :
  simple_graph (ws_graph e) -> vertex_count (ws_graph e) = n -> ws_distance e = d -> 2 * d < n ->
  (live -> 2 * d + 1 < n) ->
  runs live (ens_post n d (ws_rewire_prob e) (payloads (ws_graph e))) (ws_randomize p e).
Proof.
  intros W V D Hd Live. rewrite <- V in Hd. destruct (ws_ring p W Hd) as (g & E & S & P & C & G & Or & Len).
  rewrite V in *.
  apply runs_ext with (m := fun rs =>
    do ' (g', rs') <- foldM (ws_randomize_vertex p (ws_rewire_prob e)) (g, rs) (seq 0 n);
    Done (mk_wse g' (ws_rewire_prob e) d, rs')).
  { intros rs. unfold ws_randomize. rewrite D, E. cbn [bind unwrap].
    pose proof S as (_ & -> & _). reflexivity. }
  apply (@runs_bind live _ _ (loop_post n g (ring_both n d)) _
    (fun rs => foldM (ws_randomize_vertex p (ws_rewire_prob e)) (g, rs) (seq 0 n))
    (fun g' rs' => Done (mk_wse g' (ws_rewire_prob e) d, rs'))).
  - apply loop_runs; auto.
    + intros i Hi. apply in_seq in Hi. lia.
    + intros A. specialize (Live A). rewrite ring_both_length by lia. nia.
  - intros g' (S' & P' & C' & G' & _). apply runs_ret. unfold ens_post. cbn. splits; auto; try congruence.
    apply good_ws_ok; auto. congruence.
Qed.

Lemma graph_new_ok (mk : nat -> T) n :
  simple_graph (graph_new mk n : graph (ws_container T)) /\ vertex_count (graph_new mk n : graph (ws_container T)) = n.
Proof. destruct (@graph_new_spec T (ws_container T) _ _ mk n) as (W & V & _). auto. Qed.

Lemma new_unfold p (mk : nat -> T) n d q rs : 2 * d < n ->
  exists g, init_ring p (graph_new mk n) d = Done (Ok tt, g) /\ simple_graph g /\ vertex_count g = n /\
    payloads g = map mk (seq 0 n) /\
    ws_new p mk n d q rs = do x <- ws_randomize p (mk_wse g q d) rs; Done (Ok x).
Proof.
  intros Hd. destruct (graph_new_ok mk n) as [W V]. rewrite <- V in Hd.
  destruct (init_ring_ok p W Hd) as (g & E & W' & V' & P' & _). exists g. splits; auto; try congruence.
  - rewrite P'. destruct (@graph_new_spec T (ws_container T) _ _ mk n) as (_ & _ & _ & P & _). auto.
  - unfold ws_new. destruct (Nat.ltb_spec n (1 + 2 * d)); [lia|]. rewrite E. cbn [bind]. reflexivity.
Qed.

(** ** The smallest ring *)

(** Before vertex [i] is visited, with every draw accepted, in the complete graph. *)
Definition stuck_inv n i g : Prop :=
  shape n g /\ good n (ws_entries g) (origs n (ws_entries g)) /\ length (origs n (ws_entries g)) = n * (n - 1) /\
  (forall k x, In x (ws_entries g k) -> oe_at_origin (snd x) = true -> i <= k /\ i <= fst x) /\
  (forall a b, i <= a -> i <= b -> a < n -> b < n -> a <> b ->
     exists o, oe_at_origin o = true /\ In (b, o) (ws_entries g a)).

Lemma stuck_step p q n i g : (forall r, accepts q r = true) -> stuck_inv n i g -> i < n ->
  runs False (stuck_inv n (S i)) (fun rs => ws_randomize_vertex p q (g, rs) i).
Proof.
  intros Ac (S & G & L & H1 & H2) Hi.
  eapply runs_weaken; [|apply (@vertex_runs False p q n g _ i S G Hi)]; [|tauto].
  intros g' (S' & _ & _ & G' & O' & K' & _ & A'). unfold stuck_inv. splits; auto.
  - apply (good_P G'). symmetry. apply G'.
  - rewrite (Permutation_length (gd_all G')). auto.
  - intros k [j o] H H0. destruct (H1 _ _ (O' _ _ H H0) H0) as [B1 B2]. cbn [fst snd] in *. split.
    + destruct (Nat.eq_dec k i) as [->|]; [|lia]. apply (A' Ac) in H. cbn in H. congruence.
    + destruct (Nat.eq_dec j i) as [->|]; [|lia].
      apply (gd_partner G') in H. apply (A' Ac) in H. cbn in H. congruence.
  - intros a b Ha Hb Han Hbn N. destruct (H2 a b) as (o & Ho & Hin); try lia.
    exists o. split; auto. apply K'; auto; cbn; lia.
Qed.

Lemma stuck_last p q n i g : (forall r, accepts q r = true) -> stuck_inv n i g -> n = i + 2 ->
  forall rs, ws_randomize_vertex p q (g, rs) i = NoFuel.
Proof.
  intros Ac (S & G & L & H1 & H2) Hn rs. assert (Hi : i < n) by lia.
  destruct (container_ws S Hi) as (c & Hc & Ec & Lc). rewrite (vertex_unfold p q rs Hc Lc).
  assert (E1 : wc_to c = map fst (ws_entries g i)) by (rewrite Ec, map_fst_combine; auto).
  assert (E2 : wc_original c = map snd (ws_entries g i)) by (rewrite Ec, map_snd_combine; auto).
  pose proof (@pick_runs False q _ (ws_entries g i) [] (le_n _) rs) as R.
  rewrite E1, E2, map_length. cbn [map app] in R.
  destruct (foldM _ _ _) as [[s rs1]| | |]; cbn [bind]; try tauto.
  destruct R as [(l' & rv & -> & Pl & Fr & Al) _]. cbn [app].
  destruct (vertex_removed S G Hi Hc Pl Fr) as (g2 & Er & S2 & P2 & C2 & G2 & Pm & Ei & Sub & Keep & KeepM).
  rewrite Er. cbn [bind].
  destruct (H2 i (Datatypes.S i)) as (o & Ho & Hin); try lia.
  assert (Hrv : In (Datatypes.S i, o) rv).
  { rewrite Pl in Hin. apply in_app_iff in Hin as [Hin|]; auto.
    specialize (Al Ac _ Hin Ho). rewrite skipn_all in Al. destruct Al. }
  assert (Only : forall x, In x rv -> fst x = Datatypes.S i).
  { intros [j o'] Hx. rewrite Forall_forall in Fr. pose proof (Fr _ Hx) as Ox. cbn [fst snd] in *.
    assert (H : In (j, o') (ws_entries g i)) by (rewrite Pl; apply in_app_iff; auto).
    destruct (H1 _ _ H Ox). pose proof (gd_range G H). pose proof (gd_irrefl G H). cbn [fst] in *. lia. }
  assert (Oe : ends o = (i, Datatypes.S i)).
  { pose proof (gd_origin G Hin) as Og. unfold og in Og. rewrite Ho in Og. auto. }
  destruct rv as [|[j1 o1] rv]; [destruct Hrv|].
  assert (j1 = Datatypes.S i) by (apply (Only (j1, o1)); simpl; auto). subst j1.
  assert (o1 = o).
  { pose proof (gd_nodup G i) as D. rewrite Pl, map_app in D. apply NoDup_app_iff in D as (_ & D & _).
    cbn [map fst] in D. apply NoDup_cons_iff in D as [D _]. destruct Hrv as [E|Hrv]; [congruence|].
    exfalso. apply D. apply (in_map fst) in Hrv. auto. }
  subst o1. cbn [map snd foldM]. unfold ws_add_random_edge at 1.
  rewrite find_pair_eq; [|destruct S2 as (_ & -> & _); lia|lia].
  rewrite (find_pair_stuck S2); [reflexivity|lia|].
  intros a b (Ha & Hb & N & N1 & N2 & Na). apply Na. rewrite Oe in N1, N2.
  destruct (good_complete G L Ha Hb N) as [ob Hob]. 
  assert (K : forall a b ob, In (b, ob) (ws_entries g a) -> a = i -> b <> Datatypes.S i -> In (b, ob) (ws_entries g2 a)).
  { clear - Pl Only Ei. intros a b ob H -> Nb. rewrite Ei. rewrite Pl in H.
    apply in_app_iff in H as [H|H]; auto. apply Only in H. cbn in H. congruence. }
  destruct (Nat.eq_dec a i) as [->|Nai].
  - apply (in_map fst) with (x := (b, ob)). apply K; auto; congruence.
  - destruct (Nat.eq_dec b i) as [->|Nbi].
    + pose proof (gd_partner G Hob) as Hp. apply K in Hp; auto; try congruence.
      apply (gd_partner G2) in Hp. apply (in_map fst) in Hp. auto.
    + apply (in_map fst) with (x := (b, ob)). apply Keep; auto.
Qed.

Lemma loop_stuck p q n g : (forall r, accepts q r = true) -> 2 <= n -> stuck_inv n 0 g ->
  forall rs, foldM (ws_randomize_vertex p q) (g, rs) (seq 0 n) = NoFuel.
Proof.
  intros Ac Hn H0.
  assert (K : forall k, k + 2 <= n -> runs False (stuck_inv n k)
    (fun rs => foldM (ws_randomize_vertex p q) (g, rs) (seq 0 k))).
  { induction k as [|k IH]; intros Hk.
    - cbn. apply runs_ret. auto.
    - apply runs_ext with (m := fun rs =>
        do ' (g1, rs1) <- foldM (ws_randomize_vertex p q) (g, rs) (seq 0 k);
        ws_randomize_vertex p q (g1, rs1) k).
      { intros rs. rewrite seq_S, foldM_app. cbn [plus].
        destruct (foldM _ _ (seq 0 k)) as [[g1 rs1]| | |]; auto. cbn [bind foldM].
        destruct (ws_randomize_vertex p q (g1, rs1) k); reflexivity. }
      apply (@runs_bind False _ _ (stuck_inv n k) _
        (fun rs => foldM (ws_randomize_vertex p q) (g, rs) (seq 0 k))
        (fun g1 rs1 => ws_randomize_vertex p q (g1, rs1) k)); [apply IH; lia|].
      intros g1 H1. apply stuck_step; auto. lia. }
  intros rs. replace n with ((n - 2) + (1 + 1)) at 1 by lia. rewrite seq_app, foldM_app. cbn [plus].
  specialize (K (n - 2) ltac:(lia) rs). cbv beta in K.
  destruct (foldM _ _ (seq 0 (n - 2))) as [[g1 rs1]| | |]; try tauto; auto.
  destruct K as [K _]. cbn [bind seq foldM].
  rewrite (stuck_last p Ac K) by lia. reflexivity.
Qed.

Lemma ring_stuck n d g : n = 2 * d + 1 -> shape n g -> good n (ws_entries g) (ring_both n d) ->
  (forall k x, In x (ws_entries g k) -> oe_at_origin (snd x) = true) -> stuck_inv n 0 g.
Proof.
  intros Hn S G Or.
  assert (L : length (ring_both n d) = n * (n - 1)) by (rewrite ring_both_length by lia; nia).
  unfold stuck_inv. splits; auto; try lia.
  - apply (good_P G). symmetry. apply G.
  - rewrite (Permutation_length (gd_all G)). auto.
  - intros a b _ _ Ha Hb N. destruct (good_complete G L Ha Hb N) as [o H]. exists o. split; auto.
    apply (Or _ _ H).
Qed.

Lemma randomize_stuck p (e : ws_ensemble T) n d :
  simple_graph (ws_graph e) -> vertex_count (ws_graph e) = n -> ws_distance e = d ->
  n = 2 * d + 1 -> 1 <= d -> (forall r, accepts (ws_rewire_prob e) r = true) ->
  forall rs, ws_randomize p e rs = NoFuel.
Proof.
  intros W V D Hn Hd Ac rs. assert (H : 2 * d < vertex_count (ws_graph e)) by lia.
  destruct (ws_ring p W H) as (g & E & S & P & C & G & Or & Len). rewrite V in *.
  unfold ws_randomize. rewrite D, E. cbn [bind unwrap]. pose proof S as (_ & -> & _).
  rewrite (@loop_stuck p _ n); auto; [lia|]. apply (@ring_stuck n d); auto.
Qed.

(** ** Runs that leave the ring as it is *)

Lemma vertex_nonempty p q n g P i :
  shape n g -> good n (ws_entries g) P -> i < n ->
  (forall k x, In x (ws_entries g k) -> oe_at_origin (snd x) = true) ->
  forall rs g' rs', ws_randomize_vertex p q (g, rs) i = Done (g', rs') ->
  (exists k x, In x (ws_entries g' k) /\ oe_at_origin (snd x) = false) \/
  (g' = g /\ exists u, rs = u ++ rs' /\ Forall (fun r => accepts q r = false) u /\
     length u = length (ws_entries g i)).
Proof.
  intros S G Hi Or rs g' rs' E.
  destruct (container_ws S Hi) as (c & Hc & Ec & Lc). rewrite (vertex_unfold p q rs Hc Lc) in E.
  assert (E1 : wc_to c = map fst (ws_entries g i)) by (rewrite Ec, map_fst_combine; auto).
  assert (E2 : wc_original c = map snd (ws_entries g i)) by (rewrite Ec, map_snd_combine; auto).
  destruct (foldM (ws_pick q) _ _) as [[[[to orig] rewire] rs1]| | |] eqn:Ep; try discriminate E.
  pose proof (pick_none Ep) as [_ Hnone].
  destruct rewire as [|o1 rewire].
  - right. destruct (Hnone eq_refl) as (-> & -> & u & -> & Fu & Lu).
    cbn [bind foldM] in E. injection E as <- <-. split.
    + destruct g as [a b vs]. unfold ws_with. cbn. f_equal. apply upd_same.
      cbn in Hc. rewrite Hc. destruct c; reflexivity.
    + exists u. splits; auto. rewrite Lu, firstn_all, E2.
      assert (Al : forall o, In o (map snd (ws_entries g i)) -> oe_at_origin o = true).
      { intros o H. apply in_map_iff in H as (x & <- & H). eauto. }
      rewrite <- (map_length snd). revert Al. generalize (map snd (ws_entries g i)).
      induction l as [|a l IH]; intros Al; auto. cbn [filter]. rewrite (Al a) by (simpl; auto).
      cbn [length]. rewrite IH; auto. intros; apply Al; simpl; auto.
  - left. pose proof (@pick_runs False q _ (ws_entries g i) [] (le_n _) rs) as R.
    rewrite E1, E2, map_length in Ep. cbn [map app] in R. rewrite Ep in R.
    destruct R as [(l' & rv & Es & Pl & Fr & _) _]. injection Es as -> -> Erv.
    destruct rv as [|[j1 o] rv]; [discriminate Erv|]. cbn [map snd] in Erv. injection Erv as -> ->.
    cbn [bind] in E. change (o :: map snd rv) with (map snd ((j1, o) :: rv)) in E.
    destruct (vertex_removed S G Hi Hc Pl Fr) as (g2 & Er & S2 & P2 & C2 & G2 & Pm & Ei & Sub & Keep & KeepM).
    rewrite Er in E. cbn [bind] in E. cbn [map snd foldM] in E.
    unfold ws_add_random_edge at 1 in E.
    rewrite find_pair_eq in E; [|destruct S2 as (_ & -> & _); lia|lia].
    assert (Hn : 0 < n) by lia.
    pose proof (@find_pair_runs T False n g2 o S2 Hn ltac:(tauto) rs1) as R.
    destruct (find_pair_list g2 o rs1) as [[[a b] rs2]| | |]; try discriminate E.
    destruct R as [Ad _]. cbn [fst snd bind] in *.
    destruct (add_edge_good p S2 G2 Ad) as (g3 & E3 & S3 & P3 & C3 & G3 & K3 & O3 & New).
    rewrite E3 in E. cbn [bind] in E.
    pose proof (@add_edges_runs T False p n (map snd rv) g3 _ S3 Hn G3 ltac:(tauto) rs2) as R.
    cbv beta in R. rewrite E in R. destruct R as [(S4 & _ & _ & G4 & K4 & _) _].
    exists a, (b, oe_moved o). split; auto.
Qed.

Lemma vertex_reject p q n g i u rs :
  shape n g -> i < n -> (forall k x, In x (ws_entries g k) -> oe_at_origin (snd x) = true) ->
  Forall (fun r => accepts q r = false) u -> length u = length (ws_entries g i) ->
  ws_randomize_vertex p q (g, u ++ rs) i = Done (g, rs).
Proof.
  intros S Hi Or Fu Lu. destruct (container_ws S Hi) as (c & Hc & Ec & Lc).
  rewrite (vertex_unfold p q _ Hc Lc).
  assert (E2 : wc_original c = map snd (ws_entries g i)) by (rewrite Ec, map_snd_combine; auto).
  rewrite pick_reject; auto.
  - cbn [bind foldM]. do 2 f_equal. destruct g as [a b vs]. unfold ws_with. cbn. f_equal. apply upd_same.
    cbn in Hc. rewrite Hc. destruct c; reflexivity.
  - rewrite firstn_all, Lu, E2, <- (map_length snd).
    assert (Al : forall o, In o (map snd (ws_entries g i)) -> oe_at_origin o = true).
    { intros o H. apply in_map_iff in H as (x & <- & H). eauto. }
    revert Al. generalize (map snd (ws_entries g i)).
    induction l as [|a l IH]; intros Al; auto. cbn [filter]. rewrite (Al a) by (simpl; auto).
    cbn [length]. rewrite IH; auto. intros; apply Al; simpl; auto.
Qed.

Lemma loop_kept p q n w P l : forall g,
  shape n g -> good n (ws_entries g) P -> (forall i, In i l -> i < n) ->
  (forall k x, In x (ws_entries g k) -> oe_at_origin (snd x) = true) ->
  (forall k, k < n -> length (ws_entries g k) = w) ->
  forall rs g' rs',
  (foldM (ws_randomize_vertex p q) (g, rs) l = Done (g', rs') /\
   (forall k x, In x (ws_entries g' k) -> oe_at_origin (snd x) = true)) <->
  (g' = g /\ exists u, rs = u ++ rs' /\ Forall (fun r => accepts q r = false) u /\ length u = length l * w).
Proof.
  induction l as [|i l IH]; intros g S G Hl Or Hw rs g' rs'.
  - cbn [foldM]. split.
    + intros [E _]. injection E as <- <-. split; auto. exists []. auto.
    + intros (-> & u & -> & _ & Lu). destruct u; [auto|discriminate Lu].
  - assert (Hi : i < n) by (apply Hl; simpl; auto).
    assert (Hl' : forall i, In i l -> i < n) by (intros; apply Hl; simpl; auto).
    cbn [foldM]. split.
    + intros [E Or'].
      destruct (ws_randomize_vertex p q (g, rs) i) as [[g1 rs1]| | |] eqn:E1; try discriminate E.
      cbn [bind] in E.
      destruct (vertex_nonempty S G Hi Or E1) as [(k & x & Hx & Ox)|(-> & u & -> & Fu & Lu)].
      * exfalso.
        pose proof (@vertex_runs False p q n g P i S G Hi ltac:(tauto) rs) as R. cbv beta in R.
        rewrite E1 in R. destruct R as [(S1 & _ & _ & G1 & _) _].
        pose proof (@loop_runs False p q n P l g1 S1 G1 Hl' ltac:(tauto) rs1) as R. cbv beta in R.
        rewrite E in R. destruct R as [(_ & _ & _ & _ & K) _].
        specialize (K _ _ Hx Ox). apply Or' in K. congruence.
      * destruct (proj1 (IH g S G Hl' Or Hw rs1 g' rs') (conj E Or')) as (-> & v & -> & Fv & Lv).
        split; auto. exists (u ++ v). splits.
        -- apply app_assoc.
        -- apply Forall_app; auto.
        -- rewrite app_length, Lu, Lv, Hw by auto. cbn [length]. lia.
    + intros (-> & u & -> & Fu & Lu). split; auto.
      rewrite <- (firstn_skipn w u) in Fu |- *. apply Forall_app in Fu as [F1 F2].
      cbn [length] in Lu. rewrite <- app_assoc, (@vertex_reject p q n); auto.
      2:{ rewrite firstn_length, Hw by auto. lia. }
      cbn [bind]. apply (IH g S G Hl' Or Hw). split; auto. exists (skipn w u). splits; auto.
      rewrite skipn_length. lia.
Qed.

Lemma randomize_kept p (e : ws_ensemble T) n d :
  simple_graph (ws_graph e) -> vertex_count (ws_graph e) = n -> ws_distance e = d -> 2 * d < n ->
  forall rs rs',
  (exists e', ws_randomize p e rs = Done (e', rs') /\
     forall k x, In x (ws_entries (ws_graph e') k) -> oe_at_origin (snd x) = true) <->
  (exists u, rs = u ++ rs' /\ Forall (fun r => accepts (ws_rewire_prob e) r = false) u /\
     length u = 2 * (n * d)).
Proof.
  intros W V D Hd rs rs'. rewrite <- V in Hd. destruct (ws_ring p W Hd) as (g & E & S & P & C & G & Or & Len).
  rewrite V in *.
  assert (R : ws_randomize p e rs =
    do ' (g', rs') <- foldM (ws_randomize_vertex p (ws_rewire_prob e)) (g, rs) (seq 0 n);
    Done (mk_wse g' (ws_rewire_prob e) d, rs')).
  { unfold ws_randomize. rewrite D, E. cbn [bind unwrap]. pose proof S as (_ & -> & _). reflexivity. }
  assert (Hs : forall i, In i (seq 0 n) -> i < n) by (intros i Hi; apply in_seq in Hi; lia).
  pose proof (fun g' => @loop_kept p (ws_rewire_prob e) n (2 * d) _ (seq 0 n) g S G Hs Or Len rs g' rs') as K.
  rewrite seq_length in K. rewrite R. split.
  - intros (e' & E' & Or').
    destruct (foldM _ _ _) as [[g' rs1]| | |]; try discriminate E'. cbn [bind] in E'.
    injection E' as <- <-. cbn [ws_graph] in Or'.
    destruct (proj1 (K g') (conj eq_refl Or')) as (_ & u & H1 & H2 & H3). exists u. splits; auto. lia.
  - intros (u & H1 & H2 & H3).
    destruct (proj2 (K g)) as [E' Or']. { split; auto. exists u. splits; auto. lia. }
    rewrite E'. cbn [bind]. eexists. split; [reflexivity|]. auto.
Qed.

Lemma sort_ws_ok n d g g' : ws_ok n d g -> 2 * d < n -> sort_adj g = Done g' ->
  ws_ok n d g' /\ payloads g' = payloads g.
Proof.
  intros H Hd E. destruct (sort_adj_spec (wo_simple H)) as (g2 & E2 & W2 & [V2 [C2 [P2 _]]] & _).
  rewrite E in E2. injection E2 as <-. split; auto.
  destruct (ws_ok_good H) as [S G].
  apply good_ws_ok; auto.
  - apply (simple_shape W2). rewrite V2. apply H.
  - rewrite C2. apply H.
  - apply (good_perm G). intros i. unfold sort_adj in E.
    destruct (mapM ac_sort_adj (vertices g)) as [vs| | |] eqn:M; try discriminate E. cbn [bind] in E.
    injection E as <-. unfold ws_entries. cbn [vertices].
    pose proof (mapM_nth M i) as N.
    destruct (nth_error (vertices g) i) as [c|] eqn:Hc; [|rewrite N; auto].
    destruct N as (c' & -> & Es). cbn in Es. unfold wc_sort_adj in Es.
    destruct (Nat.eqb_spec (length (wc_to c)) (length (wc_original c))); [|discriminate Es].
    injection Es as <-. cbn [wc_to wc_original]. rewrite combine_map_fst_snd. symmetry. apply sort_by_perm.
Qed.

End Run.
