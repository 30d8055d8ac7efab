(** Facts about connected components. *)
From Verif Require Import Base BaseFacts Containers ContainerSpec Graph GraphSpec GraphFacts.
From Verif Require Import GraphOps Search Traversal TraversalSpec TraversalFacts Components.
From Coq Require Import Sorted.
Set Implicit Arguments.
Unset Strict Implicit.

Section Components.
Context {T A : Type} {C : AdjContainer T A} {L : AdjLaws C}.
Implicit Types g : graph A.

Lemma joined_lt g i v : simple_graph g -> i < vertex_count g -> joined (adj g) i v -> v < vertex_count g.
Proof.
  intros W Hi [k Wk]. inversion Wk as [|a b c _ Hab]; subst; auto. apply (sg_range W _ _ Hab).
Qed.

Lemma label_fold cur (items : list (nat * T)) : forall ids,
  (forall v, In v (map fst items) -> v < length ids) ->
  exists ids', foldM (fun (c : list (option nat)) (jt : nat * T) => vset c (fst jt) (Some cur)) ids items = Done ids' /\
    length ids' = length ids /\
    (forall v, In v (map fst items) -> nth_error ids' v = Some (Some cur)) /\
    (forall v, ~ In v (map fst items) -> nth_error ids' v = nth_error ids v).
Proof.
  induction items as [|[j t] items IH]; intros ids R; simpl in *.
  - exists ids. splits; auto. tauto.
  - rewrite vset_done by (apply R; auto). cbn [bind].
    destruct (IH (upd ids j (Some cur))) as (ids' & -> & Ll & H1 & H2).
    { intros v Hv. rewrite upd_length. auto. }
    rewrite upd_length in Ll. exists ids'. splits; auto.
    + intros v [<-|Hv]; auto. destruct (in_dec Nat.eq_dec j (map fst items)) as [K|K]; auto.
      rewrite H2 by auto. apply nth_error_upd_same. apply R; auto.
    + intros v Hv. rewrite H2 by tauto. apply nth_error_upd_other. tauto.
Qed.

Lemma label_spec g ids i cur : simple_graph g -> i < vertex_count g -> length ids = vertex_count g ->
  exists ids', label_component g ids i cur = Done ids' /\ length ids' = vertex_count g /\
    (forall v, joined (adj g) i v -> nth_error ids' v = Some (Some cur)) /\
    (forall v, ~ joined (adj g) i v -> nth_error ids' v = nth_error ids v).
Proof.
  intros W Hi Hl. unfold label_component.
  destruct (dfs_index_spec i W) as (is & -> & _ & R & _). cbn [bind].
  destruct (@label_fold cur is ids) as (ids' & E & Ll & H1 & H2).
  - intros v Hv. apply R in Hv as [_ Hv]. rewrite Hl. eapply joined_lt; eauto.
  - exists ids'. splits; auto; try congruence.
    + intros v Hv. apply H1, R; auto.
    + intros v Hv. apply H2. rewrite R. tauto.
Qed.

Record cinv g (k : nat) (sugg : list nat) (ids : list (option nat)) (cur : nat) : Prop := {
  ci_len : length ids = vertex_count g;
  ci_cur : length sugg = cur;
  ci_done : forall v, v < k -> nth_error ids v <> Some None;
  ci_lab : forall v c, nth_error ids v = Some (Some c) ->
             exists s, nth_error sugg c = Some s /\ joined (adj g) s v /\ s <= v;
  ci_sugg : forall c s, nth_error sugg c = Some s ->
             s < vertex_count g /\ forall v, joined (adj g) s v -> nth_error ids v = Some (Some c);
  ci_sorted : StronglySorted lt (rev (map (fun s => vertex_count g - s) sugg));
  ci_below : forall s, In s sugg -> s < k
}.

Lemma suggest_pass_spec g k sugg ids cur : simple_graph g -> k < vertex_count g ->
  cinv g k sugg ids cur ->
  exists sugg' ids' cur', suggest_pass g (sugg, ids, cur) k = Done (sugg', ids', cur') /\
    ids_pass g (ids, cur) k = Done (ids', cur') /\ cinv g (S k) sugg' ids' cur'.
Proof.
  intros W Hk I. destruct I as [I1 I2 I3 I4 I5 I6 I7]. unfold suggest_pass, ids_pass.
  destruct (vget_lt ids (i := k)) as [c Ec]; [lia|]. rewrite (vget_done _ _ Ec). cbn [bind].
  destruct c as [c|].
  - exists sugg, ids, cur. splits; auto. constructor; auto.
    + intros v Hv. destruct (Nat.eq_dec v k) as [->|]; [congruence|apply I3; lia].
    + intros s Hs. apply I7 in Hs. lia.
  - destruct (label_spec cur W Hk I1) as (ids' & -> & Hl & Hy & Hn). cbn [bind].
    exists (sugg ++ [k]), ids', (S cur). splits; auto.
    assert (Sep : forall v c, nth_error ids v = Some (Some c) -> ~ joined (adj g) k v).
    { intros v c Hv Hj. destruct (I4 v c Hv) as (s & Hs & Hsv & _).
      destruct (I5 c s Hs) as [_ K]. rewrite (K k) in Ec; [discriminate|].
      eapply joined_trans; [eauto|]. apply joined_sym; auto. apply adj_sym; auto. }
    assert (Dec : forall v, nth_error ids v = Some None -> v < k -> False).
    { intros v H1 H2. apply (I3 v); auto. }
    assert (JD : forall v, joined (adj g) k v \/ ~ joined (adj g) k v).
    { intros v. destruct (dfs_index_spec k W) as (is & _ & _ & R & _).
      destruct (in_dec Nat.eq_dec v (map fst is)) as [K|K]; rewrite R in K; tauto. }
    constructor; auto.
    + rewrite app_length. simpl. lia.
    + intros v Hv. destruct (JD v) as [J|J]; [rewrite Hy by auto; discriminate|].
      rewrite Hn by auto. apply I3. destruct (Nat.eq_dec v k) as [->|]; [|lia].
      exfalso; apply J, joined_refl.
    + intros v c Hv. destruct (JD v) as [J|J].
      * rewrite Hy in Hv by auto. injection Hv as <-. exists k.
        rewrite nth_error_app2 by lia. rewrite I2, Nat.sub_diag. splits; auto.
        destruct (Nat.lt_ge_cases v k) as [H|H]; auto. exfalso.
        assert (v < vertex_count g) by (eapply joined_lt; eauto).
        destruct (vget_lt ids (i := v)) as [[c|] Hv]; [lia| |].
        -- apply (Sep _ _ Hv); auto.
        -- apply (I3 v); auto.
      * rewrite Hn in Hv by auto. destruct (I4 v c Hv) as (s & Hs & K).
        exists s. split; auto. rewrite nth_error_app1; auto. apply (nth_error_lt _ _ Hs).
    + intros c s Hs. destruct (Nat.lt_ge_cases c cur) as [H|H].
      * rewrite nth_error_app1 in Hs by lia. destruct (I5 c s Hs) as [K1 K2]. split; auto.
        intros v Hv. rewrite Hn; auto. apply (Sep v c). auto.
      * pose proof (nth_error_lt _ _ Hs) as Hc. rewrite app_length in Hc. simpl in Hc.
        assert (c = cur) by lia. subst c.
        rewrite nth_error_app2 in Hs by lia. rewrite I2, Nat.sub_diag in Hs. simpl in Hs.
        injection Hs as <-. split; auto.
    + rewrite map_app, rev_app_distr. simpl. constructor; auto.
      apply Forall_forall. intros x Hx. apply in_rev, in_map_iff in Hx as (s & <- & Hs).
      apply I7 in Hs. lia.
    + intros s Hs. apply in_app_iff in Hs as [Hs|[<-|[]]]; [apply I7 in Hs|]; lia.
Qed.

Lemma cinv_start g : cinv g 0 [] (repeat None (vertex_count g)) 0.
Proof.
  constructor; simpl; try tauto; auto.
  - apply repeat_length.
  - intros; lia.
  - intros v c H. apply nth_error_In, repeat_spec in H. discriminate.
  - intros [|c] s H; discriminate.
  - constructor.
Qed.

Lemma components_run g : simple_graph g ->
  exists sugg ids cur, suggest_connections g = Done sugg /\
    connected_components_ids g = Done (cur, ids) /\ cinv g (vertex_count g) sugg ids cur.
Proof.
  intros W.
  destruct (@foldM_seq_inv _ (fun (acc : (list nat * list (option nat) * nat) * (list (option nat) * nat)) k =>
      do a <- suggest_pass g (fst acc) k; do b <- ids_pass g (snd acc) k; Done (a, b))
    (fun k acc => fst acc = (fst (fst (fst acc)), fst (snd acc), snd (snd acc)) /\
       cinv g k (fst (fst (fst acc))) (fst (snd acc)) (snd (snd acc)))
    (vertex_count g) (([], repeat None (vertex_count g), 0), (repeat None (vertex_count g), 0)))
    as ([[[sugg ids] cur] [ids' cur']] & E & Eq & I).
  - simpl. split; auto. apply cinv_start.
  - intros k [[[sugg ids] cur] [ids' cur']] Hk [Eq I]. cbn [fst snd] in *. injection Eq as -> ->.
    destruct (suggest_pass_spec W Hk I) as (s1 & i1 & c1 & -> & -> & I1). cbn [bind].
    eexists. split; [reflexivity|]. simpl. auto.
  - simpl in *. injection Eq as -> ->.
    assert (P : forall l a b r, foldM (fun (acc : (list nat * list (option nat) * nat) * (list (option nat) * nat)) k =>
      do a <- suggest_pass g (fst acc) k; do b <- ids_pass g (snd acc) k; Done (a, b)) (a, b) l = Done r ->
      foldM (suggest_pass g) a l = Done (fst r) /\ foldM (ids_pass g) b l = Done (snd r)).
    { induction l as [|x l IH]; intros a b r H.
      - cbn [foldM] in *. injection H as <-. auto.
      - cbn [foldM fst snd] in *. apply bind_done in H as (y & H & H').
        apply bind_done in H as (a' & -> & H). apply bind_done in H as (b' & -> & H).
        injection H as <-. cbn [bind]. apply IH in H'. auto. }
    apply P in E as [E1 E2]. simpl in *.
    exists sugg, ids', cur'. unfold suggest_connections, connected_components_ids.
    rewrite E1, E2. simpl. auto.
Qed.

Lemma ids_spec g : simple_graph g ->
  exists num ids, connected_components_ids g = Done (num, ids) /\
    length ids = vertex_count g /\
    (forall v, v < vertex_count g -> exists c, nth_error ids v = Some (Some c) /\ c < num) /\
    (forall c, c < num -> exists v, nth_error ids v = Some (Some c)) /\
    (forall u v, u < vertex_count g -> v < vertex_count g ->
       (nth_error ids u = nth_error ids v <-> joined (adj g) u v)).
Proof.
  intros W. destruct (components_run W) as (sugg & ids & cur & _ & E & I).
  destruct I as [I1 I2 I3 I4 I5 I6 I7].
  assert (Lab : forall v, v < vertex_count g -> exists c, nth_error ids v = Some (Some c)).
  { intros v Hv. destruct (vget_lt ids (i := v)) as [[c|] H]; [lia|eauto|].
    exfalso. apply (I3 v); auto. }
  exists cur, ids. splits; auto.
  - intros v Hv. destruct (Lab v Hv) as [c Hc]. exists c. split; auto.
    destruct (I4 v c Hc) as (s & Hs & _). apply nth_error_lt in Hs. lia.
  - intros c Hc. destruct (vget_lt sugg (i := c)) as [s Hs]; [lia|].
    exists s. apply (I5 c s Hs). apply joined_refl.
  - intros u v Hu Hv. destruct (Lab u Hu) as [c Hc]. destruct (I4 u c Hc) as (s & Hs & Js & _).
    split.
    + intros Ee. rewrite Hc in Ee. symmetry in Ee. destruct (I4 v c Ee) as (s' & Hs' & Js' & _).
      assert (s' = s) by congruence. subst s'.
      eapply joined_trans; [|eauto]. apply joined_sym; auto. apply adj_sym; auto.
    + intros J. rewrite Hc. symmetry. apply (I5 c s Hs). eapply joined_trans; eauto.
Qed.

Lemma sorted_of_rev n l : (forall s, In s l -> s < n) ->
  StronglySorted lt (rev (map (fun s => n - s) l)) -> StronglySorted lt l.
Proof.
  induction l as [|a l IH]; simpl; intros R H; constructor.
  - apply IH; auto. clear - H. revert H. generalize (rev (map (fun s => n - s) l)) as r.
    induction r as [|b r IHr]; simpl; intros H; [constructor|].
    inversion_clear H as [|? ? H1 H2]. constructor; auto. apply Forall_app in H2. tauto.
  - apply Forall_forall. intros b Hb.
    assert (K : n - b < n - a); [|lia].
    assert (Hr : In (n - b) (rev (map (fun s => n - s) l))).
    { rewrite <- in_rev. apply in_map_iff. eauto. }
    clear - H Hr. induction (rev (map (fun s => n - s) l)) as [|c r IHr]; [destruct Hr|].
    simpl in H. inversion_clear H as [|? ? H1 H2]. destruct Hr as [->|Hr]; auto.
    rewrite Forall_app, !Forall_forall in H2. apply H2. simpl; auto.
Qed.

Lemma suggest_spec g : simple_graph g ->
  exists sugg, suggest_connections g = Done sugg /\
    StronglySorted lt sugg /\
    (forall s, In s sugg -> s < vertex_count g /\ forall v, joined (adj g) s v -> s <= v) /\
    (forall v, v < vertex_count g -> exists s, In s sugg /\ joined (adj g) s v) /\
    (forall s s', In s sugg -> In s' sugg -> joined (adj g) s s' -> s = s').
Proof.
  intros W. destruct (components_run W) as (sugg & ids & cur & E & _ & I).
  destruct I as [I1 I2 I3 I4 I5 I6 I7].
  assert (In5 : forall s, In s sugg -> exists c, nth_error sugg c = Some s) by (apply In_nth_error).
  assert (U : forall s s', In s sugg -> In s' sugg -> joined (adj g) s s' -> s = s').
  { intros s s' H H' J. destruct (In5 s H) as [c Hc], (In5 s' H') as [c' Hc'].
    destruct (I5 c s Hc) as [_ K], (I5 c' s' Hc') as [_ K'].
    pose proof (K s' J) as K1. rewrite (K' s' (joined_refl _ _)) in K1.
    injection K1 as ->. congruence. }
  exists sugg. splits; auto.
  - eapply sorted_of_rev; eauto.
  - intros s Hs. destruct (In5 s Hs) as [c Hc]. destruct (I5 c s Hc) as [K1 K2]. split; auto.
    intros v Hv. destruct (I4 v c (K2 v Hv)) as (s' & Hs' & _ & Hle). congruence.
  - intros v Hv. destruct (vget_lt ids (i := v)) as [[c|] H]; [lia| |exfalso; apply (I3 v); auto].
    destruct (I4 v c H) as (s & Hs & J & _). exists s. split; auto. eapply nth_error_In; eauto.
Qed.

(** *** Sizes *)

Definition has_id (ids : list (option nat)) (c v : nat) : bool :=
  match nth_error ids v with
  | Some (Some d) => d =? c
  | _ => false
  end.

Definition members (ids : list (option nat)) (c : nat) : list nat :=
  filter (has_id ids c) (seq 0 (length ids)).

Lemma count_ids num ids : (forall i, In i ids -> exists c, i = Some c /\ c < num) ->
  exists r, foldM (fun (r : list nat) (i : option nat) =>
                        do k <- expect i;
                        do old <- vget r k;
                        vset r k (old + 1)) (repeat 0 num) ids = Done r /\
    length r = num /\ forall c, c < num -> nth_error r c = Some (length (members ids c)).
Proof.
  intros R.
  destruct (@foldM_list_inv _ _ (fun (r : list nat) (i : option nat) =>
                        do k <- expect i;
                        do old <- vget r k;
                        vset r k (old + 1))
    (fun l r => length r = num /\ forall c, c < num -> nth_error r c = Some (length (members l c))) ids (repeat 0 num))
    as (r & E & H); eauto.
  - split; [apply repeat_length|]. intros. apply nth_error_repeat; auto.
  - intros l1 x l2 r -> [Lr Hr]. destruct (R x) as (c & -> & Hc).
    { apply in_app_iff; simpl; auto. }
    cbn [expect bind]. rewrite (vget_done _ _ (Hr c Hc)). cbn [bind].
    rewrite vset_done by lia. eexists. split; [reflexivity|]. split; [rewrite upd_length; auto|].
    assert (K : forall d, length (members (l1 ++ [Some c]) d)
                = length (members l1 d) + (if c =? d then 1 else 0)).
    { intros d. unfold members. rewrite app_length. simpl. rewrite Nat.add_1_r, seq_S, filter_app, app_length.
      f_equal.
      - f_equal. apply filter_ext_in. intros v Hv. apply in_seq in Hv. unfold has_id.
        rewrite nth_error_app1 by lia. auto.
      - simpl. unfold has_id at 1. rewrite nth_error_app2 by lia. rewrite Nat.sub_diag. simpl.
        destruct (c =? d); auto. }
    intros d Hd. rewrite nth_error_upd, Lr, K. destruct (Nat.eqb_spec c d) as [<-|N].
    + replace (c <? num) with true by (symmetry; apply Nat.ltb_lt; auto). simpl. auto.
    + simpl. rewrite Nat.add_0_r. auto.
Qed.

Lemma components_spec g : simple_graph g ->
  exists sizes comps, connected_components g = Done sizes /\
    StronglySorted (fun a b => b <= a) sizes /\
    Permutation sizes (map (@length nat) comps) /\
    Permutation (concat comps) (seq 0 (vertex_count g)) /\
    (forall c, In c comps -> c <> []) /\
    (forall c u v, In c comps -> In u c -> v < vertex_count g -> (In v c <-> joined (adj g) u v)).
Proof.
  intros W. destruct (ids_spec W) as (num & ids & E & Hl & H1 & H2 & H3).
  unfold connected_components. rewrite E. cbn [bind].
  destruct (@count_ids num ids) as (r & -> & Lr & Hr).
  { intros i Hi. apply In_nth_error in Hi as [v Hv]. pose proof (nth_error_lt _ _ Hv) as Hlt.
    destruct (H1 v) as (c & Hc & Hn); [lia|]. exists c. split; congruence. }
  cbn [bind].
  exists (sort_desc r), (map (members ids) (seq 0 num)).
  assert (Hm : forall c v, In v (members ids c) <-> nth_error ids v = Some (Some c)).
  { intros c v. unfold members. rewrite filter_In, in_seq. unfold has_id. split.
    - intros [_ H]. destruct (nth_error ids v) as [[d|]|]; try discriminate.
      apply Nat.eqb_eq in H. congruence.
    - intros H. rewrite H, Nat.eqb_refl. apply nth_error_lt in H. split; auto. lia. }
  splits; auto.
  - apply sort_desc_sorted.
  - rewrite sort_desc_perm, map_map.
    enough (r = map (fun c => length (members ids c)) (seq 0 num)) as <- by reflexivity.
    apply list_ext. intros c. rewrite nth_error_map, nth_error_seq. destruct (Nat.ltb_spec c num) as [Hc|Hc].
    + rewrite Hr; auto.
    + apply nth_error_None. lia.
  - rewrite <- flat_map_concat_map. apply NoDup_Permutation.
    + assert (G : forall l, NoDup l -> NoDup (flat_map (members ids) l)).
      { induction l as [|c l IH]; intros N; simpl; [constructor|].
        apply NoDup_cons_iff in N as [Nc N]. apply NoDup_app_iff. splits; auto.
        - unfold members. apply NoDup_filter, seq_NoDup.
        - intros v Hv Hf. apply in_flat_map in Hf as (d & Hd & Hf). apply Hm in Hv, Hf.
          assert (c = d) by congruence. subst; auto. }
      apply G, seq_NoDup.
    + apply seq_NoDup.
    + intros v. rewrite in_flat_map, in_seq. split.
      * intros (c & _ & Hv). apply Hm, nth_error_lt in Hv. lia.
      * intros [_ Hv]. destruct (H1 v) as (c & Hc & Hn); [lia|]. exists c.
        split; [apply in_seq; lia|apply Hm; auto].
  - intros c Hc. apply in_map_iff in Hc as (k & <- & Hk). apply in_seq in Hk.
    destruct (H2 k) as [v Hv]; [lia|]. apply Hm in Hv. intros E0. rewrite E0 in Hv. destruct Hv.
  - intros c u v Hc Hu Hv. apply in_map_iff in Hc as (k & <- & _). apply Hm in Hu.
    rewrite Hm, <- Hu. rewrite <- (H3 u v); auto; [split; auto|]. apply nth_error_lt in Hu. lia.
Qed.

End Components.
