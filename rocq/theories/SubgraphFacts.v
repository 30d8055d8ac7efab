(** Proofs about [cloned_subgraph]. *)
From Verif Require Import Base BaseFacts Sums Containers ContainerSpec ContainerFacts Graph GraphSpec GraphFacts Subgraph.
From Coq Require Import Sorted.
Set Implicit Arguments.
Unset Strict Implicit.

Lemma dedup_In l x : In x (dedup l) <-> In x l.
Proof.
  induction l as [|a l IH]; [simpl; tauto|].
  destruct l as [|b l]; [simpl; tauto|].
  change (dedup (a :: b :: l)) with
    (if a =? b then dedup (b :: l) else a :: dedup (b :: l)).
  destruct (Nat.eqb_spec a b) as [->|H].
  - rewrite IH. simpl. tauto.
  - change (In x (a :: dedup (b :: l))) with (a = x \/ In x (dedup (b :: l))).
    rewrite IH. simpl. tauto.
Qed.

Lemma dedup_sorted l : StronglySorted le l -> StronglySorted lt (dedup l).
Proof.
  induction l as [|a l IH]; intros S; [constructor|].
  inversion S as [|? ? S' F]; subst.
  destruct l as [|b l]; [constructor; [constructor|constructor]|].
  change (dedup (a :: b :: l)) with
    (if a =? b then dedup (b :: l) else a :: dedup (b :: l)).
  destruct (Nat.eqb_spec a b) as [->|H]; auto.
  constructor; auto. apply Forall_forall. intros x Hx. apply (proj1 (dedup_In _ _)) in Hx.
  inversion F as [|? ? Hab F']; subst. inversion S' as [|? ? _ Fb]; subst.
  destruct Hx as [<-|Hx]; [lia|]. rewrite Forall_forall in Fb. specialize (Fb _ Hx). lia.
Qed.

Lemma sorted_lt_NoDup l : StronglySorted lt l -> NoDup l.
Proof.
  induction 1 as [|a l S IH F]; constructor; auto.
  intros H. rewrite Forall_forall in F. specialize (F _ H). lia.
Qed.

Lemma filter_map_In {X Y} (f : X -> option Y) l y :
  In y (filter_map f l) <-> exists x, In x l /\ f x = Some y.
Proof.
  induction l as [|a l IH]; simpl.
  - split; [tauto|intros (x & [] & _)].
  - destruct (f a) eqn:E; simpl; rewrite IH; split.
    + intros [<-|(x & H & F)]; eauto.
    + intros (x & [<-|H] & F); [left; congruence|eauto].
    + intros (x & H & F); eauto.
    + intros (x & [<-|H] & F); [congruence|eauto].
Qed.

Lemma filter_map_NoDup {X Y} (f : X -> option Y) l :
  NoDup l -> (forall a b y, f a = Some y -> f b = Some y -> a = b) ->
  NoDup (filter_map f l).
Proof.
  intros N I. induction N as [|a l H N IH]; simpl; [constructor|].
  destruct (f a) eqn:E; auto. constructor; auto.
  rewrite filter_map_In. intros (x & Hx & F). rewrite (I _ _ _ E F) in H. auto.
Qed.

Lemma position_eqb_iff l n i :
  NoDup l -> position (Nat.eqb n) l = Some i <-> nth_error l i = Some n.
Proof.
  intros N. split.
  - intros H. destruct (position_nth _ _ H) as (x & E & F). apply Nat.eqb_eq in F. congruence.
  - intros H. destruct (position_exists (Nat.eqb n) l n (nth_error_In _ _ H) (Nat.eqb_refl n)) as [k K].
    rewrite K. destruct (position_nth _ _ K) as (x & E & F). apply Nat.eqb_eq in F. subst x.
    f_equal. apply (proj1 (NoDup_nth_error l) N).
    + apply nth_error_Some; congruence.
    + congruence.
Qed.

Section Generic.
Context {T A : Type} {C : AdjContainer T A} {L : AdjLaws C}.

Lemma cloned_subgraph_none (g : graph A) l :
  (l = [] \/ exists v, In v l /\ vertex_count g <= v) ->
  cloned_subgraph g l = Done None.
Proof.
  intros H. unfold cloned_subgraph.
  pose proof (sort_by_sorted (fun x => x) l) as S.
  pose proof (sort_by_perm (fun x => x) l) as P.
  destruct (rev (sort_by (fun x => x) l)) as [|last r] eqn:E; auto.
  destruct H as [->|(v & Hv & Hn)]; [discriminate|].
  assert (In v (sort_by (fun x => x) l)) as Hs by (rewrite P; auto).
  assert (sort_by (fun x => x) l = rev r ++ [last]) as El
    by (rewrite <- (rev_involutive (sort_by _ _)), E; reflexivity).
  assert (v <= last) as Hle.
  { rewrite El in Hs, S. apply in_app_iff in Hs. destruct Hs as [Hs|[<-|[]]]; auto.
    clear -S Hs. induction (rev r) as [|a q IH]; [destruct Hs|].
    inversion S as [|? ? S' F]; subst. destruct Hs as [<-|Hs]; auto.
    rewrite Forall_forall in F. apply F. apply in_app_iff; simpl; auto. }
  destruct (Nat.leb_spec (vertex_count g) last); auto. lia.
Qed.

Lemma cloned_subgraph_some (g : graph A) l :
  simple_graph g -> l <> [] -> (forall v, In v l -> v < vertex_count g) ->
  exists ks h,
    StronglySorted lt ks /\ (forall v, In v ks <-> In v l) /\
    cloned_subgraph g l = Done (Some h) /\ simple_graph h /\
    vertex_count h = length ks /\
    (forall a v, nth_error ks a = Some v ->
       nth_error (payloads h) a = nth_error (payloads g) v) /\
    (forall a b v w, nth_error ks a = Some v -> nth_error ks b = Some w ->
       (adj h a b <-> adj g v w)).
Proof.
  intros W Hne Hl.
  pose proof (sort_by_sorted (fun x => x) l) as S.
  pose proof (sort_by_perm (fun x => x) l) as P.
  set (ks := dedup (sort_by (fun x => x) l)).
  assert (SK : StronglySorted lt ks) by (apply dedup_sorted; auto).
  assert (NK : NoDup ks) by (apply sorted_lt_NoDup; auto).
  assert (IK : forall v, In v ks <-> In v l).
  { intros v. unfold ks. rewrite dedup_In. split; intros H.
    - rewrite <- P; auto.
    - rewrite P; auto. }
  assert (V : exists vs, mapM (fun ic => do c <- container g (snd ic);
                   Done (mk_nc (fst ic)
                           (filter_map (fun n => position (Nat.eqb n) ks) (ac_neighbors c))
                           (ac_contained c))) (enumerate ks) = Done vs /\
     length vs = length ks /\
     forall a v, nth_error ks a = Some v -> exists c, nth_error (vertices g) v = Some c /\
       nth_error vs a = Some (mk_nc a (filter_map (fun n => position (Nat.eqb n) ks) (nbrs g v))
                                 (ac_contained c))).
  { assert (HV : forall v, In v ks -> v < vertex_count g) by (intros; apply Hl, IK; auto).
    clearbody ks. unfold enumerate.
    enough (G : forall q k, (forall v, In v q -> v < vertex_count g) ->
      exists vs, mapM (fun ic => do c <- container g (snd ic);
                   Done (mk_nc (fst ic)
                           (filter_map (fun n => position (Nat.eqb n) ks) (ac_neighbors c))
                           (ac_contained c))) (enumerate_from k q) = Done vs /\
      length vs = length q /\
      forall a v, nth_error q a = Some v -> exists c, nth_error (vertices g) v = Some c /\
       nth_error vs a = Some (mk_nc (k + a) (filter_map (fun n => position (Nat.eqb n) ks) (nbrs g v))
                                 (ac_contained c))) by (apply (G ks 0); auto).
    induction q as [|x q IH]; intros k Hq.
    - exists []. splits; auto. intros [|a] v; discriminate.
    - destruct (IH (Datatypes.S k)) as (vs & E & Len & N); [intros; apply Hq; simpl; auto|].
      destruct (container_lt W (Hq x (or_introl eq_refl))) as (c & Ec & _ & _ & Nc).
      cbn [enumerate_from mapM fst snd]. unfold container at 1, vget. rewrite Ec. cbn [bind].
      rewrite E. cbn [bind]. eexists; splits; [reflexivity|simpl; auto|].
      intros [|a] v; simpl.
      + injection 1 as <-. exists c. rewrite Nat.add_0_r, Nc. auto.
      + intros H. destruct (N _ _ H) as (c' & E' & N'). exists c'. split; auto.
        rewrite N'. do 2 f_equal. lia. }
  destruct V as (vs & Evs & Lvs & Nvs).
  set (h := mk_graph (length vs) (Nat.div (list_sum (map ac_degree vs)) 2) vs).
  assert (NB : forall a v, nth_error ks a = Some v ->
    nbrs h a = filter_map (fun n => position (Nat.eqb n) ks) (nbrs g v)).
  { intros a v H. destruct (Nvs _ _ H) as (c & _ & E). unfold nbrs at 1. simpl. rewrite E. auto. }
  assert (AD : forall a b, adj h a b <->
      exists v w, nth_error ks a = Some v /\ nth_error ks b = Some w /\ adj g v w).
  { intros a b. split.
    - intros H. pose proof (adj_lt_l H) as Ha. simpl in Ha. rewrite Lvs in Ha.
      destruct (vget_lt _ Ha) as [v Ev]. unfold adj in H. rewrite (NB _ _ Ev) in H.
      apply filter_map_In in H. destruct H as (w & Hw & E).
      apply position_eqb_iff in E; auto. exists v, w. auto.
    - intros (v & w & Ev & Ew & H). unfold adj. rewrite (NB _ _ Ev). apply filter_map_In.
      exists w. split; auto. apply position_eqb_iff; auto. }
  assert (EQ : forall a v w, nth_error ks a = Some v -> nth_error ks a = Some w -> v = w)
    by (intros; congruence).
  assert (RG : forall i j, adj h i j -> j < vertex_count h).
  { intros i j H. apply AD in H. destruct H as (v & w & _ & E & _).
    unfold vertex_count; simpl. rewrite Lvs. apply nth_error_Some; congruence. }
  assert (IR : forall i, ~ adj h i i).
  { intros i H. apply AD in H. destruct H as (v & w & E1 & E2 & H).
    assert (v = w) by congruence. subst. apply (sg_irrefl W _ H). }
  assert (ND : forall i, NoDup (nbrs h i)).
  { intros i. destruct (nth_error ks i) as [v|] eqn:E.
    - rewrite (NB _ _ E). apply filter_map_NoDup; [apply W|].
      intros a b y Ha Hb. apply position_eqb_iff in Ha, Hb; auto. congruence.
    - rewrite nbrs_out; [constructor|]. simpl. rewrite Lvs. apply nth_error_None; auto. }
  assert (SY : forall i j, adj h i j -> adj h j i).
  { intros i j H. apply AD in H. destruct H as (v & w & E1 & E2 & H). apply AD.
    exists w, v. splits; auto. apply (sg_sym W _ _ H). }
  exists ks, h. splits; auto.
  - unfold cloned_subgraph. fold ks.
    destruct (rev (sort_by (fun x => x) l)) as [|last r] eqn:E.
    + destruct Hne. apply Permutation_nil.
      rewrite <- (rev_involutive (sort_by (fun x => x) l)), E in P. exact P.
    + assert (In last l).
      { rewrite <- P. apply in_rev. rewrite E. left; auto. }
      destruct (Nat.leb_spec (vertex_count g) last) as [Hc|_].
      { specialize (Hl _ H). lia. }
      rewrite Evs. cbn [bind]. reflexivity.
  - constructor; auto.
    + intros i c E. simpl in E.
      assert (i < length ks) as Hi by (rewrite <- Lvs; apply nth_error_Some; congruence).
      destruct (vget_lt _ Hi) as [v Ev]. destruct (Nvs _ _ Ev) as (c' & _ & E').
      rewrite E in E'. injection E' as ->. simpl; auto.
    + pose proof (degsum_edges RG IR ND SY) as D.
      assert (degsum h = list_sum (map ac_degree vs)) as DS.
      { unfold degsum, sum_over. f_equal. unfold vertex_count. simpl next_id.
        transitivity (map (fun i => length (nbrs h i)) (seq 0 (length (vertices h)))); auto.
        apply list_ext. intros i. rewrite !nth_error_map, nth_error_seq. simpl vertices.
        destruct (Nat.ltb_spec i (length vs)) as [Hi|Hi].
        - destruct (vget_lt _ Hi) as [c E]. rewrite E. simpl. unfold nbrs. simpl. rewrite E. auto.
        - apply nth_error_None in Hi. rewrite Hi. auto. }
      change (edge_count h) with (Nat.div (list_sum (map (@ac_degree T (node_container T) _) vs)) 2).
      rewrite <- DS, D, Nat.mul_comm, Nat.div_mul; lia.
  - intros a v E. destruct (Nvs _ _ E) as (c & Ec & Ev). unfold payloads.
    rewrite !nth_error_map. simpl. rewrite Ec, Ev. reflexivity.
  - intros a b v w Ea Eb. rewrite AD. split.
    + intros (v' & w' & E1 & E2 & H). congruence.
    + intros H; eauto.
Qed.

End Generic.
