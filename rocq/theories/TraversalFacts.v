(** Facts about the traversal iterators. *)
From Verif Require Import Base BaseFacts Containers ContainerSpec Graph GraphSpec GraphFacts.
From Verif Require Import GraphOps Search Traversal TraversalSpec.
Set Implicit Arguments.
Unset Strict Implicit.

(** ** Marking loops *)

Section MarkNew.
Context {M V : Type} (eq_dec : forall x y : V, {x = y} + {x <> y}).
Context (is_marked : M -> V -> outcome bool) (mark : M -> V -> outcome M).
Context (Rep : M -> list V -> Prop) (ok : V -> Prop).
Context (Hget : forall m seen i, Rep m seen -> ok i ->
           is_marked m i = Done (if in_dec eq_dec i seen then true else false)).
Context (Hset : forall m seen i, Rep m seen -> ok i -> ~ In i seen ->
           exists m', mark m i = Done m' /\ Rep m' (i :: seen)).
Context (Hext : forall m s s', Rep m s -> (forall w, In w s <-> In w s') -> Rep m s').

Lemma mark_new_spec l : forall m seen, Rep m seen -> Forall ok l ->
  exists m', mark_new is_marked mark m l = Done (m', scan eq_dec seen l) /\
             Rep m' (scan eq_dec seen l ++ seen).
Proof.
  induction l as [|i l IH]; intros m seen R F; simpl; [eauto|].
  inversion_clear F as [|? ? Hi Hl]. rewrite (Hget R Hi). simpl.
  destruct (in_dec eq_dec i seen) as [K|K].
  - apply IH; auto.
  - destruct (Hset R Hi K) as (m1 & -> & R1). simpl.
    destruct (IH _ _ R1 Hl) as (m2 & -> & R2). simpl.
    exists m2. split; auto. revert R2. intros R2. apply (Hext R2).
    intros w. simpl. rewrite !in_app_iff. simpl. tauto.
Qed.
End MarkNew.

Notation scan_nat := (scan Nat.eq_dec).

(** [h] marks exactly the vertices in [seen]. *)
Definition hrep (n : nat) (h : list bool) (seen : list nat) : Prop :=
  length h = n /\
  forall i, i < n -> nth_error h i = Some (if in_dec Nat.eq_dec i seen then true else false).

Lemma hrep_ext n h s s' : hrep n h s -> (forall w, In w s <-> In w s') -> hrep n h s'.
Proof.
  intros [L H] E. split; auto. intros i Hi. rewrite (H i Hi).
  destruct (in_dec Nat.eq_dec i s) as [K|K], (in_dec Nat.eq_dec i s') as [K'|K']; auto;
    exfalso; apply E in K || apply E in K'; tauto.
Qed.

Lemma hrep_upd n h seen i : hrep n h seen -> i < n -> hrep n (upd h i true) (i :: seen).
Proof.
  intros [L H] Hi. split; [rewrite upd_length; auto|]. intros j Hj.
  rewrite nth_error_upd, L. destruct (Nat.eqb_spec i j) as [E|N].
  - replace (i <? n) with true by (symmetry; apply Nat.ltb_lt; auto). cbn [andb].
    destruct (in_dec Nat.eq_dec j (i :: seen)) as [K|K]; auto. exfalso; apply K; simpl; auto.
  - cbn [andb]. rewrite (H j Hj).
    destruct (in_dec Nat.eq_dec j seen) as [K|K], (in_dec Nat.eq_dec j (i :: seen)) as [K'|K'];
      auto; exfalso.
    + apply K'. simpl; auto.
    + destruct K'; auto.
Qed.

Lemma hrep_false n : hrep n (repeat false n) [].
Proof.
  split; [apply repeat_length|]. intros i Hi. simpl. apply nth_error_repeat; auto.
Qed.

Lemma handle_new_spec n h seen l : hrep n h seen -> Forall (fun i => i < n) l ->
  exists h', handle_new h l = Done (h', scan_nat seen l) /\ hrep n h' (scan_nat seen l ++ seen).
Proof.
  intros R F. unfold handle_new.
  apply (@mark_new_spec _ _ Nat.eq_dec) with (Rep := hrep n) (ok := fun i => i < n); auto.
  - intros m s i [L H] Hi. apply vget_done; auto.
  - intros m s i [L H] Hi _. exists (upd m i true). split.
    + apply vset_done. lia.
    + apply hrep_upd; auto. split; auto.
  - intros. eapply hrep_ext; eauto.
Qed.

(** ** Abstract facts used below *)

Lemma run_parent {V} eq_dec (succ : V -> list V) seen work out :
  run eq_dec succ seen work out -> forall l1 v l2, out = l1 ++ v :: l2 ->
  In v work \/ exists u, In u l1 /\ In v (succ u).
Proof.
  induction 1 as [seen|seen work x rest work' out P1 P2 Hr IH]; intros l1 v l2 E.
  - destruct l1; discriminate.
  - destruct l1 as [|y l1]; simpl in E; injection E as -> E.
    + left. rewrite P1. simpl; auto.
    + destruct (IH _ _ _ E) as [H|(u & Hu & Hv)].
      * rewrite P2 in H. apply in_app_iff in H as [H|H].
        -- left. rewrite P1. simpl; auto.
        -- right. exists y. apply In_scan in H as [H _]. simpl; auto.
      * right. exists u. simpl; auto.
Qed.

Section Iterators.
Context {T A : Type} {C : AdjContainer T A} {L : AdjLaws C}.
Implicit Types g : graph A.

(** Vertices waiting in an abstract search of [g]. *)
Definition ainv g (seen work : list nat) : Prop :=
  NoDup work /\ (forall x, In x work -> In x seen) /\ forall x, In x work -> x < vertex_count g.

Lemma ainv_step g seen x rest work' :
  simple_graph g -> ainv g seen (x :: rest) ->
  Permutation work' (rest ++ scan_nat seen (nbrs g x)) ->
  ainv g (scan_nat seen (nbrs g x) ++ seen) work'.
Proof.
  intros W (N & I & R) P. apply NoDup_cons_iff in N as [Nx N].
  assert (Hin : forall y, In y work' <-> In y rest \/ In y (scan_nat seen (nbrs g x))).
  { intros y. rewrite P. apply in_app_iff. }
  unfold ainv; splits.
  - apply (Permutation_NoDup (Permutation_sym P)). apply NoDup_app_iff. splits; auto.
    + apply NoDup_scan.
    + intros y Hy Hs. apply In_scan in Hs as [_ Hs]. apply Hs, I. simpl; auto.
  - intros y Hy. apply in_app_iff. apply Hin in Hy as [Hy|Hy]; auto. right. apply I; simpl; auto.
  - intros y Hy. apply Hin in Hy as [Hy|Hy]; [apply R; simpl; auto|].
    apply In_scan in Hy as [Hy _]. eapply sg_range; eauto.
Qed.

Lemma nbrs_range g i : simple_graph g -> Forall (fun j => j < vertex_count g) (nbrs g i).
Proof. intros W. apply Forall_forall. intros j. apply (sg_range W). Qed.

Lemma succ_closed g : simple_graph g -> forall x y,
  In x (seq 0 (vertex_count g)) -> In y (nbrs g x) -> In y (seq 0 (vertex_count g)).
Proof. intros W x y _ H. apply in_seq. split; [lia|]. apply (sg_range W _ _ H). Qed.

(** What a finished abstract search looks like. *)
Lemma run_bounds g seen work out :
  simple_graph g -> ainv g seen work -> run Nat.eq_dec (nbrs g) seen work out ->
  NoDup out /\ (forall v, In v out -> v < vertex_count g) /\
  length work <= length out <= vertex_count g.
Proof.
  intros W (N & I & R) Hr.
  assert (No : NoDup out) by (eapply run_NoDup; eauto).
  assert (Ro : forall v, In v out -> v < vertex_count g).
  { intros v Hv. apply (run_reach Hr) in Hv as (x & k & Hx & Wk).
    inversion Wk as [|u w l _ [H _]]; subst; auto. apply (sg_range W _ _ H). }
  splits; auto.
  - eapply run_length; eauto.
  - rewrite <- (seq_length (vertex_count g) 0). apply NoDup_incl_length; auto.
    intros v Hv. apply in_seq. split; [lia|]. apply Ro; auto.
Qed.

Lemma payload_nth g i c : nth_error (vertices g) i = Some c ->
  nth_error (payloads g) i = Some (ac_contained c).
Proof. intros H. unfold payloads. apply map_nth_error; auto. Qed.

(** *** Depth first *)

Definition drep g (s : dfs) (x : list nat * list nat) : Prop :=
  hrep (vertex_count g) (dfs_handled s) (fst x) /\ dfs_stack s = snd x /\ ainv g (fst x) (snd x).

Definition item_ok g (y : nat) (i : nat * T) : Prop :=
  fst i = y /\ nth_error (payloads g) y = Some (snd i).

Lemma dfs_index_sim g s x : simple_graph g -> drep g s x ->
  match adfs_next Nat.eq_dec (nbrs g) x with
  | None => dfs_index_next g s = Done None
  | Some (y, x') => exists i s', dfs_index_next g s = Done (Some (i, s')) /\ drep g s' x' /\ item_ok g y i
  end.
Proof.
  intros W (H & E & I). destruct x as [seen stack]. simpl in *.
  unfold dfs_index_next. rewrite E. destruct stack as [|v rest]; auto.
  assert (Hv : v < vertex_count g) by (apply I; simpl; auto).
  destruct (container_lt W Hv) as (c & Hc & _ & _ & Hn).
  rewrite (vget_done _ _ Hc). simpl. rewrite Hn.
  destruct (handle_new_spec H (nbrs_range v W)) as (h' & -> & H'). simpl.
  eexists _, _. split; [reflexivity|]. split.
  - split; [|split]; simpl; auto. eapply ainv_step; eauto.
    rewrite Permutation_app_comm. apply Permutation_app_head. symmetry. apply Permutation_rev.
  - split; auto. simpl. apply payload_nth; auto.
Qed.

Lemma dfs_next_index g s :
  dfs_next g s = do r <- dfs_index_next g s;
                 Done (match r with None => None | Some (i, s') => Some (snd i, s') end).
Proof.
  unfold dfs_next, dfs_index_next. destruct (dfs_stack s); auto.
  destruct (vget (vertices g) n); simpl; auto.
  destruct (handle_new (dfs_handled s) (ac_neighbors a)) as [[]| | |]; auto.
Qed.

Lemma drain_map {S I J} (f : I -> J) (n1 : S -> outcome (option (I * S)))
  (n2 : S -> outcome (option (J * S))) :
  (forall s, n2 s = do r <- n1 s; Done (match r with None => None | Some (i, s') => Some (f i, s') end)) ->
  forall fuel s, drain n2 fuel s = do l <- drain n1 fuel s; Done (map f l).
Proof.
  intros H. induction fuel as [|fuel IH]; intros s; simpl; auto.
  rewrite H. destruct (n1 s) as [[[i s']|]| | |]; simpl; auto.
  rewrite IH. destruct (drain n1 fuel s'); auto.
Qed.

Lemma drep_trace g s x : simple_graph g -> drep g s x ->
  exists ys, trace (adfs_next Nat.eq_dec (nbrs g)) x ys /\ run Nat.eq_dec (nbrs g) (fst x) (snd x) ys.
Proof.
  intros W (_ & _ & I). destruct x as [seen stack].
  edestruct (@adfs_trace _ Nat.eq_dec (nbrs g) (seq 0 (vertex_count g))) as (ys & Tr & _).
  - apply seq_NoDup.
  - apply succ_closed; auto.
  - intros y Hy. apply in_seq. split; [lia|]. apply I, Hy.
  - reflexivity.
  - exists ys. split; eauto. apply (adfs_run Tr).
Qed.

Lemma Forall2_items g ys (is : list (nat * T)) :
  Forall2 (item_ok g) ys is -> map fst is = ys /\
  forall v t, In (v, t) is -> nth_error (payloads g) v = Some t.
Proof.
  induction 1 as [|y i ys is [E1 E2] F [IH1 IH2]]; simpl; [tauto|].
  split; [congruence|]. intros v t [->|H]; auto. simpl in *. congruence.
Qed.

Lemma dfs_index_drain g s x : simple_graph g -> drep g s x ->
  exists is, drain (dfs_index_next g) (S (vertex_count g)) s = Done is /\
    trace (adfs_next Nat.eq_dec (nbrs g)) x (map fst is) /\
    run Nat.eq_dec (nbrs g) (fst x) (snd x) (map fst is) /\
    (forall v t, In (v, t) is -> nth_error (payloads g) v = Some t).
Proof.
  intros W R. destruct (drep_trace W R) as (ys & Tr & Hr).
  destruct (@run_bounds g _ _ ys W (proj2 (proj2 R)) Hr) as (_ & _ & _ & Lo).
  destruct (drain_sim (fun s x => @dfs_index_sim g s x W) Tr (fuel := S (vertex_count g)) R)
    as (is & E & F); [lia|].
  apply Forall2_items in F as [F1 F2]. exists is. rewrite F1. auto.
Qed.

Lemma drep_new g i : simple_graph g ->
  drep g (dfs_new g i) (if i <? vertex_count g then ([i], [i]) else ([], [])).
Proof.
  intros W. unfold dfs_new. rewrite repeat_length. destruct (Nat.ltb_spec i (vertex_count g)) as [H|H].
  - split; [|split]; simpl; auto.
    + apply hrep_upd; auto. apply hrep_false.
    + unfold ainv; splits; simpl; [constructor; [tauto|constructor]|tauto|intros ? [<-|[]]; auto].
  - split; [|split]; simpl; auto.
    + apply hrep_false.
    + unfold ainv; splits; simpl; try tauto. constructor.
Qed.

Lemma edge_avoiding_nil g u v : edge_avoiding (nbrs g) [] u v <-> adj g u v.
Proof. unfold edge_avoiding, adj. simpl. tauto. Qed.

Lemma joined_iff {V} (R R' : V -> V -> Prop) u v :
  (forall x y, R x y <-> R' x y) -> joined R u v <-> joined R' u v.
Proof.
  intros H. split; intros [k W]; exists k; revert W; apply walk_impl; intros; apply H; auto.
Qed.

Lemma dfs_index_spec g i : simple_graph g ->
  exists is, dfs_index_all g i = Done is /\
    NoDup (map fst is) /\
    (forall v, In v (map fst is) <-> i < vertex_count g /\ joined (adj g) i v) /\
    (forall v t, In (v, t) is -> nth_error (payloads g) v = Some t) /\
    (forall l1 v l2, map fst is = l1 ++ v :: l2 -> v = i \/ exists u, In u l1 /\ adj g u v).
Proof.
  intros W. destruct (dfs_index_drain W (drep_new i W)) as (is & E & _ & Hr & Hp).
  exists is. split; [exact E|].
  destruct (run_bounds W (proj2 (proj2 (drep_new i W))) Hr) as (No & _ & _).
  splits; auto.
  - intros v. destruct (Nat.ltb_spec i (vertex_count g)) as [H|H]; simpl in Hr.
    + rewrite (run_start_reach Hr). rewrite (joined_iff i v (edge_avoiding_nil g)). tauto.
    + rewrite (run_reach Hr). split; [intros (x & k & [] & _)|lia].
  - intros l1 v l2 E2. destruct (run_parent Hr E2) as [K|(u & Hu & K)].
    + destruct (i <? vertex_count g); simpl in K; [left; intuition|tauto].
    + right. exists u. auto.
Qed.

Lemma dfs_all_index g i : dfs_all g i = do is <- dfs_index_all g i; Done (map snd is).
Proof. unfold dfs_all, dfs_index_all. apply drain_map. apply dfs_next_index. Qed.


(** *** States reached by calls of [next] *)

Lemma drep_after g s x s' : simple_graph g -> drep g s x ->
  after (dfs_index_next g) s s' -> exists x', drep g s' x'.
Proof.
  intros W R H. induction H as [|s1 i s2 H [x1 R1] E]; [eauto|].
  pose proof (dfs_index_sim W R1) as K. destruct (adfs_next Nat.eq_dec (nbrs g) x1) as [[y x']|].
  - destruct K as (i' & s' & K & R' & _). exists x'. congruence.
  - congruence.
Qed.

Lemma after_map {S I J} (f : I -> J) (n1 : S -> outcome (option (I * S)))
  (n2 : S -> outcome (option (J * S))) :
  (forall s, n2 s = do r <- n1 s; Done (match r with None => None | Some (i, s') => Some (f i, s') end)) ->
  forall s s', after n2 s s' -> after n1 s s'.
Proof.
  intros H s s' Ha. induction Ha as [|s1 i s2 Ha IH E]; [constructor|].
  rewrite H in E. destruct (n1 s1) as [[[j s3]|]| | |] eqn:E1; simpl in E; try discriminate.
  injection E as <- <-. econstructor; eauto.
Qed.

Lemma drep_size g s x : simple_graph g -> drep g s x ->
  exists is, drain (dfs_index_next g) (S (vertex_count g)) s = Done is /\
    length (dfs_stack s) <= length is <= vertex_count g /\
    length (dfs_handled s) = vertex_count g /\ length (vertices g) = vertex_count g.
Proof.
  intros W R. destruct (dfs_index_drain W R) as (is & E & _ & Hr & _).
  exists is. split; auto. destruct R as ([Lh _] & Es & I).
  destruct (run_bounds W I Hr) as (_ & _ & Hl). rewrite map_length in Hl.
  rewrite Es. splits; try lia. apply W.
Qed.

(** *** Writing through [DfsMut] *)

Lemma dfs_mut_index g s x : simple_graph g -> drep g s x ->
  dfs_mut_next g s = dfs_index_next g s.
Proof.
  intros W (_ & E & I). unfold dfs_mut_next, dfs_index_next. destruct (dfs_stack s) as [|v r]; auto.
  destruct x as [seen st]; simpl in *; subst st.
  destruct (container_lt W (proj2 (proj2 I) v (or_introl eq_refl))) as (c & Hc & _).
  rewrite (vget_done _ _ Hc), Hc. auto.
Qed.

Lemma trace_ext {X Y} (n n' : X -> option (Y * X)) : (forall x, n x = n' x) ->
  forall x ys, trace n x ys -> trace n' x ys.
Proof.
  intros E x ys Tr. induction Tr; econstructor; eauto; rewrite <- E; eauto.
Qed.

Lemma drep_write g g' s x : vertex_count g' = vertex_count g -> drep g s x -> drep g' s x.
Proof. unfold drep, ainv. intros ->. auto. Qed.

Lemma written_cons g g1 g' {S} (f : S -> T -> S * T) st st1 st' y t t' ys :
  simple_graph g -> y < vertex_count g -> ~ In y ys ->
  nth_error (payloads g) y = Some t -> f st t = (st1, t') ->
  vertex_count g1 = vertex_count g -> edge_count g1 = edge_count g ->
  payloads g1 = upd (payloads g) y t' -> (forall v, nbrs g1 v = nbrs g v) ->
  written g1 g' f st1 st' ys -> written g g' f st st' (y :: ys).
Proof.
  intros W Hy Ny Et Ef V E P N (W' & V' & E' & N' & O' & old & new & F1 & F2 & Th).
  assert (K : forall v, v <> y -> nth_error (payloads g1) v = nth_error (payloads g) v).
  { intros v H. rewrite P. apply nth_error_upd_other. auto. }
  unfold written. splits; auto; try congruence.
  - intros v Hv. simpl in Hv. rewrite O' by tauto. apply K. intuition.
  - exists (t :: old), (t' :: new). splits.
    + constructor; auto.
      assert (G : forall l l', Forall2 (fun v t => nth_error (payloads g1) v = Some t) l l' ->
                ~ In y l -> Forall2 (fun v t => nth_error (payloads g) v = Some t) l l').
      { induction 1 as [|v u l l' H F IH]; intros Nl; constructor; simpl in Nl.
        - rewrite <- K by intuition. auto.
        - apply IH. tauto. }
      apply G; auto.
    + constructor; auto. rewrite O' by auto. rewrite P. apply nth_error_upd_same.
      rewrite payloads_length; auto.
    + simpl. rewrite Ef, Th. auto.
Qed.

Lemma written_nil g {S} (f : S -> T -> S * T) st : simple_graph g -> written g g f st st [].
Proof.
  intros W. unfold written. splits; auto. exists [], []. splits; auto; constructor.
Qed.

Lemma dfs_mut_loop_spec {S} (f : S -> T -> S * T) succ x ys :
  trace (adfs_next Nat.eq_dec succ) x ys -> NoDup ys ->
  forall fuel g s st, simple_graph g -> (forall v, nbrs g v = succ v) -> drep g s x ->
  length ys < fuel ->
  exists g' st', dfs_mut_loop f fuel st g s = Done (st', g') /\ written g g' f st st' ys.
Proof.
  intros Tr. induction Tr as [x E|x y x' ys E Tr IH]; intros N fuel g s st W Es R Hf;
    (destruct fuel as [|fuel]; [simpl in Hf; lia|]); simpl;
    pose proof (dfs_index_sim W R) as K; rewrite (dfs_mut_index W R);
    assert (Ex : adfs_next Nat.eq_dec (nbrs g) x = adfs_next Nat.eq_dec succ x)
      by (destruct x as [? [|? ?]]; simpl; rewrite ?Es; auto);
    rewrite Ex, E in K.
  - rewrite K. simpl. exists g, st. split; auto. apply written_nil; auto.
  - destruct K as ([z t] & s' & -> & R' & [<- Et]). simpl in *.
    destruct (f st t) as [st1 t'] eqn:Ef. apply NoDup_cons_iff in N as [Ny N].
    assert (Hz : z < vertex_count g).
    { rewrite <- (payloads_length W). apply (nth_error_lt _ _ Et). }
    destruct (at_mut_set_spec t' W Hz) as (g1 & -> & W1 & V1 & E1 & P1 & N1). simpl.
    destruct (IH N fuel g1 s' st1) as (g' & st' & -> & Wr); auto.
    + intros v. rewrite N1; auto.
    + apply (drep_write V1 R').
    + lia.
    + exists g', st'. split; auto. eapply written_cons; eauto.
Qed.

(** *** Breadth first *)

Definition brep g (s : bfs) (x : @abfs nat) : Prop :=
  hrep (vertex_count g) (bfs_handled s) (ab_seen x) /\
  bfs_q0 s = ab_q0 x /\ bfs_q1 s = ab_q1 x /\ bfs_depth s = ab_depth x /\
  ainv g (ab_seen x) (ab_q0 x ++ ab_q1 x).

Definition bitem_ok g (y : nat * nat) (i : nat * T * nat) : Prop :=
  fst (fst i) = fst y /\ snd i = snd y /\ nth_error (payloads g) (fst y) = Some (snd (fst i)).

Lemma bfs_visit_sim g h seen v q0 q1 d : simple_graph g ->
  hrep (vertex_count g) h seen -> ainv g seen (v :: q0 ++ q1) ->
  exists i s', bfs_visit g h v q0 q1 d = Done (Some (i, s')) /\
    brep g s' (mk_abfs (scan_nat seen (nbrs g v) ++ seen) q0 (q1 ++ scan_nat seen (nbrs g v)) d) /\
    bitem_ok g (v, d) i.
Proof.
  intros W H I. assert (Hv : v < vertex_count g) by (apply I; simpl; auto).
  destruct (container_lt W Hv) as (c & Hc & _ & _ & Hn).
  unfold bfs_visit. rewrite (vget_done _ _ Hc). simpl. rewrite Hn.
  destruct (handle_new_spec H (nbrs_range v W)) as (h' & -> & H'). simpl.
  eexists _, _. split; [reflexivity|]. split.
  - unfold brep; splits; simpl; auto. eapply ainv_step; eauto. rewrite app_assoc. auto.
  - unfold bitem_ok; splits; auto. simpl. apply payload_nth; auto.
Qed.

Lemma bfs_sim g s x : simple_graph g -> brep g s x ->
  match abfs_next Nat.eq_dec (nbrs g) x with
  | None => bfs_next g s = Done None
  | Some (y, x') => exists i s', bfs_next g s = Done (Some (i, s')) /\ brep g s' x' /\ bitem_ok g y i
  end.
Proof.
  intros W (H & E0 & E1 & Ed & I). destruct x as [seen q0 q1 d]. unfold abfs_next. simpl in *.
  unfold bfs_next. rewrite E0, E1, Ed.
  destruct q0 as [|v q0]; [destruct q1 as [|v q1]; auto|].
  - apply bfs_visit_sim; auto. rewrite app_nil_r. auto.
  - apply bfs_visit_sim; auto.
Qed.

Lemma brep_head g s x : simple_graph g -> brep g s x -> forall v,
  In v (bfs_q0 s ++ bfs_q1 s) -> exists c, nth_error (vertices g) v = Some c.
Proof.
  intros W (_ & E0 & E1 & _ & I) v Hv. rewrite E0, E1 in Hv.
  destruct (container_lt W (proj2 (proj2 I) v Hv)) as (c & Hc & _). eauto.
Qed.

Lemma bfs_mut_eq g s x : simple_graph g -> brep g s x -> bfs_mut_next g s = bfs_next g s.
Proof.
  intros W R. pose proof (brep_head W R) as K. unfold bfs_mut_next, bfs_next.
  destruct (bfs_q0 s) as [|v q]; [destruct (bfs_q1 s) as [|v q]; auto|];
    (destruct (K v) as (c & Hc); [simpl; auto|]; unfold bfs_mut_visit, bfs_visit, vget;
     rewrite Hc; auto).
Qed.

Lemma bfs_filtered_eq g s x : simple_graph g -> brep g s x -> bfs_filtered_next g s = bfs_next g s.
Proof.
  intros W R. pose proof (brep_head W R) as K. unfold bfs_filtered_next, bfs_next.
  destruct (bfs_q0 s) as [|v q]; [destruct (bfs_q1 s) as [|v q]; auto|];
    (destruct (K v) as (c & Hc); [simpl; auto|]; unfold bfs_filtered_visit, bfs_visit, vget;
     rewrite Hc; auto).
Qed.

(** The three iterators agree on the states that occur. *)
Definition bfs_like g (next : bfs -> outcome (option ((nat * T * nat) * bfs))) : Prop :=
  forall s x, brep g s x -> next s = bfs_next g s.

Lemma bfs_like_sim g next s x : simple_graph g -> bfs_like g next -> brep g s x ->
  match abfs_next Nat.eq_dec (nbrs g) x with
  | None => next s = Done None
  | Some (y, x') => exists i s', next s = Done (Some (i, s')) /\ brep g s' x' /\ bitem_ok g y i
  end.
Proof. intros W Hl R. rewrite (Hl _ _ R). apply bfs_sim; auto. Qed.

Lemma brep_trace g s x : simple_graph g -> brep g s x ->
  exists ys, trace (abfs_next Nat.eq_dec (nbrs g)) x ys /\
             run Nat.eq_dec (nbrs g) (ab_seen x) (ab_q0 x ++ ab_q1 x) (map fst ys).
Proof.
  intros W (_ & _ & _ & _ & I). destruct x as [seen q0 q1 d].
  edestruct (@abfs_trace _ Nat.eq_dec (nbrs g) (seq 0 (vertex_count g))) as (ys & Tr & _).
  - apply seq_NoDup.
  - apply succ_closed; auto.
  - intros y Hy. apply in_seq. split; [lia|]. apply I, Hy.
  - reflexivity.
  - exists ys. split; eauto. apply (abfs_run Tr).
Qed.

Definition bkey (i : nat * T * nat) : nat * nat := (fst (fst i), snd i).

Lemma Forall2_bitems g ys (is : list (nat * T * nat)) :
  Forall2 (bitem_ok g) ys is -> map bkey is = ys /\
  forall v t d, In (v, t, d) is -> nth_error (payloads g) v = Some t.
Proof.
  induction 1 as [|[y d] i ys is (E1 & E2 & E3) F [IH1 IH2]]; simpl in *; [tauto|].
  split; [unfold bkey at 1; rewrite E1, E2; congruence|].
  intros v t d' [->|H]; eauto. simpl in *. congruence.
Qed.

Lemma bfs_drain g next s x : simple_graph g -> bfs_like g next -> brep g s x ->
  exists is, drain next (S (vertex_count g)) s = Done is /\
    trace (abfs_next Nat.eq_dec (nbrs g)) x (map bkey is) /\
    run Nat.eq_dec (nbrs g) (ab_seen x) (ab_q0 x ++ ab_q1 x) (map fst (map bkey is)) /\
    (forall v t d, In (v, t, d) is -> nth_error (payloads g) v = Some t).
Proof.
  intros W Hl R. destruct (brep_trace W R) as (ys & Tr & Hr).
  assert (I : ainv g (ab_seen x) (ab_q0 x ++ ab_q1 x)) by apply R.
  destruct (run_bounds W I Hr) as (_ & _ & _ & Lo). rewrite map_length in Lo.
  destruct (drain_sim (fun s x => @bfs_like_sim g next s x W Hl) Tr (fuel := S (vertex_count g)) R)
    as (is & E & F); [lia|].
  apply Forall2_bitems in F as [F1 F2]. exists is. rewrite F1. auto.
Qed.

Lemma bfs_like_next g : bfs_like g (bfs_next g).
Proof. red; auto. Qed.
Lemma bfs_like_mut g : simple_graph g -> bfs_like g (bfs_mut_next g).
Proof. red; intros. eapply bfs_mut_eq; eauto. Qed.
Lemma bfs_like_filtered g : simple_graph g -> bfs_like g (bfs_filtered_next g).
Proof. red; intros. eapply bfs_filtered_eq; eauto. Qed.

Lemma brep_after g next s x s' : simple_graph g -> bfs_like g next -> brep g s x ->
  after next s s' -> exists x', brep g s' x'.
Proof.
  intros W Hl R H. induction H as [|s1 i s2 H [x1 R1] E]; [eauto|].
  pose proof (bfs_like_sim W Hl R1) as K. destruct (abfs_next Nat.eq_dec (nbrs g) x1) as [[y x']|].
  - destruct K as (i' & s' & K & R' & _). exists x'. congruence.
  - congruence.
Qed.

Lemma brep_size g next s x : simple_graph g -> bfs_like g next -> brep g s x ->
  exists is, drain next (S (vertex_count g)) s = Done is /\
    length (bfs_q0 s) + length (bfs_q1 s) <= length is <= vertex_count g /\
    length (bfs_handled s) = vertex_count g /\ length (vertices g) = vertex_count g.
Proof.
  intros W Hl R. destruct (bfs_drain W Hl R) as (is & E & _ & Hr & _).
  exists is. split; auto. destruct R as ([Lh _] & E0 & E1 & _ & I).
  destruct (run_bounds W I Hr) as (_ & _ & H). rewrite !map_length, app_length in H.
  rewrite E0, E1. splits; try lia. apply W.
Qed.

(** Searches started at [i] with the vertices [B] excluded. *)
Lemma bfs_start g next s i B : simple_graph g -> bfs_like g next ->
  i < vertex_count g -> ~ In i B ->
  brep g s (mk_abfs (i :: B) [i] [] 0) ->
  exists is, drain next (S (vertex_count g)) s = Done is /\
    NoDup (map fst (map bkey is)) /\
    (forall v, In v (map fst (map bkey is)) <-> joined (edge_avoiding (nbrs g) B) i v) /\
    (forall v t d, In (v, t, d) is ->
       nth_error (payloads g) v = Some t /\ is_dist (edge_avoiding (nbrs g) B) i v d) /\
    ForallOrdPairs (fun a b => snd a <= snd b) is.
Proof.
  intros W Hl Hi Nb R. destruct (bfs_drain W Hl R) as (is & E & Tr & Hr & Hp).
  exists is. split; auto.
  destruct (run_bounds W (proj2 (proj2 (proj2 (proj2 R)))) Hr) as (No & _ & _).
  destruct (abfs_dist Tr (binv_start (nbrs g) Nb)) as [Fd Fo].
  splits; auto.
  - apply (run_start_reach Hr).
  - intros v t d Hin. split; [eauto|].
    rewrite Forall_forall in Fd. specialize (Fd (v, d)). destruct Fd as [Fd _].
    + apply in_map_iff. exists (v, t, d). auto.
    + exact Fd.
  - clear - Fo. induction is as [|a is IH]; simpl in *; [constructor|].
    inversion_clear Fo as [|? ? H1 H2]. constructor; auto.
    rewrite Forall_forall in *. intros b Hb. specialize (H1 (bkey b)).
    apply H1. apply in_map; auto.
Qed.

Lemma brep_start g i : i < vertex_count g ->
  brep g (bfs_new g i) (mk_abfs [i] [i] [] 0).
Proof.
  intros H. unfold bfs_new. destruct (Nat.ltb_spec i (vertex_count g)); [|lia].
  unfold brep; splits; simpl; auto.
  - apply hrep_upd; auto. apply hrep_false.
  - unfold ainv; splits; simpl; [constructor; [tauto|constructor]|tauto|intros ? [<-|[]]; auto].
Qed.

Lemma brep_out g i : vertex_count g <= i ->
  brep g (bfs_new g i) (mk_abfs [] [] [] 0).
Proof.
  intros H. unfold bfs_new. destruct (Nat.ltb_spec i (vertex_count g)); [lia|].
  unfold brep; splits; simpl; auto.
  - apply hrep_false.
  - unfold ainv; splits; simpl; try tauto. constructor.
Qed.

Lemma brep_new g i : exists x, brep g (bfs_new g i) x.
Proof.
  destruct (Nat.lt_ge_cases i (vertex_count g)) as [H|H];
    [eexists; apply brep_start|eexists; apply brep_out]; auto.
Qed.

Lemma bfs_next_out g i : vertex_count g <= i -> bfs_next g (bfs_new g i) = Done None.
Proof.
  intros H. unfold bfs_new. destruct (Nat.ltb_spec i (vertex_count g)); [lia|]. reflexivity.
Qed.

Lemma map_fst_bkey (is : list (nat * T * nat)) :
  map fst (map bkey is) = map (fun x => fst (fst x)) is.
Proof. rewrite map_map. reflexivity. Qed.

Lemma bfs_like_spec g next i : simple_graph g -> bfs_like g next ->
  exists is, drain next (S (vertex_count g)) (bfs_new g i) = Done is /\
    NoDup (map (fun x => fst (fst x)) is) /\
    (forall v, In v (map (fun x => fst (fst x)) is) <-> i < vertex_count g /\ joined (adj g) i v) /\
    (forall v t d, In (v, t, d) is ->
       nth_error (payloads g) v = Some t /\ is_dist (adj g) i v d) /\
    ForallOrdPairs (fun a b => snd a <= snd b) is.
Proof.
  intros W Hl. destruct (Nat.lt_ge_cases i (vertex_count g)) as [Hi|Hi].
  - destruct (bfs_start W Hl Hi (B := []) (fun H => H) (brep_start Hi)) as (is & E & N & R & D & O).
    rewrite map_fst_bkey in N, R. exists is. splits; auto.
    + intros v. rewrite R, (joined_iff i v (edge_avoiding_nil g)). tauto.
    + intros v t d H. destruct (D v t d H) as [D1 D2]. split; auto.
      apply (is_dist_iff i v d (edge_avoiding_nil g)); auto.
  - exists []. split; [|split; [|split; [|split]]].
    + simpl. rewrite (Hl _ _ (brep_out Hi)), bfs_next_out; auto.
    + constructor.
    + intros v. simpl. split; [tauto|lia].
    + intros ? ? ? [].
    + constructor.
Qed.

Lemma bfs_reuse_new g s i : simple_graph g -> length (bfs_handled s) = vertex_count g ->
  bfs_reuse g s i = Done (bfs_new g i).
Proof.
  intros W Hl. unfold bfs_reuse, bfs_new. rewrite (sg_len W).
  replace (map (fun _ : bool => false) (bfs_handled s)) with (repeat false (vertex_count g)).
  - destruct (Nat.ltb_spec i (vertex_count g)); auto. rewrite vset_done; [reflexivity|].
    rewrite repeat_length; auto.
  - rewrite <- Hl. clear. induction (bfs_handled s); simpl; congruence.
Qed.

Lemma drain_by_ref_spec {S I} (next : S -> outcome (option (I * S))) fuel : forall s is,
  drain next fuel s = Done is ->
  exists e, drain_by_ref next fuel s = Done (is, e) /\ after next s e.
Proof.
  induction fuel as [|fuel IH]; intros s is E; simpl in *; [discriminate|].
  destruct (next s) as [[[i s']|]| | |] eqn:En; simpl in *; try discriminate.
  - destruct (drain next fuel s') as [t| | |] eqn:Ed; simpl in *; try discriminate.
    injection E as <-. destruct (IH _ _ Ed) as (e & -> & Ha). simpl. exists e. split; auto.
    clear - Ha En. induction Ha as [|s1 j s2 Ha IH E]; [econstructor; [constructor|eauto]|].
    econstructor; eauto.
  - injection E as <-. exists s. split; auto. constructor.
Qed.

(** *** Writing through [BfsMut] *)

Lemma brep_write g g' s x : vertex_count g' = vertex_count g -> brep g s x -> brep g' s x.
Proof. unfold brep, ainv. intros ->. auto. Qed.

Lemma bfs_mut_loop_spec {S} (f : S -> nat -> nat -> T -> S * T) succ x ys :
  trace (abfs_next Nat.eq_dec succ) x ys -> NoDup (map fst ys) ->
  forall fuel g s st, simple_graph g -> (forall v, nbrs g v = succ v) -> brep g s x ->
  length ys < fuel ->
  exists g' st', bfs_mut_loop f fuel st g s = Done (st', g') /\
    written g g' (fun (a : S * list (nat * nat)) t =>
                    match snd a with
                    | (v, d) :: r => let (b, t') := f (fst a) v d t in ((b, r), t')
                    | [] => (a, t)
                    end) (st, ys) (st', []) (map fst ys).
Proof.
  intros Tr. induction Tr as [x E|x [y d] x' ys E Tr IH]; intros N fuel g s st W Es R Hf;
    (destruct fuel as [|fuel]; [simpl in Hf; lia|]); simpl;
    pose proof (bfs_sim W R) as K; rewrite (bfs_mut_eq W R);
    assert (Ex : abfs_next Nat.eq_dec (nbrs g) x = abfs_next Nat.eq_dec succ x)
      by (destruct x as [? [|? ?] [|? ?] ?]; unfold abfs_next; simpl; rewrite ?Es; auto);
    rewrite Ex, E in K.
  - rewrite K. simpl. exists g, st. split; auto. apply written_nil; auto.
  - destruct K as ([[z t] d'] & s' & -> & R' & (Ez & Ed & Et)). simpl in *. subst z d'.
    destruct (f st y d t) as [st1 t'] eqn:Ef. apply NoDup_cons_iff in N as [Ny N].
    assert (Hz : y < vertex_count g).
    { rewrite <- (payloads_length W). apply (nth_error_lt _ _ Et). }
    destruct (at_mut_set_spec t' W Hz) as (g1 & -> & W1 & V1 & E1 & P1 & N1). simpl.
    destruct (IH N fuel g1 s' st1) as (g' & st' & -> & Wr); auto.
    + intros v. rewrite N1; auto.
    + apply (brep_write V1 R').
    + lia.
    + exists g', st'. split; auto. eapply written_cons; eauto. simpl. rewrite Ef. auto.
Qed.

(** *** With a filter *)

Lemma accepts_dec g (f : T -> nat -> bool) v : {accepts g f v} + {~ accepts g f v}.
Proof.
  unfold accepts. destruct (nth_error (payloads g) v) as [t|] eqn:E.
  - destruct (f t v) eqn:F; [left; eauto|right]. intros (t' & [= <-] & H). congruence.
  - right. intros (t' & H & _). discriminate.
Qed.

Definition rejected g (f : T -> nat -> bool) : list nat :=
  filter (fun v => if accepts_dec g f v then false else true) (seq 0 (vertex_count g)).

Lemma In_rejected g f v : In v (rejected g f) <-> v < vertex_count g /\ ~ accepts g f v.
Proof.
  unfold rejected. rewrite filter_In, in_seq. destruct (accepts_dec g f v); intuition (try lia; discriminate).
Qed.

Lemma bfs_filtered_new_spec g f i : simple_graph g ->
  bfs_filtered_new g f i = Done None /\ ~ accepts g f i \/
  exists s, bfs_filtered_new g f i = Done (Some s) /\ i < vertex_count g /\ accepts g f i /\
    brep g s (mk_abfs (i :: rejected g f) [i] [] 0).
Proof.
  intros W. unfold bfs_filtered_new. destruct (Nat.leb_spec (vertex_count g) i) as [H|H].
  { left. split; auto. intros (t & Ht & _). apply nth_error_lt in Ht.
    rewrite payloads_length in Ht; auto. lia. }
  rewrite (at_spec _ W). destruct (nth_error (payloads g) i) as [t|] eqn:Et;
    [|apply nth_error_None in Et; rewrite payloads_length in Et; auto; lia].
  simpl. destruct (f t i) eqn:Ef; simpl.
  2:{ left. split; auto. intros (t' & H1 & H2). congruence. }
  right. set (h := map _ (enumerate (vertices g))).
  assert (Lh : length h = vertex_count g).
  { unfold h. rewrite map_length. unfold enumerate. rewrite enumerate_from_length. apply W. }
  assert (Hh : hrep (vertex_count g) h (rejected g f)).
  { split; auto. intros v Hv. unfold h. rewrite nth_error_map, nth_error_enumerate.
    destruct (container_lt W Hv) as (c & Hc & _). rewrite Hc. simpl.
    apply payload_nth in Hc. destruct (in_dec Nat.eq_dec v (rejected g f)) as [K|K].
    - apply In_rejected in K as [_ K]. destruct (f (ac_contained c) v) eqn:Fc; auto.
      exfalso. apply K. exists (ac_contained c). auto.
    - destruct (f (ac_contained c) v) eqn:Fc; auto. exfalso. apply K, In_rejected. split; auto.
      intros (t' & H1 & H2). congruence. }
  rewrite vset_done by lia. simpl. eexists. splits; eauto.
  - exists t; auto.
  - unfold brep; splits; simpl; auto.
    + apply hrep_upd; auto.
    + unfold ainv; splits; simpl; [constructor; [tauto|constructor]| |intros ? [<-|[]]; auto].
      intros ? [<-|[]]; auto.
Qed.

Lemma edge_rejected g f u v : simple_graph g ->
  edge_avoiding (nbrs g) (rejected g f) u v <-> accepted_edge g f u v.
Proof.
  intros W. unfold edge_avoiding, accepted_edge. rewrite In_rejected. unfold adj.
  split; intros [H K]; split; auto.
  - destruct (accepts_dec g f v); auto. exfalso. apply K. split; auto. apply (sg_range W _ _ H).
  - tauto.
Qed.

Lemma bfs_filtered_spec g f i s : simple_graph g -> bfs_filtered_new g f i = Done (Some s) ->
  exists is, drain (bfs_filtered_next g) (S (vertex_count g)) s = Done is /\
    NoDup (map (fun x => fst (fst x)) is) /\
    (forall v, In v (map (fun x => fst (fst x)) is) <-> joined (accepted_edge g f) i v) /\
    (forall v t d, In (v, t, d) is ->
       nth_error (payloads g) v = Some t /\ is_dist (accepted_edge g f) i v d) /\
    ForallOrdPairs (fun a b => snd a <= snd b) is.
Proof.
  intros W E. destruct (bfs_filtered_new_spec f i W) as [[E' _]|(s' & E' & Hi & Ha & R)]; [congruence|].
  assert (s' = s) by congruence. subst s'.
  assert (Nb : ~ In i (rejected g f)) by (rewrite In_rejected; tauto).
  destruct (bfs_start W (bfs_like_filtered W) Hi Nb R) as (is & Ed & N & Re & D & O).
  rewrite map_fst_bkey in N, Re. exists is. splits; auto.
  - intros v. rewrite Re. apply joined_iff. intros. apply edge_rejected; auto.
  - intros v t d H. destruct (D v t d H) as [D1 D2]. split; auto.
    apply (is_dist_iff i v d (fun u w => edge_rejected f u w W)); auto.
Qed.

Lemma bfs_filtered_reuse_new g f s i : simple_graph g -> length (bfs_handled s) = vertex_count g ->
  accepts g f i -> bfs_filtered_reuse g s i f = Done (Ok (bfs_new g i)).
Proof.
  intros W Hl (t & Ht & Hf). pose proof (nth_error_lt _ _ Ht) as Hi. rewrite payloads_length in Hi; auto.
  unfold bfs_filtered_reuse. rewrite (sg_len W).
  destruct (Nat.ltb_spec (vertex_count g) i); [lia|].
  destruct (container_lt W Hi) as (c & Hc & _). rewrite (vget_done _ _ Hc). simpl.
  rewrite (payload_nth Hc) in Ht. injection Ht as ->. rewrite Hf. simpl.
  assert (E : forall X (l : list X), map (fun _ => false) l = repeat false (length l)).
  { induction l; simpl; congruence. }
  rewrite E, map_length. unfold enumerate. rewrite enumerate_from_length, combine_length, Hl, (sg_len W), Nat.min_id.
  rewrite vset_done by (rewrite repeat_length; auto). simpl. unfold bfs_new.
  destruct (Nat.ltb_spec i (vertex_count g)); [auto|lia].
Qed.

Lemma bfs_filtered_reuse_rejected g f s i : simple_graph g ->
  i <> vertex_count g -> ~ accepts g f i -> bfs_filtered_reuse g s i f = Done (Err s).
Proof.
  intros W Ni Na. unfold bfs_filtered_reuse. rewrite (sg_len W).
  destruct (Nat.ltb_spec (vertex_count g) i); auto.
  destruct (container_lt W (i := i)) as (c & Hc & _); [lia|]. rewrite (vget_done _ _ Hc). simpl.
  destruct (f (ac_contained c) i) eqn:F; auto. exfalso. apply Na. exists (ac_contained c).
  split; auto. apply payload_nth; auto.
Qed.

Lemma bfs_filtered_reuse_panic g f s : simple_graph g ->
  bfs_filtered_reuse g s (vertex_count g) f = Panic.
Proof.
  intros W. unfold bfs_filtered_reuse, vget. rewrite (sg_len W), Nat.ltb_irrefl.
  destruct (nth_error (vertices g) (vertex_count g)) eqn:E; auto.
  apply nth_error_lt in E. rewrite (sg_len W) in E. lia.
Qed.

(** *** Whole graph *)

Lemma adj_sym g : simple_graph g -> forall x y, adj g x y -> adj g y x.
Proof. intros W x y. apply (sg_sym W). Qed.

Lemma is_connected_spec g : simple_graph g ->
  vertex_count g = 0 /\ is_connected g = Done None \/
  0 < vertex_count g /\ connected g /\ is_connected g = Done (Some true) \/
  0 < vertex_count g /\ ~ connected g /\ is_connected g = Done (Some false).
Proof.
  intros W. unfold is_connected. destruct (Nat.eqb_spec (vertex_count g) 0) as [E|E]; [auto|].
  right. rewrite dfs_all_index. destruct (dfs_index_spec 0 W) as (is & -> & N & R & _). simpl.
  rewrite map_length.
  assert (K : length is = vertex_count g <-> connected g).
  { rewrite <- (map_length fst). split.
    - intros Hl u v Hu Hv.
      assert (P : Permutation (map fst is) (seq 0 (vertex_count g))).
      { apply NoDup_Permutation_bis; auto.
        - rewrite seq_length; lia.
        - intros x Hx. apply in_seq. split; [lia|]. apply R in Hx as [H0 [k Wk]].
          inversion Wk as [|a b c _ Hab]; subst; auto. apply (sg_range W _ _ Hab). }
      assert (Z : forall x, x < vertex_count g -> joined (adj g) 0 x).
      { intros x Hx. apply R. rewrite P. apply in_seq. lia. }
      apply joined_trans with 0; auto. apply joined_sym; auto. apply adj_sym; auto.
    - intros Hc. rewrite <- (seq_length (vertex_count g) 0). apply Permutation_length.
      apply NoDup_Permutation; auto; [apply seq_NoDup|].
      intros x. rewrite R, in_seq. split.
      + intros [H0 [k Wk]]. split; [lia|]. inversion Wk as [|a b c _ Hab]; subst; auto.
        apply (sg_range W _ _ Hab).
      + intros [_ Hx]. split; [lia|]. apply Hc; lia. }
  destruct (Nat.eqb_spec (length is) (vertex_count g)) as [Hl|Hl]; [left|right];
    splits; auto; try lia; tauto.
Qed.

(** The depth of the last item is the eccentricity. *)
Lemma last_depth g i is : simple_graph g -> i < vertex_count g ->
  (forall v, In v (map (fun x => fst (fst x)) is) <-> i < vertex_count g /\ joined (adj g) i v) ->
  (forall (v : nat) (t : T) d, In (v, t, d) is ->
       nth_error (payloads g) v = Some t /\ is_dist (adj g) i v d) ->
  ForallOrdPairs (fun a b => snd a <= snd b) is ->
  exists is' item, is = is' ++ [item] /\ is_ecc (adj g) i (snd item).
Proof.
  intros W Hi R D O.
  assert (Hin : In i (map (fun x => fst (fst x)) is)).
  { apply R. split; auto. apply joined_refl. }
  destruct (rev is) as [|[[v t] d] r] eqn:E.
  { apply (f_equal (@rev _)) in E. rewrite rev_involutive in E. subst. destruct Hin. }
  apply rev_cons_app in E. exists (rev r), (v, t, d). split; auto. simpl.
  assert (Ho : forall x, In x is -> snd x <= d).
  { intros x Hx. subst is. apply in_app_iff in Hx as [Hx|[<-|[]]]; [|auto].
    clear - Hx O. induction (rev r) as [|a l IH]; [destruct Hx|].
    simpl in O. inversion_clear O as [|? ? H1 H2]. destruct Hx as [->|Hx]; auto.
    rewrite Forall_forall in H1. apply (H1 (v, t, d)). apply in_app_iff. simpl; auto. }
  split.
  - exists v. apply (D v t d). subst is. apply in_app_iff. simpl; auto.
  - intros w k Hk. assert (Hw : In w (map (fun x => fst (fst x)) is)).
    { apply R. split; auto. exists k. apply Hk. }
    apply in_map_iff in Hw as ([[w' t'] k'] & <- & Hw). simpl in *.
    destruct (D _ _ _ Hw) as [_ Hd]. rewrite (is_dist_fun Hk Hd). apply (Ho _ Hw).
Qed.

Lemma longest_spec g i : simple_graph g ->
  vertex_count g <= i /\ longest_shortest_path_from_index g i = Done None \/
  i < vertex_count g /\ exists d,
    longest_shortest_path_from_index g i = Done (Some d) /\ is_ecc (adj g) i d.
Proof.
  intros W. unfold longest_shortest_path_from_index, bfs_all.
  destruct (bfs_like_spec i W (@bfs_like_next g)) as (is & -> & N & R & D & O). simpl.
  destruct (Nat.lt_ge_cases i (vertex_count g)) as [Hi|Hi].
  - right. split; auto. destruct (last_depth W Hi R D O) as (is' & item & -> & Hecc).
    rewrite rev_app_distr. simpl. destruct item as [[v t] d]. eauto.
  - left. split; auto. assert (is = []) as ->; auto.
    destruct is as [|x is]; auto. exfalso.
    destruct (proj1 (R (fst (fst x)))) as [H _]; [simpl; auto|lia].
Qed.

Lemma is_ecc_fun R u d d' : is_ecc R u d -> is_ecc R u d' -> d = d'.
Proof.
  intros [[v Hv] M] [[v' Hv'] M']. apply M in Hv'. apply M' in Hv. lia.
Qed.

Lemma fold_last {X Y} (f : X -> Y) l x y : fold_left (fun _ z => f z) (l ++ [x]) y = f x.
Proof. rewrite fold_left_app. reflexivity. Qed.

Lemma diameter_pass_spec g b max i : simple_graph g -> i < vertex_count g ->
  length (bfs_handled b) = vertex_count g ->
  exists d b', diameter_pass g (max, b) i = Done (Nat.max max d, b') /\ is_ecc (adj g) i d /\
               length (bfs_handled b') = vertex_count g.
Proof.
  intros W Hi Hl. unfold diameter_pass. rewrite (bfs_reuse_new i W Hl). cbn [bind].
  destruct (bfs_like_spec i W (@bfs_like_next g)) as (is & E & N & R & D & O).
  destruct (drain_by_ref_spec E) as (e & -> & Ha). cbn [bind].
  destruct (last_depth W Hi R D O) as (is' & item & -> & Hecc). rewrite fold_last.
  exists (snd item), e. splits; auto.
  destruct (brep_new g i) as [x Hx].
  destruct (brep_after W (@bfs_like_next g) Hx Ha) as [x' [[Lh _] _]]. auto.
Qed.

Lemma diameter_passes g : simple_graph g -> forall l max b,
  (forall i, In i l -> i < vertex_count g) -> length (bfs_handled b) = vertex_count g ->
  exists m b', foldM (diameter_pass g) (max, b) l = Done (m, b') /\ max <= m /\
    (forall i d, In i l -> is_ecc (adj g) i d -> d <= m) /\
    (m = max \/ exists i, In i l /\ is_ecc (adj g) i m).
Proof.
  intros W. induction l as [|i l IH]; intros max b Hr Hl.
  - exists max, b. simpl. splits; auto. intros ? ? [].
  - destruct (diameter_pass_spec max W (Hr i (or_introl eq_refl)) Hl) as (d & b1 & E & Hd & Hl1).
    cbn [foldM]. rewrite E. cbn [bind].
    destruct (IH (Nat.max max d) b1) as (m & b' & E' & Hm & Hall & Hex); auto.
    { intros; apply Hr; simpl; auto. }
    exists m, b'. splits; auto; try lia.
    + intros j d' [<-|Hj] Hd'; [|eauto]. rewrite (is_ecc_fun Hd' Hd). lia.
    + destruct Hex as [->|(j & Hj & He)].
      * destruct (Nat.max_spec max d) as [[_ ->]|[_ ->]]; auto.
        right. exists i. simpl; auto.
      * right. exists j. simpl; auto.
Qed.

Lemma ecc_exists g i : simple_graph g -> i < vertex_count g -> exists d, is_ecc (adj g) i d.
Proof.
  intros W Hi. destruct (longest_spec i W) as [[H _]|(_ & d & _ & H)]; [lia|eauto].
Qed.

Lemma diameter_spec g : simple_graph g ->
  (vertex_count g = 0 \/ ~ connected g) /\ diameter g = Done None \/
  0 < vertex_count g /\ connected g /\ exists d, diameter g = Done (Some d) /\ is_diameter g d.
Proof.
  intros W. unfold diameter.
  destruct (is_connected_spec W) as [[H ->]|[(H & Hc & ->)|(H & Hc & ->)]]; simpl; auto.
  right. splits; auto.
  destruct (brep_new g 0) as [x0 [[L0 _] _]].
  destruct (diameter_passes W (l := seq 1 (vertex_count g - 1)) 0 (b := bfs_new g 0)) as (m & b' & -> & _ & Hall & Hex); auto.
  { intros i Hi. apply in_seq in Hi. lia. }
  simpl. exists m. split; auto.
  assert (Hlow : forall u v k, 1 <= u < vertex_count g -> is_dist (adj g) u v k -> k <= m).
  { intros u v k Hu Hd. destruct (ecc_exists W (i := u)) as [d He]; [lia|].
    apply Nat.le_trans with d; [apply He in Hd; auto|]. apply (Hall u); auto. apply in_seq; lia. }
  split.
  - destruct Hex as [->|(i & Hi & [[v Hv] _])].
    + exists 0, 0. split; auto. apply is_dist_self.
    + exists i, v. apply in_seq in Hi. split; auto. lia.
  - intros u v k Hu Hd. destruct u as [|u]; [|apply (Hlow (S u) v); auto; lia].
    destruct v as [|v].
    + destruct Hd as [_ Hd]. specialize (Hd 0 (walk_nil _ _)). lia.
    + apply (Hlow (S v) 0); [|apply is_dist_sym; auto; apply adj_sym; auto].
      destruct Hd as [Wk _]. inversion Wk as [|a b c _ Hab]; subst. apply (sg_range W) in Hab. lia.
Qed.

End Iterators.
