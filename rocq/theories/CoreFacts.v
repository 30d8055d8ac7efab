(** Facts about [q_core]. *)
From Verif Require Import Base BaseFacts Sums Containers ContainerSpec Graph GraphSpec GraphFacts.
From Verif Require Import GraphOps Search Traversal TraversalSpec TraversalFacts.
From Verif Require Import Components ComponentSpec ComponentFacts.
Set Implicit Arguments.
Unset Strict Implicit.

(** ** Final states of iterators *)

Section Ends.
Context {X Y : Type} (next : X -> option (Y * X)).

Inductive ends : X -> list Y -> X -> Prop :=
| ends_nil x : next x = None -> ends x [] x
| ends_cons x y x' ys z : next x = Some (y, x') -> ends x' ys z -> ends x (y :: ys) z.

Lemma trace_ends x ys : trace next x ys -> exists z, ends x ys z.
Proof.
  induction 1 as [x E|x y x' ys E Tr [z IH]]; [exists x; constructor; auto|].
  exists z. econstructor; eauto.
Qed.

Lemma ends_trace x ys z : ends x ys z -> trace next x ys.
Proof. induction 1; econstructor; eauto. Qed.

Lemma drain_by_ref_sim {S I} (cnext : S -> outcome (option (I * S))) (Rep : S -> X -> Prop)
  (P : Y -> I -> Prop) :
  (forall s x, Rep s x ->
     match next x with
     | None => cnext s = Done None
     | Some (y, x') => exists i s', cnext s = Done (Some (i, s')) /\ Rep s' x' /\ P y i
     end) ->
  forall x ys z, ends x ys z -> forall s fuel, Rep s x -> length ys < fuel ->
  exists is s', drain_by_ref cnext fuel s = Done (is, s') /\ Forall2 P ys is /\ Rep s' z.
Proof.
  intros Sim x ys z Tr. induction Tr as [x E|x y x' ys z E Tr IH]; intros s fuel Rs Hf;
    (destruct fuel; [simpl in Hf; lia|]); specialize (Sim _ _ Rs); rewrite E in Sim.
  - exists [], s. simpl. rewrite Sim; simpl; auto.
  - destruct Sim as (i & s' & E' & Rs' & Hp). cbn [drain_by_ref]. rewrite E'. cbn [bind].
    destruct (IH s' fuel Rs') as (is & s2 & E2 & F & R2); [simpl in Hf; lia|].
    rewrite E2. cbn [bind]. exists (i :: is), s2. auto.
Qed.
End Ends.

Lemma Forall2_len {X Y} (P : X -> Y -> Prop) l l' : Forall2 P l l' -> length l = length l'.
Proof. induction 1; simpl; auto. Qed.

Lemma adfs_seen {V} eq_dec (succ : V -> list V) x ys z :
  ends (adfs_next eq_dec succ) x ys z -> (forall v, In v (snd x) -> In v (fst x)) ->
  forall w, In w (fst z) <-> In w (fst x) \/ In w ys.
Proof.
  induction 1 as [x E|[seen stack] y x' ys z E Tr IH]; intros S w; simpl; [tauto|].
  simpl in E. destruct stack as [|v rest]; [discriminate|]. injection E as <- <-. simpl in *.
  pose proof (adfs_run (ends_trace Tr)) as Hr. simpl in Hr.
  rewrite IH.
  - rewrite in_app_iff. split; [|intros [H|[<-|H]]; auto].
    intros [[H|H]|H]; auto. right. right. apply (run_work Hr). apply in_app_iff. left.
    rewrite <- in_rev. auto.
  - intros u Hu. apply in_app_iff in Hu as [Hu|Hu]; apply in_app_iff; [left; apply in_rev; auto|auto].
Qed.

(** ** Degrees as functions *)

Definition dg (d : list nat) (v : nat) : nat := nth v d 0.
Definition live (d : list nat) (v : nat) : bool := 0 <? dg d v.

Lemma vget_dg d v : v < length d -> vget d v = Done (dg d v).
Proof. intros H. apply vget_done. apply nth_error_nth'. auto. Qed.

Lemma dg_upd d i v x : i < length d -> dg (upd d i x) v = if v =? i then x else dg d v.
Proof.
  intros H. unfold dg. destruct (Nat.eqb_spec v i) as [->|N].
  - apply nth_error_nth. apply nth_error_upd_same; auto.
  - destruct (Nat.lt_ge_cases v (length d)) as [Hv|Hv].
    + apply nth_error_nth. rewrite nth_error_upd_other by auto. apply nth_error_nth'. auto.
    + rewrite !nth_overflow; auto. rewrite upd_length; auto.
Qed.

Lemma dg_out d v : length d <= v -> dg d v = 0.
Proof. intros. unfold dg. apply nth_overflow; auto. Qed.

Lemma live_iff d v : live d v = true <-> 0 < dg d v.
Proof. apply Nat.ltb_lt. Qed.

Lemma core_lower_fold l : forall d, NoDup l -> (forall v, In v l -> v < length d) ->
  exists d', foldM core_lower d l = Done d' /\ length d' = length d /\
    forall v, dg d' v = dg d v - b2n (existsb (Nat.eqb v) l).
Proof.
  induction l as [|a l IH]; intros d N R; cbn [foldM].
  - exists d. splits; auto. intros v. simpl. lia.
  - apply NoDup_cons_iff in N as [Na N].
    assert (E : core_lower d a = Done (upd d a (dg d a - 1))).
    { unfold core_lower. rewrite vget_dg by (apply R; simpl; auto). cbn [bind].
      destruct (Nat.ltb_spec 0 (dg d a)).
      - apply vset_done. apply R; simpl; auto.
      - rewrite upd_same; auto. replace (dg d a) with 0 by lia. simpl.
        rewrite (nth_error_nth' d 0) by (apply R; simpl; auto). fold (dg d a). f_equal. lia. }
    rewrite E. cbn [bind].
    destruct (IH (upd d a (dg d a - 1)) N) as (d' & -> & Hl & Hd).
    { intros v Hv. rewrite upd_length. apply R; simpl; auto. }
    exists d'. rewrite upd_length in Hl. splits; auto.
    intros v. rewrite Hd, dg_upd by (apply R; simpl; auto). simpl.
    destruct (Nat.eqb_spec v a) as [->|Nv]; simpl; auto.
    replace (existsb (Nat.eqb a) l) with false; [simpl; lia|].
    symmetry. apply not_true_is_false. intros K. apply existsb_exists in K as (y & Hy & Ey).
    apply Nat.eqb_eq in Ey. subst; auto.
Qed.

Lemma count_le {X} (f h : X -> bool) l :
  (forall x, In x l -> f x = true -> h x = true) -> count f l <= count h l.
Proof.
  unfold count. induction l as [|a l IH]; simpl; intros H; auto.
  assert (IH' : length (filter f l) <= length (filter h l)) by (apply IH; intros; apply H; simpl; auto).
  destruct (f a) eqn:Ef; [rewrite (H a) by (simpl; auto)|destruct (h a)]; simpl; lia.
Qed.

Lemma count_lt {X} (f h : X -> bool) l x :
  (forall x, In x l -> f x = true -> h x = true) -> In x l -> f x = false -> h x = true ->
  count f l < count h l.
Proof.
  unfold count. induction l as [|a l IH]; simpl; intros H Hx Ef Eh; [tauto|].
  assert (Hl : forall y, In y l -> f y = true -> h y = true) by (intros; apply H; simpl; auto).
  destruct Hx as [->|Hx].
  - rewrite Ef, Eh. simpl. pose proof (count_le Hl) as K. unfold count in K. lia.
  - specialize (IH Hl Hx Ef Eh). destruct (f a) eqn:Ea; [rewrite (H a) by (simpl; auto)|destruct (h a)]; simpl; lia.
Qed.

(** Removing one element from the counted set. *)
Lemma count_remove (f h : nat -> bool) l i : NoDup l ->
  (forall x, In x l -> x <> i -> f x = h x) -> f i = false -> h i = true ->
  count h l = count f l + b2n (existsb (Nat.eqb i) l).
Proof.
  intros N E Fi Hi. unfold count. induction l as [|a l IH]; simpl; auto.
  apply NoDup_cons_iff in N as [Na N].
  rewrite Nat.eqb_sym. destruct (Nat.eqb_spec a i) as [->|Ni].
  - rewrite Fi, Hi. simpl. rewrite IH; auto; [|intros; apply E; simpl; auto].
    replace (existsb (Nat.eqb i) l) with false; [simpl; lia|].
    symmetry. apply not_true_is_false. intros K. apply existsb_exists in K as (y & Hy & Ey).
    apply Nat.eqb_eq in Ey. subst; auto.
  - rewrite (E a) by (simpl; auto). simpl. specialize (IH N).
    destruct (h a); simpl; rewrite IH; auto; intros; apply E; simpl; auto.
Qed.

Lemma count_all {X} (f : X -> bool) l : (forall x, In x l -> f x = true) -> count f l = length l.
Proof.
  unfold count. induction l as [|a l IH]; simpl; intros H; auto.
  rewrite H by auto. simpl. rewrite IH; auto.
Qed.

Lemma count_length {X} (f : X -> bool) l : count f l <= length l.
Proof. unfold count. induction l as [|a l IH]; simpl; auto. destruct (f a); simpl; lia. Qed.

Section Core.
Context {T A : Type} {C : AdjContainer T A} {L : AdjLaws C}.
Implicit Types g : graph A.

Record pinv g (q : nat) (d : list nat) : Prop := {
  pi_len : length d = vertex_count g;
  pi_deg : forall v, 0 < dg d v -> dg d v = count (live d) (nbrs g v);
  pi_core : forall S v, q_dense g q S -> S v = true -> 0 < dg d v
}.

Lemma core_visit_remove g q d ch i : simple_graph g -> 2 <= q -> pinv g q d ->
  i < vertex_count g -> 0 < dg d i < q ->
  exists d', core_visit g q (d, ch) i = Done (d', true) /\ pinv g q d' /\
    dg d' i = 0 /\ forall v, dg d' v <= dg d v.
Proof.
  intros W Hq [P1 P2 P3] Hi Hd. unfold core_visit. rewrite vget_dg by lia. cbn [bind].
  destruct (Nat.eqb_spec (dg d i) 0); [lia|]. destruct (Nat.ltb_spec (dg d i) q); [|lia].
  destruct (container_lt W Hi) as (c & Hc & _ & _ & Hn). rewrite (vget_done _ _ Hc). cbn [bind].
  rewrite Hn. destruct (@core_lower_fold (nbrs g i) d) as (d1 & -> & L1 & H1).
  { apply (sg_nodup W). } { intros v Hv. rewrite P1. apply (sg_range W _ _ Hv). }
  cbn [bind]. rewrite vset_done by lia. cbn [bind].
  exists (upd d1 i 0). split; [reflexivity|].
  assert (H2 : forall v, dg (upd d1 i 0) v = if v =? i then 0 else dg d v - b2n (adjb g i v)).
  { intros v. rewrite dg_upd by lia. rewrite H1. reflexivity. }
  assert (Hle : forall v, dg (upd d1 i 0) v <= dg d v).
  { intros v. rewrite H2. destruct (v =? i); lia. }
  assert (Hi0 : dg (upd d1 i 0) i = 0) by (rewrite H2, Nat.eqb_refl; auto).
  set (d2 := upd d1 i 0) in *.
  assert (Hlive : forall w, live d2 w = true -> live d w = true).
  { intros w. rewrite !live_iff. specialize (Hle w). lia. }
  splits; auto. constructor.
  - unfold d2. rewrite upd_length. lia.
  - intros v Hv. rewrite H2 in Hv |- *. destruct (Nat.eqb_spec v i) as [|Nv]; [lia|].
    rewrite P2 by lia.
    assert (Li : live d i = true) by (apply live_iff; lia).
    rewrite (@count_remove (live d2) (live d) (nbrs g v) i).
    + unfold adjb. fold (adjb g v i). replace (existsb (Nat.eqb v) (nbrs g i)) with (adjb g v i); [lia|].
      apply eq_true_iff_eq. rewrite adjb_adj. change (existsb (Nat.eqb v) (nbrs g i)) with (adjb g i v).
      rewrite adjb_adj. split; apply (sg_sym W).
    + apply (sg_nodup W).
    + intros w Hw Nw. destruct (live d w) eqn:Lw.
      2:{ destruct (live d2 w) eqn:L2; auto. apply Hlive in L2. congruence. }
      apply live_iff. rewrite H2. destruct (Nat.eqb_spec w i); [congruence|].
      destruct (adjb g i w) eqn:Ea; simpl; [|apply live_iff in Lw; lia].
      apply adjb_adj in Ea. apply live_iff in Lw. pose proof (P2 w Lw) as Dw.
      (* w has the two live neighbours i and v *)
      enough (2 <= count (live d) (nbrs g w)) by lia.
      assert (Lv : live d v = true) by (apply live_iff; lia).
      unfold count. apply (@NoDup_incl_length _ [i; v]).
      * constructor; [simpl; intuition|constructor; [simpl; tauto|constructor]].
      * intros x [<-|[<-|[]]]; apply filter_In; split; auto; apply (sg_sym W); auto.
    + destruct (live d2 i) eqn:E; auto. apply live_iff in E. lia.
    + auto.
  - intros S v HS Sv. pose proof (P3 S v HS Sv) as Pv.
    assert (Big : forall w, S w = true -> q <= dg d w).
    { intros w Sw. pose proof (P3 S w HS Sw) as Pw. rewrite (P2 w Pw).
      destruct (HS w Sw) as [_ K]. apply Nat.le_trans with (1 := K).
      apply count_le. intros x _ Sx. apply live_iff. apply (P3 S x HS Sx). }
    rewrite H2. destruct (Nat.eqb_spec v i) as [->|Nv].
    + specialize (Big i Sv). lia.
    + specialize (Big v Sv). destruct (adjb g i v); simpl; lia.
Qed.

Definition measure g d := count (live d) (seq 0 (vertex_count g)).

Lemma core_round g q d0 : simple_graph g -> 2 <= q -> pinv g q d0 ->
  exists d ch, foldM (core_visit g q) (d0, false) (seq 0 (vertex_count g)) = Done (d, ch) /\
    pinv g q d /\ (ch = true -> measure g d < measure g d0) /\
    (ch = false -> forall v, v < vertex_count g -> dg d v = 0 \/ q <= dg d v).
Proof.
  intros W Hq P0.
  destruct (@foldM_seq_inv _ (core_visit g q)
    (fun k acc => pinv g q (fst acc) /\ (forall v, dg (fst acc) v <= dg d0 v) /\
       (snd acc = true -> measure g (fst acc) < measure g d0) /\
       (snd acc = false -> forall v, v < k -> dg (fst acc) v = 0 \/ q <= dg (fst acc) v))
    (vertex_count g) (d0, false)) as ([d ch] & E & H).
  - cbn [fst snd]. splits; auto; try discriminate. intros; lia.
  - intros k [d ch] Hk (P & Le & H1 & H2). cbn [fst snd] in *.
    destruct (Nat.eq_dec (dg d k) 0) as [Z|Z]; [|destruct (Nat.lt_ge_cases (dg d k) q) as [Q|Q]].
    + exists (d, ch). split.
      * unfold core_visit. rewrite vget_dg by (rewrite (pi_len P); auto). cbn [bind].
        rewrite Z. reflexivity.
      * cbn [fst snd]. splits; auto. intros Hc v Hv.
        destruct (Nat.eq_dec v k) as [->|]; auto. apply H2; auto; lia.
    + destruct (@core_visit_remove g q d ch k W Hq P Hk) as (d' & E & P' & Z' & Le'); [lia|].
      exists (d', true). split; auto. cbn [fst snd]. splits; auto; try discriminate.
      * intros v. specialize (Le v). specialize (Le' v). lia.
      * intros _. apply (@count_lt _ _ _ _ k).
        -- intros x _ Hx. apply live_iff in Hx. apply live_iff. specialize (Le x). specialize (Le' x). lia.
        -- apply in_seq. lia.
        -- destruct (live d' k) eqn:El; auto. apply live_iff in El. lia.
        -- apply live_iff. specialize (Le k). lia.
    + exists (d, ch). split.
      * unfold core_visit. rewrite vget_dg by (rewrite (pi_len P); auto). cbn [bind].
        destruct (Nat.eqb_spec (dg d k) 0); [lia|]. destruct (Nat.ltb_spec (dg d k) q); [lia|]. reflexivity.
      * cbn [fst snd]. splits; auto. intros Hc v Hv.
        destruct (Nat.eq_dec v k) as [->|]; auto. apply H2; auto; lia.
  - cbn [fst snd] in H. exists d, ch. tauto.
Qed.

Lemma core_peel_spec g q : simple_graph g -> 2 <= q -> forall fuel d, pinv g q d -> measure g d < fuel ->
  exists d', core_peel g q fuel d = Done d' /\ length d' = vertex_count g /\
    forall v, 0 < dg d' v <-> in_core g q v.
Proof.
  intros W Hq. induction fuel as [|fuel IH]; intros d P M; [lia|]. cbn [core_peel].
  destruct (core_round W Hq P) as (d1 & ch & -> & P1 & H1 & H2). cbn [bind]. destruct ch.
  - apply IH; auto. specialize (H1 eq_refl). lia.
  - exists d1. split; auto. split; [apply P1|]. intros v. split.
    + intros Hv. exists (live d1). split; [|apply live_iff; auto].
      intros w Hw. apply live_iff in Hw.
      assert (w < vertex_count g).
      { destruct (Nat.lt_ge_cases w (vertex_count g)) as [|K]; auto.
        rewrite dg_out in Hw; [lia|]. rewrite (pi_len P1). auto. }
      split; auto. rewrite <- (pi_deg P1 Hw). destruct (H2 eq_refl w); auto. lia.
    + intros (S & HS & Sv). apply (pi_core P1 HS Sv).
Qed.

Lemma pinv_start g q : simple_graph g -> 2 <= q -> pinv g q (map ac_degree (vertices g)).
Proof.
  intros W Hq.
  assert (E : forall v, dg (map ac_degree (vertices g)) v = length (nbrs g v)).
  { intros v. unfold dg, nbrs. destruct (nth_error (vertices g) v) as [c|] eqn:Ec.
    - rewrite (nth_error_nth _ _ _ (map_nth_error _ _ _ Ec)). apply law_degree.
    - apply nth_overflow. rewrite map_length. apply nth_error_None; auto. }
  constructor.
  - rewrite map_length. apply W.
  - intros v Hv. rewrite E. rewrite count_all; auto.
    intros w Hw. apply live_iff. rewrite E.
    assert (K : adj g w v) by (apply (sg_sym W); auto). unfold adj in K.
    destruct (nbrs g w); [destruct K|simpl; lia].
  - intros S v HS Sv. rewrite E. destruct (HS v Sv) as [_ K].
    pose proof (count_length S (nbrs g v)). lia.
Qed.

(** *** The components of the core *)

Definition krep g (s : list nat * list nat) (x : list nat * list nat) : Prop :=
  length (fst s) = vertex_count g /\
  (forall v, v < vertex_count g -> dg (fst s) v = 0 <-> In v (fst x)) /\
  snd s = snd x /\ ainv g (fst x) (snd x).

Lemma core_sim g s x : simple_graph g -> krep g s x ->
  match adfs_next Nat.eq_dec (nbrs g) x with
  | None => core_next g s = Done None
  | Some (y, x') => exists i s', core_next g s = Done (Some (i, s')) /\ krep g s' x' /\ True
  end.
Proof.
  intros W (Hl & H & E & I). destruct x as [seen stack]. destruct s as [d st]. simpl in *. subst st.
  destruct stack as [|v rest]; auto.
  assert (Hv : v < vertex_count g) by (apply I; simpl; auto).
  destruct (container_lt W Hv) as (c & Hc & _ & _ & Hn).
  unfold container. rewrite (vget_done _ _ Hc). cbn [bind]. rewrite Hn.
  destruct (@mark_new_spec _ _ Nat.eq_dec (fun d j => do x <- vget d j; Done (x =? 0))
              (fun d j => vset d j 0)
              (fun d seen => length d = vertex_count g /\
                 forall v, v < vertex_count g -> dg d v = 0 <-> In v seen)
              (fun v => v < vertex_count g)) with (l := nbrs g v) (m := d) (seen := seen)
    as (d' & -> & Hl' & H'); auto.
  - intros m s i [Lm Hm] Hi. rewrite vget_dg by lia. cbn [bind]. f_equal.
    destruct (Nat.eqb_spec (dg m i) 0) as [Z|Z], (in_dec Nat.eq_dec i s) as [K|K]; auto; exfalso.
    + apply K, Hm; auto.
    + apply Z, Hm; auto.
  - intros m s i [Lm Hm] Hi _. exists (upd m i 0). split; [apply vset_done; lia|].
    split; [rewrite upd_length; auto|]. intros w Hw. rewrite dg_upd by lia. simpl.
    destruct (Nat.eqb_spec w i) as [->|N]; [tauto|]. rewrite Hm by auto. intuition congruence.
  - intros m s s' [Lm Hm] Ext. split; auto. intros w Hw. rewrite Hm by auto. auto.
  - apply nbrs_range; auto.
  - cbn [bind]. eexists _, _. split; [reflexivity|]. split; auto.
    unfold krep. splits; simpl; auto; try apply H'; auto.
    eapply ainv_step; eauto.
    rewrite Permutation_app_comm. apply Permutation_app_head. symmetry. apply Permutation_rev.
Qed.

Lemma core_drain g s x : simple_graph g -> krep g s x ->
  exists is s' out, drain_by_ref (core_next g) (S (vertex_count g)) s = Done (is, s') /\
    length is = length out /\ run Nat.eq_dec (nbrs g) (fst x) (snd x) out /\
    length (fst s') = vertex_count g /\
    forall v, v < vertex_count g -> dg (fst s') v = 0 <-> In v (fst x) \/ In v out.
Proof.
  intros W R. assert (I : ainv g (fst x) (snd x)) by apply R.
  destruct x as [seen stack]. simpl in *.
  edestruct (@adfs_trace _ Nat.eq_dec (nbrs g) (seq 0 (vertex_count g))) as (ys & Tr & _).
  { apply seq_NoDup. } { apply succ_closed; auto. }
  { intros y Hy. apply in_seq. split; [lia|]. apply I, Hy. } { reflexivity. }
  destruct (trace_ends Tr) as [z Ez]. pose proof (adfs_run Tr) as Hr. simpl in Hr.
  destruct (run_bounds W I Hr) as (_ & _ & _ & Lo).
  destruct (drain_by_ref_sim (fun s x => @core_sim g s x W) Ez (fuel := S (vertex_count g)) R)
    as (is & s' & E & F & R'); [lia|].
  exists is, s', ys. splits; auto.
  - symmetry. eapply Forall2_len; eauto.
  - apply R'.
  - intros v Hv. destruct R' as (_ & Hz & _). rewrite Hz by auto.
    apply (adfs_seen Ez). apply I.
Qed.

Record kinv g q (k : nat) (acc : nat * list nat) : Prop := {
  ki_len : length (snd acc) = vertex_count g;
  ki_core : forall v, v < vertex_count g -> ~ in_core g q v -> dg (snd acc) v = 0;
  ki_closed : forall u v, dg (snd acc) u = 0 -> core_edge g q u v -> dg (snd acc) v = 0;
  ki_done : forall v, v < k -> dg (snd acc) v = 0;
  ki_bound : forall v comp, dg (snd acc) v = 0 -> in_core g q v ->
    is_component (core_edge g q) v comp -> length comp <= fst acc;
  ki_max : (fst acc = 0 /\ forall v, dg (snd acc) v = 0 -> ~ in_core g q v) \/
    exists v comp, in_core g q v /\ is_component (core_edge g q) v comp /\ length comp = fst acc
}.

Lemma core_edge_sym g q u v : simple_graph g -> core_edge g q u v -> core_edge g q v u.
Proof. intros W (H & Hu & Hv). split; auto. apply (sg_sym W); auto. Qed.

Lemma in_core_lt g q v : in_core g q v -> v < vertex_count g.
Proof. intros (S & HS & Sv). apply (HS v Sv). Qed.

Lemma component_unique (R : nat -> nat -> Prop) (u v : nat) c c' : (forall x y, R x y -> R y x) -> joined R u v ->
  is_component R u c -> is_component R v c' -> length c = length c'.
Proof.
  intros Sy J [N H] [N' H']. apply Permutation_length. apply NoDup_Permutation; auto.
  intros w. rewrite H, H'. split; intros K; eapply joined_trans; eauto. apply joined_sym; auto.
Qed.

Lemma core_component_spec g q k acc : simple_graph g ->
  (forall v, in_core g q v \/ ~ in_core g q v) ->
  k < vertex_count g -> kinv g q k acc ->
  exists acc', core_component g acc k = Done acc' /\ kinv g q (S k) acc'.
Proof.
  intros W Dec Hk [K1 K2 K3 K4 K5 K6]. destruct acc as [result d]. cbn [fst snd] in *.
  unfold core_component. rewrite vget_dg by lia. cbn [bind].
  destruct (Nat.eqb_spec (dg d k) 0) as [Z|Z].
  { exists (result, d). split; auto. constructor; auto. cbn [fst snd].
    intros v Hv. destruct (Nat.eq_dec v k) as [->|]; auto. apply K4; lia. }
  rewrite vset_done by lia. cbn [bind].
  set (B := filter (fun v => dg d v =? 0) (seq 0 (vertex_count g))).
  assert (HB : forall v, In v B <-> v < vertex_count g /\ dg d v = 0).
  { intros v. unfold B. rewrite filter_In, in_seq, Nat.eqb_eq. intuition lia. }
  assert (Rk : krep g (upd d k 0, [k]) (k :: B, [k])).
  { unfold krep; cbn [fst snd]. splits; auto.
    - rewrite upd_length; auto.
    - intros v Hv. rewrite dg_upd by lia. simpl. rewrite HB.
      destruct (Nat.eqb_spec v k); intuition.
    - unfold ainv. splits; simpl; [constructor; [tauto|constructor]|intuition|intros ? [<-|[]]; auto]. }
  destruct (core_drain W Rk) as (is & s' & out & -> & Lis & Hr & Hl' & Hz). cbn [bind].
  destruct s' as [d2 st2]. cbn [fst snd] in *.
  exists (Nat.max result (length is), d2). split; auto.
  assert (Ck : in_core g q k).
  { destruct (Dec k) as [|N]; auto. exfalso. apply Z, K2; auto. }
  assert (Nout : NoDup out).
  { apply (run_bounds W (proj2 (proj2 (proj2 Rk))) Hr). }
  assert (Oc : forall w, In w out <-> joined (core_edge g q) k w).
  { intros w. rewrite (run_start_reach Hr). split.
    - intros [m Wm].
      assert (G : joined (core_edge g q) k w /\ in_core g q w); [|apply G].
      induction Wm as [|u w m Wm [IH Cu] [Hs Hb]]; [split; [apply joined_refl|auto]|].
      assert (Hw : w < vertex_count g) by apply (sg_range W _ _ Hs).
      assert (Cw : in_core g q w).
      { destruct (Dec w) as [|N]; auto. exfalso. apply Hb, HB. auto. }
      split; auto. eapply joined_step; eauto. split; auto.
    - intros [m Wm].
      assert (G : joined (edge_avoiding (nbrs g) B) k w /\ dg d w <> 0); [|apply G].
      induction Wm as [|u w m Wm [IH Zu] He]; [split; [apply joined_refl|auto]|].
      assert (Zw : dg d w <> 0).
      { intros Zw. apply Zu. apply (K3 w u Zw). apply core_edge_sym; auto. }
      split; auto. eapply joined_step; eauto. split; [apply He|]. rewrite HB. tauto. }
  assert (Comp : is_component (core_edge g q) k out) by (split; auto).
  assert (Z2 : forall v, v < vertex_count g -> dg d2 v = 0 <-> dg d v = 0 \/ In v out).
  { intros v Hv. rewrite Hz by auto. simpl. rewrite HB. split.
    - intros [[<-|[_ H]]|H]; auto. right. apply Oc, joined_refl.
    - intros [H|H]; auto. }
  assert (Sy : forall x y, core_edge g q x y -> core_edge g q y x) by (intros; apply core_edge_sym; auto).
  rewrite Lis.
  constructor; cbn [fst snd]; auto.
  - intros v Hv Nc. apply Z2; auto.
  - intros u v Zu He. assert (Hu : u < vertex_count g) by (eapply in_core_lt; apply He).
    assert (Hv : v < vertex_count g) by (eapply in_core_lt; apply He).
    apply Z2; auto. apply Z2 in Zu as [Zu|Zu]; auto.
    + left. eapply K3; eauto.
    + right. apply Oc. apply Oc in Zu. eapply joined_step; eauto.
  - intros v Hv. apply Z2; [lia|]. destruct (Nat.eq_dec v k) as [->|].
    + right. apply Oc, joined_refl.
    + left. apply K4. lia.
  - intros v comp Zv Cv Hc. pose proof (in_core_lt Cv) as Hv. apply Z2 in Zv as [Zv|Zv]; auto.
    + apply Nat.le_trans with result; [eapply K5; eauto|lia].
    + rewrite <- (component_unique Sy (proj1 (Oc v) Zv) Comp Hc). lia.
  - right. destruct K6 as [[-> _]|(v & comp & Cv & Hc & Hlen)].
    + exists k, out. splits; auto.
    + destruct (Nat.max_spec result (length out)) as [[_ ->]|[_ ->]].
      * exists k, out. auto.
      * exists v, comp. auto.
Qed.

Lemma q_core_spec g q : simple_graph g ->
  ((q < 2 \/ vertex_count g = 0) /\ q_core g q = Done None) \/
  (2 <= q /\ 0 < vertex_count g /\ exists m, q_core g q = Done (Some m) /\
     (forall v comp, in_core g q v -> is_component (core_edge g q) v comp -> length comp <= m) /\
     (m = 0 /\ (forall v, ~ in_core g q v) \/
      exists v comp, in_core g q v /\ is_component (core_edge g q) v comp /\ length comp = m)).
Proof.
  intros W. unfold q_core.
  destruct (Nat.ltb_spec q 2) as [Hq|Hq]; [left; split; auto|].
  destruct (Nat.eqb_spec (vertex_count g) 0) as [Hn|Hn]; [left; split; auto|].
  right. splits; auto; [lia|]. cbn [orb].
  destruct (core_peel_spec W Hq (fuel := S (vertex_count g)) (pinv_start W Hq)) as (d & -> & Hl & Hd).
  { unfold measure. pose proof (count_length (live (map ac_degree (vertices g))) (seq 0 (vertex_count g))).
    rewrite seq_length in H. lia. }
  cbn [bind].
  assert (Dec : forall v, in_core g q v \/ ~ in_core g q v).
  { intros v. rewrite <- Hd. lia. }
  destruct (@foldM_seq_inv _ (core_component g) (kinv g q) (vertex_count g) (0, d)) as ([m d'] & -> & I).
  - constructor; cbn [fst snd]; auto.
    + intros v Hv Nc. rewrite <- Hd in Nc. lia.
    + intros u v Zu (_ & Cu & _). apply Hd in Cu. lia.
    + intros; lia.
    + intros v comp Zv Cv. apply Hd in Cv. lia.
    + left. split; auto. intros v Zv Cv. apply Hd in Cv. lia.
  - intros k acc Hk I. apply core_component_spec; auto.
  - cbn [bind]. exists m. split; auto. destruct I as [I1 I2 I3 I4 I5 I6]. cbn [fst snd] in *.
    split.
    + intros v comp Cv. apply I5; auto. apply I4. eapply in_core_lt; eauto.
    + destruct I6 as [[E K]|K]; [left; split; auto|right; auto].
      intros v Cv. apply (K v); auto. apply I4. eapply in_core_lt; eauto.
Qed.

End Core.
