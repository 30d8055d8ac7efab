(** Load and betweenness: lemmas. *)
From Verif Require Import Base BaseFacts Sums Containers ContainerSpec Graph GraphSpec GraphFacts GraphOps Search
  TraversalSpec TraversalFacts Load LoadSpec LoadFacts LoadSums ConsistencyFacts UniformFacts BetweenSpec.
From Coq Require Import QArith Qfield.
Set Implicit Arguments.
Unset Strict Implicit.
Local Open Scope nat_scope.

Lemma list_sum_pos {X} (f : X -> nat) l : 0 < list_sum (map f l) <-> exists x, In x l /\ 0 < f x.
Proof.
  induction l as [|a l IH]; cbn [map list_sum fold_right]; [split; [lia|intros (x & [] & _)]|].
  change (fold_right Nat.add 0 (map f l)) with (list_sum (map f l)). split.
  - intros H. destruct (f a) as [|k] eqn:E.
    + destruct (proj1 IH) as (x & Ix & Hx); [lia|]. exists x. simpl. auto.
    + exists a. simpl. split; auto. lia.
  - intros (x & [<-|Ix] & Hx); [lia|]. assert (0 < list_sum (map f l)) by (apply IH; eauto). lia.
Qed.

Lemma count_sum {X} (f : X -> bool) l : count f l = sum_over (fun x => b2n (f x)) l.
Proof. apply length_filter_sum. Qed.

Lemma list_sum_filter {X} (f : X -> nat) p l : (forall x, In x l -> p x = true -> 1 <= f x) ->
  length (filter p l) <= list_sum (map f l).
Proof.
  induction l as [|a l IH]; intros H; cbn [filter map list_sum fold_right]; auto.
  change (fold_right Nat.add 0 (map f l)) with (list_sum (map f l)).
  assert (length (filter p l) <= list_sum (map f l)) by (apply IH; intros; apply H; simpl; auto).
  pose proof (H a (or_introl eq_refl)). destruct (p a); cbn [length]; [|lia]. specialize (H1 eq_refl). lia.
Qed.

Lemma sum_over_le {X} (f h : X -> nat) l : (forall x, In x l -> f x <= h x) -> sum_over f l <= sum_over h l.
Proof.
  induction l as [|a l IH]; intros H; auto. rewrite !sum_over_cons. pose proof (H a (or_introl eq_refl)).
  assert (sum_over f l <= sum_over h l) by (apply IH; intros; apply H; simpl; auto). lia.
Qed.

Lemma filter_true_id {X} (l : list X) : filter (fun _ => true) l = l.
Proof. induction l as [|a l IH]; cbn; congruence. Qed.

Section Between.
Context {T A : Type} {C : AdjContainer T A} {L : AdjLaws C}.
Variable g : graph A.
Hypothesis W : simple_graph g.
Let n := vertex_count g.

Lemma ways_walk k s : forall v, 0 < ways g k s v <-> walk (adj g) s v k.
Proof.
  induction k as [|k IH]; intros v; cbn [ways].
  - destruct (Nat.eqb_spec s v) as [->|N]; split; try lia.
    + intros _. constructor.
    + intros H. apply walk_zero in H. congruence.
  - rewrite list_sum_pos. split.
    + intros (u & Iu & H). apply IH in H. econstructor; eauto. apply (sg_sym W). exact Iu.
    + intros H. inversion H as [|u ? ? H1 H2]; subst. exists u. split; [apply (sg_sym W); exact H2|]. apply IH. auto.
Qed.

Lemma dist_lt s v d : s < n -> is_dist (adj g) s v d -> d < n.
Proof.
  intros Hs Hd. destruct (dist_vertices W Hs Hd) as (l & Ll & Nd & R).
  assert (length l <= length (seq 0 n)).
  { apply NoDup_incl_length; auto. intros w Hw. apply in_seq. destruct (R w Hw). unfold n. lia. }
  rewrite seq_length in *. lia.
Qed.

Lemma find_least (p : nat -> bool) m d : find p (seq 0 m) = Some d <-> d < m /\ p d = true /\ forall k, k < d -> p k = false.
Proof.
  assert (G : forall m a, find p (seq a m) = Some d <-> a <= d < a + m /\ p d = true /\ forall k, a <= k < d -> p k = false).
  { clear m. induction m as [|m IH]; intros a; cbn [seq find]; [split; [discriminate|lia]|].
    destruct (p a) eqn:Pa.
    - split.
      + intros E. injection E as <-. splits; auto; intros; lia.
      + intros (H1 & H2 & H3). destruct (Nat.eq_dec a d) as [->|Nd]; auto. rewrite H3 in Pa by lia. discriminate.
    - rewrite IH. split; intros (H1 & H2 & H3); splits; auto; try lia.
      + intros k Hk. destruct (Nat.eq_dec k a) as [->|Nk]; auto. apply H3. lia.
      + assert (d <> a) by congruence. lia.
      + intros k Hk. apply H3. lia. }
  rewrite G. split; intros (H1 & H2 & H3); splits; auto; try lia; intros; apply H3; lia.
Qed.

Lemma hops_distances : distances g (hops g).
Proof.
  intros s v d Hs. unfold hops. rewrite find_least.
  assert (Wk : forall k, negb (ways g k s v =? 0) = true <-> walk (adj g) s v k).
  { intros k. rewrite <- ways_walk, negb_true_iff, Nat.eqb_neq. lia. }
  split.
  - intros (H1 & H2 & H3). split; [apply Wk; auto|]. intros k Hk. apply Nat.nlt_ge. intros Lt.
    apply Wk in Hk. rewrite H3 in Hk by auto. discriminate.
  - intros Hd. splits; [apply (dist_lt Hs Hd)|apply Wk, Hd|].
    intros k Hk. apply not_true_iff_false. rewrite Wk. intros Wk'. apply Hd in Wk'. lia.
Qed.

Section Dist.
Variable D : nat -> nat -> option nat.
Hypothesis HD : distances g D.

Lemma D_walk s v d : s < n -> D s v = Some d -> walk (adj g) s v d.
Proof. intros Hs E. apply HD in E; auto. apply E. Qed.

Lemma D_le s v k : s < n -> walk (adj g) s v k -> exists d, D s v = Some d /\ d <= k.
Proof.
  intros Hs Wk. destruct (D s v) as [d|] eqn:E.
  - exists d. split; auto. apply HD in E; auto. apply E. auto.
  - exfalso. destruct (dist_exists W Hs (ex_intro _ k Wk)) as [d Hd]. apply HD in Hd; auto. congruence.
Qed.

Lemma D_lt s v d : s < n -> D s v = Some d -> v < n.
Proof. intros Hs E. apply (D_range W HD Hs). congruence. Qed.

(** [v] is on a shortest path from [s] to [t]. *)
Definition on (s v t : nat) : bool :=
  match D s v, D v t, D s t with
  | Some a, Some b, Some d => a + b =? d
  | _, _, _ => false
  end.

Lemma on_iff s v t : on s v t = true <-> exists a b, D s v = Some a /\ D v t = Some b /\ D s t = Some (a + b).
Proof.
  unfold on. destruct (D s v) as [a|], (D v t) as [b|], (D s t) as [d|];
    try (split; [discriminate|intros (? & ? & ? & ? & ?); discriminate]).
  rewrite Nat.eqb_eq. split; [intros <-; eauto|]. intros (a' & b' & E1 & E2 & E3). congruence.
Qed.

Lemma D_tri s v t a b : s < n -> D s v = Some a -> D v t = Some b -> exists d, D s t = Some d /\ d <= a + b.
Proof.
  intros Hs E1 E2. apply D_le; auto. apply (@walk_trans _ _ s v t); apply D_walk; auto. apply (D_lt Hs E1).
Qed.

Lemma D_adj v w : v < n -> adj g v w -> v <> w -> D v w = Some 1.
Proof.
  intros Hv Ha N. destruct (D_le Hv (walk_one Ha)) as (d & E & Hd). destruct d as [|d].
  - apply HD in E as [K _]; auto. apply walk_zero in K. congruence.
  - rewrite E. f_equal. lia.
Qed.

Lemma outward_iff s v w : s < n -> In w (outward g D s v) <-> adj g v w /\ exists a, D s v = Some a /\ D s w = Some (S a).
Proof.
  intros Hs. unfold outward. rewrite filter_In. unfold nearer, adj. split; intros [H1 H2]; split; auto.
  - destruct (D s v) as [a|], (D s w) as [b|]; try discriminate. apply Nat.eqb_eq in H2. subst. eauto.
  - destruct H2 as (a & -> & ->). apply Nat.eqb_refl.
Qed.

Lemma inward_iff s u w : s < n -> In u (inward g D s w) <-> adj g w u /\ exists a, D s u = Some a /\ D s w = Some (S a).
Proof.
  intros Hs. unfold inward. rewrite filter_In. unfold nearer, adj. split; intros [H1 H2]; split; auto.
  - destruct (D s u) as [a|], (D s w) as [b|]; try discriminate. apply Nat.eqb_eq in H2. subst. eauto.
  - destruct H2 as (a & -> & ->). apply Nat.eqb_refl.
Qed.

Lemma adj_neq u w : adj g u w -> u <> w.
Proof. intros H ->. apply (sg_irrefl W _ H). Qed.

(** The first step of a shortest path. *)
Lemma on_first s v t : s < n -> on s v t = true -> v <> t -> exists w, In w (outward g D s v) /\ on s w t = true.
Proof.
  intros Hs O N. apply on_iff in O as (a & b & E1 & E2 & E3). pose proof (D_lt Hs E1) as Hv.
  destruct b as [|b]; [apply D_walk, walk_zero in E2; auto; congruence|].
  destruct (walk_head (D_walk Hv E2)) as (w & Aw & Ww). pose proof (sg_range W _ _ Aw) as Hw.
  destruct (D_le Hw Ww) as (b' & E4 & Hb). exists w.
  destruct (D_tri Hs E1 (D_adj Hv Aw (adj_neq Aw))) as (a' & E5 & Ha).
  destruct (D_tri Hs E5 E4) as (d & E6 & Hd). rewrite E3 in E6. injection E6 as <-.
  assert (a' = S a) by lia. assert (b' = b) by lia. subst. split.
  - apply outward_iff; auto. split; eauto.
  - apply on_iff. exists (S a), b. splits; auto. rewrite E3. f_equal. lia.
Qed.

Lemma on_outward s v w t : s < n -> In w (outward g D s v) -> on s w t = true -> on s v t = true /\ v <> t.
Proof.
  intros Hs Ow O. apply outward_iff in Ow as (Aw & a & E1 & E2); auto.
  apply on_iff in O as (a' & b & E3 & E4 & E5). rewrite E2 in E3. injection E3 as <-.
  pose proof (D_lt Hs E1) as Hv. pose proof (D_lt Hs E2) as Hw.
  destruct (D_tri Hv (D_adj Hv Aw (adj_neq Aw)) E4) as (c & E6 & Hc).
  destruct (D_tri Hs E1 E6) as (d & E7 & Hd). rewrite E5 in E7. injection E7 as <-.
  assert (c = 1 + b) by lia. subst c. split.
  - apply on_iff. exists a, (1 + b). splits; auto. rewrite E5. f_equal. lia.
  - intros <-. rewrite E5 in E1. injection E1 as E1. lia.
Qed.

Lemma on_self s v a : s < n -> D s v = Some a -> on s v v = true.
Proof.
  intros Hs E. apply on_iff. exists a, 0. splits; auto.
  - apply (D_self HD). apply (D_lt Hs E).
  - rewrite E. f_equal. lia.
Qed.

(** ** One shortest path *)

Section One.
Hypothesis One : forall s t d, s < n -> D s t = Some d -> ways g d s t = 1.

Lemma inward_one s w : s < n -> D s w <> None -> s <> w -> length (inward g D s w) = 1.
Proof.
  intros Hs Hw N. pose proof (D_pred W HD Hs Hw N) as P. destruct (D s w) as [d|] eqn:E; [|congruence].
  destruct d as [|d]; [apply D_walk, walk_zero in E; auto; congruence|].
  pose proof (One Hs E) as O. cbn [ways] in O.
  assert (length (inward g D s w) <= 1).
  { rewrite <- O. apply list_sum_filter. intros u Iu Hu. apply ways_walk. apply D_walk; auto.
    unfold nearer in Hu. rewrite E in Hu. destruct (D s u) as [a|]; [|discriminate]. apply Nat.eqb_eq in Hu. congruence. }
  destruct (inward g D s w) as [|? [|? ?]]; cbn in *; auto; try congruence; lia.
Qed.

Lemma inward_same s w u u' : s < n -> In u (inward g D s w) -> In u' (inward g D s w) -> u = u'.
Proof.
  intros Hs H H'. pose proof H as K. apply inward_iff in K as (Aw & a & E1 & E2); auto.
  assert (Lt : length (inward g D s w) = 1).
  { apply inward_one; auto; [congruence|]. intros <-. rewrite (D_self HD Hs) in E2. discriminate. }
  destruct (inward g D s w) as [|x [|? ?]]; try discriminate. destruct H as [<-|[]], H' as [<-|[]]. auto.
Qed.

Lemma last_step s w t a b : s < n -> D s w = Some a -> D w t = Some (S b) -> D s t = Some (a + S b) ->
  exists u, In u (inward g D s t) /\ D w u = Some b /\ D s u = Some (a + b).
Proof.
  intros Hs E1 E2 E3. pose proof (D_lt Hs E1) as Hw. pose proof (D_walk Hw E2) as Wk.
  inversion Wk as [|u ? ? Wu Ha]; subst. exists u. pose proof (sg_sym W _ _ Ha) as Ha'.
  destruct (D_le Hw Wu) as (b' & E4 & Hb). destruct (D_tri Hs E1 E4) as (c & E5 & Hc).
  assert (Hu : u < n) by apply (D_lt Hw E4).
  destruct (D_tri Hs E5 (D_adj Hu Ha (adj_neq Ha))) as (d & E6 & Hd).
  rewrite E3 in E6. injection E6 as <-. assert (c = a + b) by lia. assert (b' = b) by lia. subst. splits; auto.
  apply inward_iff; auto. split; auto. exists (a + b). split; auto. rewrite E3. f_equal. lia.
Qed.

Lemma on_unique s : s < n -> forall b t w w' a, D s w = Some a -> D s w' = Some a ->
  D w t = Some b -> on s w t = true -> on s w' t = true -> w = w'.
Proof.
  intros Hs. induction b as [|b IH]; intros t w w' a E1 E2 E3 O O'.
  all: apply on_iff in O as (a1 & b1 & F1 & F2 & F3), O' as (a2 & b2 & F4 & F5 & F6);
    rewrite E1 in F1; injection F1 as <-; rewrite E2 in F4; injection F4 as <-;
    rewrite E3 in F2; injection F2 as <-; rewrite F3 in F6; injection F6 as F6;
    assert (b2 = _) by (apply Nat.add_cancel_l in F6; symmetry; exact F6); subst b2.
  - apply D_walk, walk_zero in E3, F5; [congruence|apply (D_lt Hs E2)|apply (D_lt Hs E1)].
  - destruct (last_step Hs E1 E3 F3) as (u & Iu & Eu & Su). destruct (last_step Hs E2 F5 F3) as (u' & Iu' & Eu' & Su').
    assert (u = u') by apply (inward_same Hs Iu Iu'). subst u'.
    apply (IH u w w' a); auto; apply on_iff; eauto.
Qed.

(** The vertices behind [v], seen from [s]. *)
Definition behind (s v : nat) : nat := count (on s v) (seq 0 n).

Lemma behind_at s v t a : s < n -> D s v = Some a ->
  b2n (on s v t) = b2n (v =? t) + sum_over (fun w => b2n (on s w t)) (outward g D s v).
Proof.
  intros Hs E. destruct (Nat.eqb_spec v t) as [<-|N].
  - rewrite (on_self Hs E). rewrite sum_over_zero; auto. intros w Iw. destruct (on s w v) eqn:O; auto.
    destruct (on_outward Hs Iw O). congruence.
  - cbn [b2n plus]. rewrite <- count_sum. destruct (on s v t) eqn:O; cbn [b2n].
    + destruct (on_first Hs O N) as (w & Iw & Ow). symmetry.
      apply (count_unique (x := w)); auto; [apply NoDup_filter, (sg_nodup W)|].
      intros y Iy Oy. apply outward_iff in Iw as (_ & a1 & F1 & F2), Iy as (_ & a2 & F3 & F4); auto.
      rewrite F1 in F3. injection F3 as <-. pose proof Oy as Oy'. apply on_iff in Oy' as (? & b & _ & F5 & _).
      apply (on_unique Hs F4 F2 F5); auto.
    + symmetry. apply count_zero. intros w Iw. destruct (on s w t) eqn:Ow; auto.
      destruct (on_outward Hs Iw Ow). congruence.
Qed.

Lemma behind_eq s v : s < n -> D s v <> None ->
  behind s v = 1 + sum_over (behind s) (outward g D s v).
Proof.
  intros Hs Hv. destruct (D s v) as [a|] eqn:E; [|congruence]. pose proof (D_lt Hs E) as Lv.
  unfold behind. rewrite count_sum. rewrite (@sum_over_ext _ _ (fun t => b2n (v =? t) + sum_over (fun w => b2n (on s w t)) (outward g D s v))).
  2:{ intros t _. apply (behind_at t Hs E). }
  rewrite sum_over_plus. f_equal.
  - rewrite <- count_sum. apply (count_unique (x := v)); [apply seq_NoDup|apply in_seq; lia|apply Nat.eqb_refl|].
    intros y _ Hy. apply Nat.eqb_eq in Hy. auto.
  - rewrite sum_over_exchange. apply sum_over_ext. intros w _. symmetry. apply count_sum.
Qed.

Lemma qsum_sum_over {X} (f : X -> nat) l : (qsum (fun x => qnat (f x)) l == qnat (sum_over f l))%Q.
Proof. induction l as [|a l IH]; [reflexivity|]. rewrite qsum_cons, sum_over_cons, qnat_plus, IH. reflexivity. Qed.

Lemma behind_flow : flow g D (fun s v => qnat (behind s v)).
Proof.
  intros s v Hs Hv. rewrite (behind_eq Hs Hv), qnat_plus. apply Qplus_comp; [reflexivity|].
  rewrite <- qsum_sum_over. apply qsum_ext. intros w Iw. apply outward_iff in Iw as (_ & a & E1 & E2); auto.
  rewrite (@inward_one s w); auto; [|congruence|].
  - change (qnat 1) with 1%Q. field.
  - intros <-. rewrite (D_self HD Hs) in E2. discriminate.
Qed.
End One.

(** ** Vertices that carry nothing *)

Lemma flow_ge_one F : flow g D F -> forall s v, s < n -> D s v <> None -> (1 <= F s v)%Q.
Proof.
  intros HF s v Hs.
  assert (HM : forall w d, D s w = Some d -> d < n) by (intros w d E; apply HD in E; auto; apply (dist_lt Hs E)).
  remember (n - dd D s v) as k eqn:Ek. revert v Ek.
  induction k as [k IH] using lt_wf_ind. intros v Ek Hv. rewrite (HF s v Hs Hv).
  setoid_replace 1%Q with (1 + 0)%Q at 1 by ring. apply Qplus_le_r.
  assert (G : forall w, In w (outward g D s v) -> (0 <= F s w / qnat (length (inward g D s w)))%Q).
  { intros w Iw. apply outward_iff in Iw as (_ & a & E1 & E2); auto.
    assert (1 <= F s w)%Q.
    { apply (IH (n - dd D s w)); auto; [|congruence]. unfold dd in *. rewrite E1 in Ek. rewrite E2. pose proof (HM w _ E2). lia. }
    unfold Qdiv. apply Qmult_le_0_compat.
    - apply Qle_trans with 1%Q; auto. discriminate.
    - apply Qinv_le_0_compat. unfold qnat, Qle. cbn. lia. }
  clear - G. induction (outward g D s v) as [|w l IH]; [apply Qle_refl|]. rewrite qsum_cons.
  setoid_replace 0%Q with (0 + 0)%Q by ring. apply Qplus_le_compat; [apply G; simpl; auto|].
  apply IH. intros; apply G; simpl; auto.
Qed.

Lemma qsum_nonneg_zero {X} (f : X -> Q) l : (forall x, In x l -> (0 <= f x)%Q) ->
  (0 <= qsum f l)%Q /\ ((qsum f l == 0)%Q <-> forall x, In x l -> (f x == 0)%Q).
Proof.
  induction l as [|a l IH]; intros H; [split; [apply Qle_refl|split; [intros _ x []|reflexivity]]|].
  destruct IH as [I1 I2]; [intros; apply H; simpl; auto|]. pose proof (H a (or_introl eq_refl)) as Ha.
  rewrite !qsum_cons. split.
  - setoid_replace 0%Q with (0 + 0)%Q by ring. apply Qplus_le_compat; auto.
  - split.
    + intros E. assert (Ea : (f a == 0)%Q).
      { apply Qle_antisym; auto. rewrite <- E. setoid_replace (f a) with (f a + 0)%Q at 1 by ring. apply Qplus_le_r. auto. }
      assert (El : (qsum f l == 0)%Q) by (rewrite <- E, Ea; ring).
      intros x [<-|Ix]; auto. apply I2; auto.
    + intros Z. rewrite (Z a) by (simpl; auto). rewrite (proj2 I2) by (intros; apply Z; simpl; auto). ring.
Qed.

Lemma qsum_ge {X} (f : X -> Q) l : (forall x, In x l -> (0 <= f x)%Q) -> (0 <= qsum f l)%Q.
Proof. apply qsum_nonneg_zero. Qed.
Lemma qsum_each {X} (f : X -> Q) l : (forall x, In x l -> (0 <= f x)%Q) -> (qsum f l == 0)%Q -> forall x, In x l -> (f x == 0)%Q.
Proof. intros H. apply (qsum_nonneg_zero H). Qed.
Lemma qsum_none {X} (f : X -> Q) l : (forall x, In x l -> (f x == 0)%Q) -> (qsum f l == 0)%Q.
Proof. intros H. rewrite (qsum_ext H). apply qsum_zero. Qed.

Lemma flow_one F s v : flow g D F -> s < n -> D s v <> None -> ((F s v == 1)%Q <-> outward g D s v = []).
Proof.
  intros HF Hs Hv. pose proof (HF s v Hs Hv) as E.
  assert (P : forall w, In w (outward g D s v) -> (0 < F s w / qnat (length (inward g D s w)))%Q).
  { intros w Iw. pose proof Iw as Iw'. apply outward_iff in Iw as (Aw & a & E1 & E2); auto.
    assert (Hw : D s w <> None) by congruence. pose proof (flow_ge_one HF Hs Hw) as G.
    assert (Nz : inward g D s w <> []).
    { intros Z. assert (K : In v (inward g D s w)) by (apply inward_iff; auto; split; [apply (sg_sym W _ _ Aw)|eauto]).
      rewrite Z in K. destruct K. }
    apply Qlt_shift_div_l.
    - unfold qnat, Qlt. cbn. destruct (inward g D s w); [congruence|]. cbn [length]. lia.
    - rewrite Qmult_0_l. apply Qlt_le_trans with 1%Q; auto. reflexivity. }
  split.
  - intros E1. rewrite E in E1. assert (Z : (qsum (fun w => F s w / qnat (length (inward g D s w)))%Q (outward g D s v) == 0)%Q).
    { rewrite <- (Qplus_inj_l _ _ 1). rewrite E1. ring. }
    assert (Z' := qsum_each (fun w Iw => Qlt_le_weak _ _ (P w Iw)) Z). clear Z. rename Z' into Z.
    destruct (outward g D s v) as [|w l] eqn:O; auto. exfalso. specialize (Z w (or_introl eq_refl)). specialize (P w (or_introl eq_refl)).
    rewrite Z in P. apply (Qlt_irrefl _ P).
  - intros Z. rewrite E, Z. cbn. reflexivity.
Qed.

(** Nothing passes [v] exactly if its neighbours are joined to each other. *)
Lemma clique_outward v : v < n ->
  (forall s, s < n -> s <> v -> D s v <> None -> outward g D s v = []) <->
  (forall u w, adj g v u -> adj g v w -> u <> w -> adj g u w).
Proof.
  intros Hv. split.
  - intros H u w Au Aw N. destruct (adj_dec g u w) as [K|K]; auto. exfalso.
    pose proof (sg_range W _ _ Au) as Hu. pose proof (sg_sym W _ _ Au) as Au'.
    pose proof (D_adj Hu Au' (adj_neq Au')) as E1.
    assert (E2 : D u w = Some 2).
    { apply HD; auto. split.
      - econstructor; [apply (walk_one Au')|auto].
      - intros [|[|k]] Wk; try lia; exfalso.
        + apply walk_zero in Wk. auto.
        + apply walk_head in Wk as (x & Ax & Wx). apply walk_zero in Wx. subst. auto. }
    assert (I : In w (outward g D u v)) by (apply outward_iff; auto; split; eauto).
    assert (Z : outward g D u v = []) by (apply H; [exact Hu|apply (adj_neq Au')|congruence]). rewrite Z in I. destruct I.
  - intros H s Hs N Hsv. destruct (outward g D s v) as [|w l] eqn:O; auto. exfalso.
    assert (Iw : In w (outward g D s v)) by (rewrite O; simpl; auto).
    apply outward_iff in Iw as (Aw & a & E1 & E2); auto.
    pose proof (D_pred W HD Hs Hsv N) as P. destruct (inward g D s v) as [|u l'] eqn:I; [congruence|].
    assert (Iu : In u (inward g D s v)) by (rewrite I; simpl; auto).
    apply inward_iff in Iu as (Au & b & E3 & E4); auto. rewrite E1 in E4. injection E4 as ->.
    assert (Nu : u <> w) by (intros <-; rewrite E3 in E2; injection E2; lia).
    pose proof (H u w Au Aw Nu) as Auw. pose proof (sg_range W _ _ Au) as Hu.
    destruct (D_tri Hs E3 (D_adj Hu Auw Nu)) as (c & E5 & Hc). rewrite E2 in E5. injection E5 as <-. lia.
Qed.

Lemma on_outward_iff v : v < n ->
  (forall s t, s < n -> s <> v -> t <> v -> on s v t = false) <->
  (forall s, s < n -> s <> v -> D s v <> None -> outward g D s v = []).
Proof.
  intros Hv. split.
  - intros H s Hs N Hsv. destruct (outward g D s v) as [|w l] eqn:O; auto. exfalso.
    assert (Iw : In w (outward g D s v)) by (rewrite O; simpl; auto).
    pose proof Iw as Iw'. apply outward_iff in Iw' as (Aw & a & E1 & E2); auto.
    destruct (on_outward Hs Iw (on_self Hs E2)) as [K _]. rewrite H in K; auto; [discriminate|].
    intros ->. apply (adj_neq Aw). auto.
  - intros H s t Hs N N'. destruct (on s v t) eqn:O; auto. exfalso.
    destruct (on_first Hs O) as (w & Iw & _); auto. assert (Z : outward g D s v = []) by (apply H; auto; apply on_iff in O as (a & b & E & _); congruence).
    rewrite Z in Iw. destruct Iw.
Qed.

(** ** Trees *)

Lemma ways_inward s w d : s < n -> D s w = Some (S d) -> ways g (S d) s w = list_sum (map (ways g d s) (inward g D s w)).
Proof.
  intros Hs E. cbn [ways]. unfold inward.
  assert (G : forall u, In u (nbrs g w) -> nearer D s u w = false -> ways g d s u = 0).
  { intros u Iu Nu. destruct (ways g d s u) as [|k] eqn:K; auto. exfalso.
    assert (Wk : walk (adj g) s u d) by (apply ways_walk; lia). destruct (D_le Hs Wk) as (a & Ea & Ha).
    pose proof (D_lt Hs Ea) as Hu. pose proof (sg_sym W _ _ Iu : adj g u w) as Au.
    destruct (D_tri Hs Ea (D_adj Hu Au (adj_neq Au))) as (c & Ec & Hc). rewrite E in Ec. injection Ec as <-.
    unfold nearer in Nu. rewrite Ea, E in Nu. apply Nat.eqb_neq in Nu. lia. }
  induction (nbrs g w) as [|u l IH]; auto. cbn [map filter list_sum fold_right].
  change (fold_right Nat.add 0 (map (ways g d s) l)) with (list_sum (map (ways g d s) l)). rewrite IH by (intros; apply G; simpl; auto).
  destruct (nearer D s u w) eqn:Nu; auto. rewrite (G u) by (simpl; auto). auto.
Qed.

Lemma ways_one s : s < n -> (forall w, w < n -> w <> s -> D s w <> None -> length (inward g D s w) = 1) ->
  forall d w, D s w = Some d -> ways g d s w = 1.
Proof.
  intros Hs H. induction d as [|d IH]; intros w E.
  - apply D_walk, walk_zero in E; auto. subst. cbn. rewrite Nat.eqb_refl. auto.
  - rewrite (ways_inward Hs E). assert (Nw : w <> s) by (intros ->; rewrite (D_self HD Hs) in E; discriminate).
    assert (Li : length (inward g D s w) = 1) by (apply H; auto; [apply (D_lt Hs E)|congruence]).
    destruct (inward g D s w) as [|u [|? ?]] eqn:I; try discriminate. cbn. rewrite Nat.add_0_r. apply IH.
    assert (Iu : In u (inward g D s w)) by (rewrite I; simpl; auto).
    apply inward_iff in Iu as (_ & a & E1 & E2); auto. congruence.
Qed.

Lemma inward_total s : s < n -> sum_over (fun w => length (inward g D s w)) (seq 0 n) <= edge_count g.
Proof.
  intros Hs. set (f := fun w u => b2n (adjb g w u && nearer D s u w)).
  assert (E : sum_over (fun w => length (inward g D s w)) (seq 0 n) = sum_over (fun w => sum_over (f w) (seq 0 n)) (seq 0 n)).
  { apply sum_over_ext. intros w _. unfold inward. rewrite (Permutation_length (seq_filter_perm _ _ W)). apply length_filter_sum. }
  set (h := fun w u => f w u + f u w).
  assert (H : 2 * sum_over (fun w => sum_over (f w) (seq 0 n)) (seq 0 n) =
    2 * sum_over (fun j => sum_over (fun i => h i j) (seq 0 j)) (seq 0 n)).
  { rewrite <- handshake.
    - unfold h. rewrite (@sum_over_ext _ (fun i => sum_over (fun u => f i u + f u i) (seq 0 n)) (fun i => sum_over (f i) (seq 0 n) + sum_over (fun j => f j i) (seq 0 n))).
      + rewrite sum_over_plus.
        assert (X : sum_over (fun i => sum_over (fun j => f j i) (seq 0 n)) (seq 0 n) = sum_over (fun i => sum_over (f i) (seq 0 n)) (seq 0 n)).
        { apply (sum_over_exchange (fun i j => f j i)). }
        rewrite X. lia.
      + intros i _. apply sum_over_plus.
    - intros i. unfold h, f. destruct (adjb g i i) eqn:K; auto. apply adjb_adj in K. destruct (sg_irrefl W _ K).
    - intros i j. unfold h. lia. }
  rewrite E. apply Nat.mul_cancel_l in H; [|lia]. rewrite H.
  rewrite (sg_count W). unfold number_of_edges. rewrite count_sum.
  assert (Pb : forall k, sum_over (fun ij : nat * nat => b2n (adjb g (fst ij) (snd ij))) (pairs_below k) =
    sum_over (fun j => sum_over (fun i => b2n (adjb g i j)) (seq 0 j)) (seq 0 k)).
  { intros k. unfold pairs_below. rewrite sum_over_flat_map. apply sum_over_ext. intros j _. rewrite sum_over_map. auto. }
  rewrite Pb. apply sum_over_le. intros j _. apply sum_over_le. intros i _.
  unfold h, f, nearer. rewrite (adjb_sym j i W). destruct (adjb g i j); cbn [andb b2n]; auto.
  destruct (D s i) as [a|], (D s j) as [b|]; cbn [b2n]; auto.
  destruct (Nat.eqb_spec (S a) b), (Nat.eqb_spec (S b) a); cbn [b2n]; lia.
Qed.

Lemma all_one (f : nat -> nat) l k : (forall x, In x l -> 1 <= f x) -> sum_over f l <= k -> k <= length l ->
  forall x, In x l -> f x = 1.
Proof.
  revert k. induction l as [|a l IH]; intros k H1 H2 H3 x Ix; [destruct Ix|].
  rewrite sum_over_cons in H2. cbn [length] in H3. pose proof (H1 a (or_introl eq_refl)).
  assert (Lo : length l <= sum_over f l).
  { clear - H1. induction l as [|b l IHl]; auto. rewrite sum_over_cons. cbn [length].
    pose proof (H1 b (or_intror (or_introl eq_refl))). assert (length l <= sum_over f l); [|lia].
    apply IHl. intros y [->|Iy]; apply H1; simpl; auto. }
  destruct Ix as [<-|Ix]; [lia|]. apply (IH (k - f a)); auto; try lia. intros; apply H1; simpl; auto.
Qed.

Lemma tree_inward s : connected g -> edge_count g + 1 = n -> s < n ->
  forall w, w < n -> w <> s -> length (inward g D s w) = 1.
Proof.
  intros Hc He Hs w Hw Nw.
  apply (@all_one (fun w => length (inward g D s w)) (filter (fun w => negb (w =? s)) (seq 0 n)) (edge_count g)).
  - intros x Ix. apply filter_In in Ix as [Ix Nx]. apply in_seq in Ix. apply negb_true_iff, Nat.eqb_neq in Nx.
    assert (Dx : D s x <> None).
    { destruct (Hc s x) as [k Wk]; auto; [unfold n in *; lia|]. destruct (D_le Hs Wk) as (d & E & _). congruence. }
    pose proof (D_pred W HD Hs Dx (not_eq_sym Nx)) as P. destruct (inward g D s x); [congruence|]. cbn. lia.
  - pose proof (inward_total Hs) as It. revert It.
    generalize (seq 0 n) as l. intros l It. etransitivity; [|exact It]. clear.
    induction l as [|x l IH]; auto. cbn [filter]. rewrite (sum_over_cons _ x l). destruct (negb (x =? s)); [rewrite sum_over_cons|]; lia.
  - assert (Lc : length (filter (fun w => w =? s) (seq 0 n)) = 1).
    { apply (count_unique (f := fun w => w =? s) (x := s)); [apply seq_NoDup|apply in_seq; lia|apply Nat.eqb_refl|].
      intros y _ Hy. apply Nat.eqb_eq in Hy. auto. }
    pose proof (filter_length (fun w => w =? s) (seq 0 n)) as Fl. rewrite seq_length in Fl.
    lia.
  - apply filter_In. split; [apply in_seq; lia|]. apply negb_true_iff, Nat.eqb_neq. auto.
Qed.

End Dist.

(** ** Load and betweenness *)

Lemma load_at D F (l : list Q) (b : bool) : distances g D -> flow g D F -> length l = n ->
  (forall v, (nth v l 0 == qsum (fun s => through D F s v) (seq 0 n) -
    (if b then 0 else qnat (count (fun s => other D s v) (seq 0 n))))%Q) ->
  forall v, (nth v l 0 == qsum (fun s => match D s v with
                                          | Some _ => F s v - (if b then 0 else 1)
                                          | None => 0
                                          end) (filter (fun s => negb (s =? v)) (seq 0 n)))%Q.
Proof.
  intros HD HF Ll H v. rewrite (H v). clear H. unfold count.
  assert (G : forall m, (qsum (fun s => through D F s v) m - (if b then 0 else qnat (length (filter (fun s => other D s v) m))) ==
    qsum (fun s => match D s v with Some _ => F s v - (if b then 0 else 1) | None => 0 end) (filter (fun s => negb (s =? v)) m))%Q).
  { induction m as [|s m IH]; [destruct b; reflexivity|]. rewrite qsum_cons. cbn [filter]. unfold other at 1. unfold through at 1.
    destruct (s =? v); cbn [negb andb].
    - rewrite <- IH. destruct b; ring.
    - rewrite qsum_cons, <- IH. destruct (D s v); cbn [length]; destruct b; try rewrite qnat_S; ring. }
  apply G.
Qed.

Lemma share_one D : distances g D -> (forall s t d, s < n -> D s t = Some d -> ways g d s t = 1) ->
  forall s v t, s < n -> v < n -> (share g v s t == if on D s v t then 1 else 0)%Q.
Proof.
  intros HD One s v t Hs Hv. unfold share, on.
  rewrite (distances_fun v hops_distances HD Hs), (distances_fun t hops_distances HD Hv), (distances_fun t hops_distances HD Hs).
  destruct (D s v) as [a|] eqn:E1, (D v t) as [b|] eqn:E2, (D s t) as [d|] eqn:E3; try reflexivity.
  destruct (a + b =? d); [|reflexivity]. rewrite (One s v a), (One v t b), (One s t d) by auto. reflexivity.
Qed.

Lemma load_between l b : one_shortest_path g -> vertex_load g b = Done l ->
  forall v, v < n -> (nth v l 0 == betweenness g b v)%Q.
Proof.
  intros O E v Hv. destruct (load_value b W) as (D & F & l' & HD & HF & E' & Ll & H).
  rewrite E in E'. injection E' as <-.
  assert (One : forall s t d, s < n -> D s t = Some d -> ways g d s t = 1).
  { intros s t d Hs Ed. apply O; auto; [apply (D_lt HD Hs Ed)|]. rewrite (distances_fun t hops_distances HD Hs). auto. }
  rewrite (load_at HD HF Ll H). unfold betweenness. apply qsum_ext. intros s Is. apply filter_In in Is as [Is _]. apply in_seq in Is.
  assert (Hs : s < n) by lia.
  rewrite (qsum_ext (h := fun t => qnat (b2n (on D s v t)))).
  2:{ intros t _. rewrite (share_one HD One t Hs Hv). destruct (on D s v t); reflexivity. }
  rewrite qsum_sum_over. destruct (D s v) as [a|] eqn:Es.
  - rewrite (@flow_unique _ _ _ _ g D F _ W HD HF (behind_flow HD One) s v Hs) by congruence.
    assert (B : behind D s v = sum_over (fun t => b2n (on D s v t)) (filter (fun t => b || negb (t =? v)) (seq 0 n)) + (if b then 0 else 1)).
    { unfold behind. rewrite count_sum. destruct b; cbn [orb].
      - rewrite filter_true_id. lia.
      - rewrite (@sum_over_ext _ _ (fun t => b2n (negb (t =? v)) * b2n (on D s v t) + b2n (t =? v))).
        + rewrite sum_over_plus. f_equal.
          * generalize (seq 0 n) as m. induction m as [|t m IH]; auto. cbn [filter]. rewrite sum_over_cons.
            destruct (negb (t =? v)); [rewrite sum_over_cons|]; cbn [b2n]; lia.
          * rewrite <- count_sum. apply (count_unique (x := v)); [apply seq_NoDup|apply in_seq; lia|apply Nat.eqb_refl|].
            intros y _ Hy. apply Nat.eqb_eq in Hy. auto.
        + intros t _. destruct (Nat.eqb_spec t v) as [->|Nt]; cbn [negb b2n]; [rewrite (on_self HD Hs Es); auto|lia]. }
    rewrite B, qnat_plus. fold n. destruct b; cbv iota; [change (qnat 0) with 0%Q|change (qnat 1) with 1%Q]; ring.
  - rewrite sum_over_zero; [reflexivity|]. intros t _. unfold on. rewrite Es. auto.
Qed.

Lemma load_zero l v : vertex_load g false = Done l -> v < n ->
  ((nth v l 0 == 0)%Q <-> forall u w, adj g v u -> adj g v w -> u <> w -> adj g u w).
Proof.
  intros E Hv. destruct (load_value false W) as (D & F & l' & HD & HF & E' & Ll & H).
  rewrite E in E'. injection E' as <-. rewrite (load_at (b := false) HD HF Ll H v).
  rewrite <- (clique_outward HD Hv). destruct (@qsum_nonneg_zero _ (fun s => match D s v with
    | Some _ => F s v - 1 | None => 0 end)%Q (filter (fun s => negb (s =? v)) (seq 0 n))) as [_ Z].
  { intros s Is. apply filter_In in Is as [Is _]. apply in_seq in Is. destruct (D s v) as [a|] eqn:Es; [|apply Qle_refl].
    apply (proj1 (Qle_minus_iff 1 (F s v))). apply (flow_ge_one HD HF); [lia|congruence]. }
  rewrite Z. split.
  - intros K s Hs N Hsv. specialize (K s). rewrite filter_In, in_seq, negb_true_iff, Nat.eqb_neq in K.
    apply (flow_one HD HF Hs Hsv). destruct (D s v); [|congruence]. rewrite <- (Qplus_inj_r _ _ (-1)).
    rewrite K by (split; auto; lia). reflexivity.
  - intros K s Is. apply filter_In in Is as [Is Ns]. apply in_seq in Is. apply negb_true_iff, Nat.eqb_neq in Ns.
    destruct (D s v) as [a|] eqn:Es; [|reflexivity].
    assert (Fs : (F s v == 1)%Q) by (apply (flow_one HD HF); [lia|congruence|apply K; auto; [lia|congruence]]).
    rewrite Fs. reflexivity.
Qed.

Lemma between_zero v : v < n ->
  ((betweenness g false v == 0)%Q <-> forall u w, adj g v u -> adj g v w -> u <> w -> adj g u w).
Proof.
  intros Hv. pose proof hops_distances as HD. rewrite <- (clique_outward HD Hv), <- (on_outward_iff HD Hv).
  assert (Nn : forall s t, (0 <= share g v s t)%Q).
  { intros s t. unfold share. destruct (hops g s v), (hops g v t), (hops g s t); try apply Qle_refl.
    destruct (_ =? _); [|apply Qle_refl]. unfold Qdiv. apply Qmult_le_0_compat; [|apply Qinv_le_0_compat]; unfold qnat, Qle; cbn; lia. }
  assert (Sz : forall s t, s < n -> (share g v s t == 0)%Q <-> on (hops g) s v t = false).
  { intros s t Hs. unfold share, on. destruct (hops g s v) as [a|] eqn:E1, (hops g v t) as [b|] eqn:E2, (hops g s t) as [d|] eqn:E3;
      try (split; reflexivity). destruct (a + b =? d); [|split; reflexivity]. split; [|discriminate]. intros Z. exfalso.
    pose proof (proj2 (ways_walk _ _ _) (D_walk HD Hs E1)) as P1. pose proof (proj2 (ways_walk _ _ _) (D_walk HD Hv E2)) as P2.
    pose proof (proj2 (ways_walk _ _ _) (D_walk HD Hs E3)) as P3. revert Z.
    assert (P12 : ways g a s v * ways g b v t <> 0) by nia. intros Z.
    apply (qnat_nonzero P12). setoid_replace (qnat (ways g a s v * ways g b v t)) with
      (qnat (ways g a s v * ways g b v t) / qnat (ways g d s t) * qnat (ways g d s t))%Q; [rewrite Z; ring|].
    field. apply qnat_nonzero. lia. }
  unfold betweenness. fold n.
  destruct (@qsum_nonneg_zero _ (fun s => qsum (share g v s) (filter (fun t => false || negb (t =? v)) (seq 0 n)))
    (filter (fun s => negb (s =? v)) (seq 0 n))) as [_ Z].
  { intros s _. apply qsum_ge. auto. }
  rewrite Z. split.
  - intros K s t Hs Ns Nt. destruct (on (hops g) s v t) eqn:O; auto. exfalso.
    assert (Ht : t < n) by (apply on_iff in O as (? & b & _ & E & _); apply (D_lt HD Hv E)).
    assert (Is : In s (filter (fun s => negb (s =? v)) (seq 0 n))) by (rewrite filter_In, in_seq, negb_true_iff, Nat.eqb_neq; split; auto; lia).
    specialize (K s Is). assert (K' := qsum_each (fun t _ => Nn s t) K). clear K. rename K' into K.
    assert (It : In t (filter (fun t => false || negb (t =? v)) (seq 0 n))) by (cbn [orb]; rewrite filter_In, in_seq, negb_true_iff, Nat.eqb_neq; split; auto; lia).
    specialize (K t It). apply (Sz s t Hs) in K. congruence.
  - intros K s Is. rewrite filter_In, in_seq, negb_true_iff, Nat.eqb_neq in Is. apply qsum_none.
    intros t It. cbn [orb] in It. rewrite filter_In, in_seq, negb_true_iff, Nat.eqb_neq in It. apply Sz; [lia|]. apply K; try tauto.
Qed.

Lemma tree_one : connected g -> edge_count g + 1 = n -> one_shortest_path g.
Proof.
  intros Hc He s t d Hs Ht E. apply (ways_one hops_distances Hs); auto.
  intros w Hw Nw _. apply (tree_inward hops_distances Hc He Hs Hw Nw).
Qed.
End Between.
