(** Proofs that the steps of the small-world ensemble lead from every state to every other. *)
From Verif Require Import Base BaseFacts Sums Containers ContainerSpec ContainerFacts Graph GraphSpec GraphFacts GraphOps
  GraphBuild Rng RngFacts Markov Sw SwSpec SwFacts SwChain UniformSpec UniformFacts PlaceSpec PlaceFacts.
From Coq Require Import QArith.
Set Implicit Arguments.
Unset Strict Implicit.
Local Open Scope nat_scope.

(** ** Growing a set until it is closed *)

Section Layers.
Variable n : nat.
Variable P : nat -> bool.
Variable R : nat -> nat -> bool.

Fixpoint layer (k : nat) (v : nat) : bool :=
  match k with
  | 0 => P v
  | S k => layer k v || existsb (fun u => layer k u && R v u) (seq 0 n)
  end.

Lemma count_not {X} (f : X -> bool) l : count f l + count (fun x => negb (f x)) l = length l.
Proof. unfold count. induction l as [|a l IH]; auto. cbn [filter]. destruct (f a); cbn [negb length]; lia. Qed.

Lemma count_mono {X} (f g : X -> bool) l : (forall x, In x l -> f x = true -> g x = true) -> count f l <= count g l.
Proof.
  intros H. unfold count. induction l as [|a l IH]; auto. cbn [filter].
  assert (IHl : length (filter f l) <= length (filter g l)) by (apply IH; intros; apply H; simpl; auto).
  destruct (f a) eqn:F; [rewrite (H a) by (simpl; auto); cbn; lia|]. destruct (g a); cbn; lia.
Qed.

Lemma count_eq {X} (f g : X -> bool) l : (forall x, In x l -> f x = true -> g x = true) -> count g l <= count f l ->
  forall x, In x l -> g x = f x.
Proof.
  unfold count. induction l as [|a l IH]; intros H L x Hx; [destruct Hx|]. cbn [filter] in L.
  assert (Hl : forall y, In y l -> f y = true -> g y = true) by (intros; apply H; simpl; auto).
  pose proof (count_mono Hl) as M. unfold count in M.
  destruct (f a) eqn:F.
  - rewrite (H a) in L by (simpl; auto). cbn [length] in L.
    destruct Hx as [<-|Hx]; [rewrite (H a); simpl; auto|]. apply IH; auto. lia.
  - destruct (g a) eqn:G; cbn [length] in L; [lia|]. destruct Hx as [<-|Hx]; [congruence|]. apply IH; auto.
Qed.

Lemma layer_stable : exists k, forall v, v < n -> layer (S k) v = layer k v.
Proof.
  assert (Q : forall k, (exists j, forall v, v < n -> layer (S j) v = layer j v) \/ k <= count (layer k) (seq 0 n)).
  { induction k as [|k [IH|IH]]; auto; [right; lia|].
    destruct (Nat.le_gt_cases (count (layer (S k)) (seq 0 n)) (count (layer k) (seq 0 n))) as [L|L]; [|right; lia].
    left. exists k. intros v Hv. apply (@count_eq _ (layer k) (layer (S k)) (seq 0 n)); auto; [|apply in_seq; lia].
    intros x _ H. cbn [layer]. rewrite H. auto. }
  destruct (Q (S n)) as [?|L]; auto. unfold count in L.
  pose proof (count_not (layer (S n)) (seq 0 n)) as N. rewrite seq_length in N. unfold count in N. lia.
Qed.
End Layers.

(** ** No closed set of full vertices *)

Definition before (n v w : nat) : bool := ((w + 1) mod n =? v) || ((w + 2) mod n =? v).

Lemma count_le2 (f : nat -> bool) l a b : NoDup l -> (forall x, In x l -> f x = true -> x = a \/ x = b) -> count f l <= 2.
Proof.
  intros N H. unfold count. change 2 with (length [a; b]). apply NoDup_incl_length; [apply NoDup_filter; auto|].
  intros x Hx. apply filter_In in Hx as [Hx Fx]. simpl. destruct (H x Hx Fx) as [->| ->]; auto.
Qed.

Lemma mod_back n v w k : k < n -> v < n -> w < n -> (w + k) mod n = v -> w = (v + (n - k)) mod n.
Proof.
  intros Hk Hv Hw E. destruct (Nat.ltb_spec (w + k) n).
  - rewrite Nat.mod_small in E by auto. replace (v + (n - k)) with (w + 1 * n) by lia. rewrite Nat.mod_add, Nat.mod_small; lia.
  - replace (w + k) with (w + k - n + 1 * n) in E by lia. rewrite Nat.mod_add, Nat.mod_small in E by lia.
    rewrite Nat.mod_small; lia.
Qed.

Lemma before_two n v : 3 <= n -> v < n -> count (before n v) (seq 0 n) <= 2.
Proof.
  intros Hn Hv. apply count_le2 with (a := (v + (n - 1)) mod n) (b := (v + (n - 2)) mod n); [apply seq_NoDup|].
  intros x Hx B. apply in_seq in Hx. unfold before in B. apply orb_prop in B as [B|B]; apply Nat.eqb_eq in B.
  - left. apply mod_back; auto; lia.
  - right. apply mod_back; auto; lia.
Qed.

Lemma count_split {X} (f g : X -> bool) l :
  count f l = count (fun x => f x && g x) l + count (fun x => f x && negb (g x)) l.
Proof.
  unfold count. induction l as [|a l IH]; auto. cbn [filter]. destruct (f a), (g a); cbn [andb negb length]; lia.
Qed.

Lemma count_ext_on {X} (f g : X -> bool) l : (forall x, In x l -> f x = g x) -> count f l = count g l.
Proof. intros H. unfold count. f_equal. apply filter_ext_in. auto. Qed.

(** The arithmetic, for all small sets. *)
Definition excess (n : nat) (F : nat -> bool) : nat :=
  2 * sum_over (fun v => b2n (F v) * count (fun w => negb (F w) && negb (before n v w)) (seq 0 n)) (seq 0 n) +
  count F (seq 0 n) * count F (seq 0 n).

Fixpoint bool_lists (n : nat) : list (list bool) :=
  match n with
  | 0 => [[]]
  | S n => flat_map (fun l => [true :: l; false :: l]) (bool_lists n)
  end.

Definition small_check (n : nat) : bool :=
  forallb (fun l => let F := fun i => nth i l false in
    (count F (seq 0 n) =? 0) || (5 * count F (seq 0 n) <? excess n F)) (bool_lists n).

Lemma bool_lists_In l : In l (bool_lists (length l)).
Proof.
  induction l as [|b l IH]; cbn [length bool_lists]; [simpl; auto|]. apply in_flat_map. exists l. split; auto.
  destruct b; simpl; auto.
Qed.

Lemma small_sets n (F : nat -> bool) : small_check n = true ->
  count F (seq 0 n) = 0 \/ 5 * count F (seq 0 n) < excess n F.
Proof.
  intros H. unfold small_check in H. rewrite forallb_forall in H.
  set (l := map F (seq 0 n)). specialize (H l). 
  assert (L : length l = n) by (unfold l; rewrite map_length, seq_length; auto).
  assert (J : In l (bool_lists n)) by (rewrite <- L; apply bool_lists_In). specialize (H J). cbv zeta in H.
  assert (E : forall i, In i (seq 0 n) -> nth i l false = F i).
  { intros i Hi. apply in_seq in Hi. unfold l. rewrite (nth_indep _ false (F 0)) by (rewrite map_length, seq_length; lia).
    rewrite map_nth, seq_nth by lia. auto. }
  assert (C : count (fun i => nth i l false) (seq 0 n) = count F (seq 0 n)) by (apply count_ext_on; auto).
  assert (X : excess n (fun i => nth i l false) = excess n F).
  { unfold excess. rewrite C. f_equal. f_equal. apply sum_over_ext. intros v Hv. rewrite (E v Hv). f_equal.
    apply count_ext_on. intros w Hw. rewrite (E w Hw). auto. }
  rewrite C, X in H. apply orb_prop in H as [H|H]; [left; apply Nat.eqb_eq; auto|right; apply Nat.ltb_lt; auto].
Qed.

(** The arithmetic. *)
Lemma too_full n (F : nat -> bool) v : 6 <= n -> v < n -> F v = true ->
  excess n F <= 5 * count F (seq 0 n) -> False.
Proof.
  intros Hn Hv Fv H.
  assert (K : 0 < count F (seq 0 n)).
  { unfold count. destruct (filter F (seq 0 n)) eqn:E; [|cbn; lia].
    assert (I : In v (filter F (seq 0 n))) by (apply filter_In; split; auto; apply in_seq; lia). rewrite E in I. destruct I. }
  destruct (Nat.le_gt_cases 8 n) as [H8|H8].
  - unfold excess in H. set (k := count F (seq 0 n)) in *.
    assert (K5 : k <= 5) by nia.
    assert (C : forall v, v < n -> n - k - 2 <= count (fun w => negb (F w) && negb (before n v w)) (seq 0 n)).
    { intros x Hx. pose proof (count_not F (seq 0 n)) as N. rewrite seq_length in N. fold k in N.
      pose proof (count_split (fun w => negb (F w)) (before n x) (seq 0 n)) as S.
      assert (B : count (fun w => negb (F w) && before n x w) (seq 0 n) <= count (before n x) (seq 0 n)).
      { apply count_mono. intros y _ Hy. apply andb_prop in Hy. tauto. }
      pose proof (@before_two n x ltac:(lia) Hx). lia. }
    assert (L : (n - k - 2) * k <= sum_over (fun v => b2n (F v) * count (fun w => negb (F w) && negb (before n v w)) (seq 0 n)) (seq 0 n)).
    { unfold k at 2. unfold count at 1. rewrite length_filter_sum, <- sum_over_mul.
      assert (M : forall (f g : nat -> nat) l, (forall x, In x l -> f x <= g x) -> sum_over f l <= sum_over g l).
      { intros f g l Hl. induction l as [|a l IH]; auto. rewrite !sum_over_cons.
        pose proof (Hl a (or_introl eq_refl)). assert (sum_over f l <= sum_over g l) by (apply IH; intros; apply Hl; simpl; auto). lia. }
      apply M. intros x Hx. apply in_seq in Hx. destruct (F x); cbn [b2n]; [|lia]. specialize (C x ltac:(lia)). lia. }
    assert (3 <= n - k - 2 \/ k = 4 \/ k = 5) by lia. nia.
  - assert (n = 6 \/ n = 7) as [-> | ->] by lia.
    + destruct (@small_sets 6 F ltac:(vm_compute; reflexivity)); lia.
    + destruct (@small_sets 7 F ltac:(vm_compute; reflexivity)); lia.
Qed.

Section Reach.
Context {T : Type}.
Implicit Types g h : graph (sw_container T).
Implicit Types e f : sw_ensemble T.

Definition rootb g (v w : nat) : bool := existsb (fun x => se_is_root x && (se_to x =? w)) (entries g v).

Lemma rootb_iff g v w : rootb g v w = true <-> rooted g v w.
Proof.
  unfold rootb. rewrite existsb_exists. split.
  - intros ([t [o|]] & H & Q); cbn in Q; [|discriminate]. apply Nat.eqb_eq in Q. subst t. exists o. exact H.
  - intros [o H]. exists (mk_se w (Some o)). split; auto. cbn. apply Nat.eqb_refl.
Qed.

Lemma rootb_two n g v : sw_inv n 2 g -> v < n -> count (rootb g v) (seq 0 n) = 2.
Proof.
  intros I Hv. rewrite <- (roots_length I Hv), <- (map_length se_to). unfold count. apply Permutation_length.
  pose proof I as (W & V & _). apply NoDup_Permutation.
  - apply NoDup_filter, seq_NoDup.
  - apply roots_NoDup; auto.
  - intros w. rewrite filter_In, rootb_iff, <- rooted_filter. split; [tauto|]. intros R. split; auto.
    apply in_seq. destruct (adj_lt W (rooted_adj R)). lia.
Qed.

Lemma sum_le {X} (f g : X -> nat) l : (forall x, In x l -> f x <= g x) -> sum_over f l <= sum_over g l.
Proof.
  intros Hl. induction l as [|a l IH]; auto. rewrite !sum_over_cons.
  pose proof (Hl a (or_introl eq_refl)). assert (sum_over f l <= sum_over g l) by (apply IH; intros; apply Hl; simpl; auto). lia.
Qed.

Lemma no_closed n g (F : nat -> bool) v : sw_inv n 2 g -> 6 <= n -> v < n -> F v = true ->
  (forall v, v < n -> F v = true -> (forall w, w < n -> w <> v -> adj g v w) /\
     forall w l, rooted_from g w v l -> l <> v -> F w = true) -> False.
Proof.
  intros I Hn Hv Fv H. apply (@too_full n F v); auto.
  pose proof I as (W & V & _ & _ & P).
  assert (Anti : forall a b, rooted g a b -> ~ rooted g b a).
  { intros a b [o R] R'. pose proof (proj2 (P a b) R') as X.
    assert (Y : mk_se b None = mk_se b (Some o)) by (apply (entry_unique W X R); auto). discriminate. }
  assert (Cov : forall a b, adj g a b -> rooted g a b \/ rooted g b a).
  { intros a b A. apply adj_entries in A as ([t [o|]] & A & E); cbn in E; subst t; [left; exists o; auto|].
    right. apply P; auto. }
  set (k := count F (seq 0 n)).
  set (c1 := fun v => count (fun w => negb (F w) && negb (before n v w)) (seq 0 n)).
  set (c2 := fun v => count (fun w => F w && rootb g v w) (seq 0 n)).
  assert (Two : forall v, v < n -> F v = true -> c1 v + c2 v <= 2).
  { intros x Hx Fx. pose proof (rootb_two I Hx) as R2. rewrite (count_split (rootb g x) F) in R2.
    assert (E2 : c2 x = count (fun w => rootb g x w && F w) (seq 0 n)) by (apply count_ext_on; intros; apply andb_comm).
    assert (E1 : c1 x <= count (fun w => rootb g x w && negb (F w)) (seq 0 n)).
    { apply count_mono. intros w Hw Q. apply in_seq in Hw. apply andb_prop in Q as [Q1 Q2]. rewrite Q1, andb_true_r.
      apply negb_true_iff in Q1, Q2. apply rootb_iff. destruct (H x Hx Fx) as [Full Cl].
      assert (Nwx : w <> x) by congruence. destruct (Cov x w (Full w ltac:(lia) Nwx)) as [R|[l R]]; auto. exfalso.
      destruct (Nat.eq_dec l x) as [->|Nl].
      - apply (rooted_edge I) in R. apply ring_edges_In in R as [_ R]. rewrite ring_targets_two in R.
        unfold before in Q2. apply orb_false_elim in Q2 as [Q2 Q3]. apply Nat.eqb_neq in Q2, Q3.
        destruct R as [R|[R|[]]]; congruence.
      - rewrite (Cl w l R Nl) in Q1. discriminate. }
    lia. }
  assert (S1 : sum_over (fun v => b2n (F v) * c1 v) (seq 0 n) + sum_over (fun v => b2n (F v) * c2 v) (seq 0 n) <= 2 * k).
  { rewrite <- sum_over_plus. unfold k, count. rewrite length_filter_sum, <- sum_over_mul. apply sum_le.
    intros x Hx. apply in_seq in Hx. destruct (F x) eqn:Fx; cbn [b2n]; [|lia]. specialize (Two x ltac:(lia) Fx). lia. }
  set (m := fun x y => b2n (F x) * (b2n (F y) * b2n (rootb g x y))).
  assert (S2 : sum_over (fun v => b2n (F v) * c2 v) (seq 0 n) = sum_over (fun x => sum_over (m x) (seq 0 n)) (seq 0 n)).
  { apply sum_over_ext. intros x _. unfold m. rewrite sum_over_mul. f_equal. unfold c2, count. rewrite length_filter_sum.
    apply sum_over_ext. intros y _. destruct (F y), (rootb g x y); reflexivity. }
  assert (S3 : sum_over (fun x => sum_over (m x) (seq 0 n)) (seq 0 n) = sum_over (fun x => sum_over (fun y => m y x) (seq 0 n)) (seq 0 n))
    by apply sum_over_exchange.
  assert (S4 : sum_over (fun x => sum_over (m x) (seq 0 n)) (seq 0 n) + sum_over (fun x => sum_over (fun y => m y x) (seq 0 n)) (seq 0 n) + k = k * k).
  { rewrite <- sum_over_plus. 
    assert (Kk : k * k = sum_over (fun x => sum_over (fun y => b2n (F x) * b2n (F y)) (seq 0 n)) (seq 0 n)).
    { rewrite (@sum_over_ext _ _ (fun x => k * b2n (F x))).
      - rewrite sum_over_mul. unfold k, count. rewrite !length_filter_sum. auto.
      - intros x _. rewrite sum_over_mul. unfold k, count. rewrite length_filter_sum. lia. }
    rewrite Kk. assert (Ks : k = sum_over (fun x => b2n (F x)) (seq 0 n)) by (unfold k, count; apply length_filter_sum).
    rewrite Ks at 1. rewrite <- sum_over_plus. apply sum_over_ext. intros x Hx. apply in_seq in Hx. rewrite <- sum_over_plus.
    assert (Dx : b2n (F x) = sum_over (fun y => b2n (F x) * b2n (y =? x)) (seq 0 n)).
    { rewrite sum_over_mul. rewrite (@sum_hit (fun y => y =? x) x n); try lia; [apply Nat.eqb_refl|].
      intros t _ Q. apply Nat.eqb_eq; auto. }
    rewrite Dx at 1. rewrite <- sum_over_plus. apply sum_over_ext. intros y Hy. apply in_seq in Hy. unfold m.
    destruct (F x) eqn:Fx; cbn [b2n]; [|lia]. destruct (Nat.eqb_spec y x) as [->|Nyx].
    - rewrite Fx. assert (Z : rootb g x x = false).
      { apply not_true_iff_false. rewrite rootb_iff. intros R. apply (sg_irrefl W _ (rooted_adj R)). }
      rewrite Z. reflexivity.
    - destruct (F y); cbn [b2n]; [|lia]. destruct (H x ltac:(lia) Fx) as [Full _].
      pose proof (Full y ltac:(lia) Nyx) as A. pose proof (Cov x y A) as C. pose proof (Anti x y) as N. rewrite <- !rootb_iff in C, N.
      destruct (rootb g x y), (rootb g y x); cbn [b2n]; try lia; exfalso; intuition congruence. }
  change (2 * sum_over (fun v => b2n (F v) * c1 v) (seq 0 n) + k * k <= 5 * k). lia.
Qed.

(** ** Single moves *)

Record mv (p : profile) (n : nat) e (i0 i1 x o : nat) e' : Prop := {
  mv_inv : sw_inv n 2 (sw_graph e);
  mv_root : rooted_from (sw_graph e) i0 i1 o;
  mv_01 : i0 <> i1;
  mv_0x : i0 <> x;
  mv_1x : i1 <> x;
  mv_0 : i0 < n;
  mv_1 : i1 < n;
  mv_x : x < n;
  mv_free : ~ adj (sw_graph e) i0 x;
  mv_moved : moved (sw_graph e) i0 i1 x o (sw_graph e');
  mv_prob : sw_r_prob e' = sw_r_prob e;
  mv_draws : exists ds s, forall rest, sw_m_step p e (ds ++ rest) = Done (s, e', rest)
}.

Lemma draw_at n e i j : sw_inv n 2 (sw_graph e) -> rooted (sw_graph e) i j ->
  exists r, forall rs, sw_draw_edge e (r :: rs) = Done (i, j, rs).
Proof.
  intros O R. pose proof O as (W & V & _).
  assert (Hi : i < n) by (rewrite <- V; destruct (adj_lt W (rooted_adj R)); auto).
  pose proof (roots_length O Hi) as L. rewrite <- (map_length se_to) in L.
  apply rooted_filter in R. destruct (In_nth_error _ _ R) as [k Hk].
  assert (Kl : k < 2) by (rewrite <- L; eapply nth_error_lt; eauto).
  exists (i * 2 + k). intros rs. destruct (@draw_edge_spec T n e (i * 2 + k) rs O ltac:(lia)) as (j' & E & _ & F).
  rewrite (Nat.mod_small (i * 2 + k)) in * by lia.
  rewrite Nat.div_add_l, (Nat.div_small k), Nat.add_0_r in * by lia.
  replace ((i * 2 + k) mod 2) with k in F; [rewrite E; congruence|].
  rewrite Nat.add_comm, Nat.mod_add, Nat.mod_small by lia. auto.
Qed.

Lemma mv_exists p n e i0 i1 x o : sw_inv n 2 (sw_graph e) -> (0 <= sw_r_prob e)%Q -> rooted_from (sw_graph e) i0 i1 o ->
  i0 <> x -> x < n -> ~ adj (sw_graph e) i0 x -> exists e', mv p n e i0 i1 x o e'.
Proof.
  intros I Q R N Hx A. pose proof I as (W & V & _ & _ & P). destruct (root_end W P R) as (N1 & H0 & H1 & _). rewrite V in *.
  assert (R' : rooted (sw_graph e) i0 i1) by (exists o; auto).
  assert (N3 : i1 <> x) by (intros ->; apply A, rooted_adj; auto).
  destruct (rewire_ok p I R N3 N Hx A) as (g' & E & M).
  exists (sw_set e g'). constructor; auto.
  destruct (draw_at I R') as [r Er]. exists [r; 0; if x <? i0 then x else x - 1], (Sw_Rewire i0 i1 x). intros rest.
  cbn [app]. unfold sw_m_step. rewrite Er. cbn [bind]. unfold sw_randomize_edge, gen_f64. cbn [draw bind].
  assert (Q0 : Qle_bool (unit_float 0) (sw_r_prob e) = true).
  { apply Qle_bool_iff. eapply Qle_trans; [|exact Q]. unfold unit_float. cbn. discriminate. }
  rewrite Q0, V. unfold usub. destruct (Nat.leb_spec 1 n) as [L|L]; [|lia]. cbn [bind].
  rewrite draw_remaining_cons by lia. cbn [bind].
  assert (S0 : skip i0 ((if x <? i0 then x else x - 1) mod (n - 1)) = x).
  { rewrite Nat.mod_small by (destruct (Nat.ltb_spec x i0); lia). unfold skip.
    destruct (Nat.ltb_spec x i0); [destruct (Nat.ltb_spec x i0)|destruct (Nat.ltb_spec (x - 1) i0)]; lia. }
  unfold skip in S0. rewrite S0, E. reflexivity.
Qed.

Section Mv.
Variable (p : profile) (n : nat) (e e' : sw_ensemble T) (i0 i1 x o : nat).
Hypothesis M : mv p n e i0 i1 x o e'.

Lemma mv_after : sw_inv n 2 (sw_graph e') /\ payloads (sw_graph e') = payloads (sw_graph e).
Proof.
  destruct M as [I R N1 N2 N3 H0 H1 Hx A Mo Q _]. split; [apply (moved_inv I N1 N2 N3 H0 H1 Hx A Mo)|]. apply Mo.
Qed.

Lemma mv_others a b l : a <> i0 -> rooted_from (sw_graph e') a b l <-> rooted_from (sw_graph e) a b l.
Proof.
  intros Na. destruct M as [I R N1 N2 N3 H0 H1 Hx A Mo Q _]. unfold rooted_from. rewrite (moved_In (proj1 I) N1 N2 N3 Mo).
  split; [|intros H; left; splits; auto; intros [? ?]; congruence].
  intros [(H & _)|[[? _]|[_ ?]]]; auto; congruence.
Qed.

Lemma mv_gone : ~ adj (sw_graph e') i0 i1.
Proof.
  destruct M as [I R N1 N2 N3 H0 H1 Hx A Mo Q _]. intros Y. apply adj_entries in Y as (y & Hy & Ey).
  apply (moved_In (proj1 I) N1 N2 N3 Mo) in Hy as [(Hy & Hy1 & _)|[[_ ->]|[? _]]]; cbn in Ey; try congruence.
  apply Hy1. split; auto. apply (entry_unique (proj1 I) Hy R). auto.
Qed.

Lemma mv_origin : at_origin n (sw_graph e') + b2n (i1 =? o) = at_origin n (sw_graph e) + b2n (x =? o).
Proof.
  destruct mv_after as [I' _]. destruct M as [I R N1 N2 N3 H0 H1 Hx A Mo Q _].
  pose proof (place_moved I I' N1 N2 N3 R Mo) as PM. pose proof (proj2 (place_iff _ _ _ I) R) as Pg.
  assert (Ph : place (sw_graph e') i0 o = Some x) by (rewrite PM, !Nat.eqb_refl; auto).
  assert (D : displaced n (sw_graph e) (sw_graph e') = [(i0, o)]).
  { apply filter_single.
    - apply ring_edges_NoDup. pose proof (inv_size I). lia.
    - apply (rooted_edge I R).
    - cbn [fst snd]. rewrite Pg, Ph. cbn. apply negb_true_iff, Nat.eqb_neq. auto.
    - intros [a b] _ E. cbn [fst snd] in E. rewrite PM in E.
      destruct (Nat.eqb_spec a i0), (Nat.eqb_spec b o); cbn [andb] in E; try congruence;
        rewrite (proj2 (same_place_eq (place (sw_graph e) a b) _) eq_refl) in E; discriminate. }
  pose proof (@home_step T n _ _ i0 o ltac:(pose proof (inv_size I); lia) D) as H. rewrite Pg, Ph in H. cbn [same_place] in H. lia.
Qed.
End Mv.

(** ** Sequences of moves *)

Inductive reach (p : profile) (n : nat) : sw_ensemble T -> sw_ensemble T -> Prop :=
| reach_nil e : reach p n e e
| reach_mv e i0 i1 x o e1 e2 : mv p n e i0 i1 x o e1 -> reach p n e1 e2 -> reach p n e e2.

Lemma reach_trans p n e e1 e2 : reach p n e e1 -> reach p n e1 e2 -> reach p n e e2.
Proof. induction 1 as [|e i0 i1 x o f1 f2 M _ IH]; auto. intros H. eapply reach_mv; eauto. Qed.

Lemma reach_after p n e e' : reach p n e e' -> sw_inv n 2 (sw_graph e) ->
  sw_inv n 2 (sw_graph e') /\ payloads (sw_graph e') = payloads (sw_graph e) /\ sw_r_prob e' = sw_r_prob e.
Proof.
  induction 1 as [|e i0 i1 x o f1 f2 M _ IH]; intros I; auto. destruct (mv_after M) as [I1 P1].
  destruct (IH I1) as (I2 & P2 & Q2). splits; auto; [congruence|]. rewrite Q2. apply (mv_prob M).
Qed.

Lemma reach_steps p n e e' : reach p n e e' -> exists k ds l, forall rest, m_steps (sw_m_step p) k e (ds ++ rest) = Done (l, e', rest).
Proof.
  induction 1 as [e|e i0 i1 x o f1 f2 M _ (k & ds & l & IH)].
  - exists 0, [], []. auto.
  - destruct (mv_draws M) as (d0 & s & E). exists (S k), (d0 ++ ds), (s :: l). intros rest.
    cbn [m_steps]. rewrite <- app_assoc, E. cbn [bind]. rewrite IH. reflexivity.
Qed.

(** Moves can be taken back. *)
Lemma mv_back p n e i0 i1 x o e' f : (0 <= sw_r_prob e)%Q -> mv p n e i0 i1 x o e' -> sw_inv n 2 (sw_graph f) -> sw_like e' f ->
  exists f', mv p n f i0 x i1 o f' /\ sw_like e f'.
Proof.
  intros Q M If [Af Qf]. destruct (mv_after M) as [I' _]. pose proof (mv_gone M) as G.
  destruct M as [I R N1 N2 N3 H0 H1 Hx A Mo Qe _].
  assert (Rf : rooted_from (sw_graph f) i0 x o).
  { unfold rooted_from. destruct Af as (_ & _ & _ & Pf). rewrite <- Pf. apply (moved_In (proj1 I) N1 N2 N3 Mo). auto. }
  destruct (@mv_exists p n f i0 x i1 o If) as [f' Mf]; auto.
  - rewrite Qf, Qe. auto.
  - rewrite <- (alike_adj i0 i1 Af). auto.
  - exists f'. split; auto. split.
    + apply (moved_back N1 N2 N3 Mo Af (mv_moved Mf)).
    + rewrite (mv_prob Mf). congruence.
Qed.

Lemma reach_back p n e e' : reach p n e e' -> (0 <= sw_r_prob e)%Q -> forall f, sw_inv n 2 (sw_graph f) -> sw_like e' f ->
  exists f', reach p n f f' /\ sw_like e f'.
Proof.
  induction 1 as [e|e i0 i1 x o f1 f2 M _ IH]; intros Q f If Lf.
  - exists f. split; auto. constructor.
  - rewrite <- (mv_prob M) in Q. destruct (IH Q f If Lf) as (f' & Rf & Lf').
    rewrite (mv_prob M) in Q. destruct (reach_after Rf If) as (If' & _ & _).
    destruct (mv_back Q M If' Lf') as (f'' & Mf & Lf''). exists f''. split; auto.
    eapply reach_trans; [exact Rf|]. eapply reach_mv; [exact Mf|constructor].
Qed.

(** ** Bringing the edges home *)

(** There is a vertex that is not a neighbour. *)
Definition spare n g (v : nat) : bool := existsb (fun w => negb (w =? v) && negb (adjb g v w)) (seq 0 n).
(** [u] has an edge to [v] that is not at its first target. *)
Definition astray g (v u : nat) : bool :=
  existsb (fun x => match se_orig x with Some o => (se_to x =? v) && negb (o =? v) | None => false end) (entries g u).

Lemma astray_iff g v u : astray g v u = true <-> exists l, rooted_from g u v l /\ l <> v.
Proof.
  unfold astray. rewrite existsb_exists. split.
  - intros ([t [o|]] & H & Q); cbn in Q; [|discriminate]. apply andb_prop in Q as [Q1 Q2].
    apply Nat.eqb_eq in Q1. apply negb_true_iff, Nat.eqb_neq in Q2. subst t. exists o. auto.
  - intros (l & H & N). exists (mk_se v (Some l)). split; auto. cbn. rewrite Nat.eqb_refl. cbn.
    apply negb_true_iff, Nat.eqb_neq. auto.
Qed.

Lemma spare_iff n g v : spare n g v = true <-> exists w, w < n /\ w <> v /\ ~ adj g v w.
Proof.
  unfold spare. rewrite existsb_exists. split.
  - intros (w & Hw & Q). apply in_seq in Hw. apply andb_prop in Q as [Q1 Q2]. apply negb_true_iff in Q1, Q2.
    exists w. splits; [lia|apply Nat.eqb_neq; auto|]. rewrite <- adjb_adj. congruence.
  - intros (w & Hw & N & A). exists w. split; [apply in_seq; lia|]. rewrite <- adjb_adj in A. apply not_true_is_false in A.
    rewrite A. apply Nat.eqb_neq in N. rewrite N. auto.
Qed.

Lemma every_layer n g : sw_inv n 2 g -> 6 <= n -> exists k, forall v, v < n -> layer n (spare n g) (astray g) k v = true.
Proof.
  intros I Hn. destruct (@layer_stable n (spare n g) (astray g)) as [k Hk]. exists k. intros v Hv.
  destruct (layer n (spare n g) (astray g) k v) eqn:E; auto. exfalso.
  apply (@no_closed n g (fun x => negb (layer n (spare n g) (astray g) k x)) v); auto; [rewrite E; auto|].
  intros a Ha Fa. apply negb_true_iff in Fa. split.
  - intros w Hw Nw. destruct (adj_dec g a w) as [|A]; auto. exfalso.
    assert (S : spare n g a = true) by (apply spare_iff; eauto).
    assert (Z : forall j, layer n (spare n g) (astray g) j a = true) by (induction j as [|j IHj]; cbn [layer]; [auto|rewrite IHj; auto]).
    rewrite Z in Fa. discriminate.
  - intros w l R Nl. apply negb_true_iff. destruct (layer n (spare n g) (astray g) k w) eqn:Lw; auto. exfalso.
    assert (X : layer n (spare n g) (astray g) (S k) a = true).
    { cbn [layer]. apply orb_true_iff. right. apply existsb_exists. exists w. split.
      - pose proof I as (W & V & _ & _ & P). destruct (root_end W P R) as (_ & H0 & _). apply in_seq. lia.
      - rewrite Lw. cbn. apply astray_iff. eauto. }
    rewrite Hk in X by auto. congruence.
Qed.

(** An edge that is astray can be moved away, without moving an edge that is at home. *)
Lemma vacate p n e : sw_inv n 2 (sw_graph e) -> (0 <= sw_r_prob e)%Q ->
  forall k v t l, v < n -> layer n (spare n (sw_graph e)) (astray (sw_graph e)) k v = true ->
  rooted_from (sw_graph e) v t l -> l <> t ->
  exists e', reach p n e e' /\ at_origin n (sw_graph e) <= at_origin n (sw_graph e') /\ ~ adj (sw_graph e') v t /\
    forall a, layer n (spare n (sw_graph e)) (astray (sw_graph e)) k a = false ->
      forall b m, rooted_from (sw_graph e) a b m <-> rooted_from (sw_graph e') a b m.
Proof.
  intros I Q. induction k as [|k IH]; intros v t l Hv L R N.
  - cbn [layer] in L. apply spare_iff in L as (w & Hw & Nw & A).
    destruct (@mv_exists p n e v t w l I Q R (not_eq_sym Nw) Hw A) as [e' M]. exists e'. splits.
    + eapply reach_mv; [exact M|constructor].
    + pose proof (mv_origin M) as O. destruct (Nat.eqb_spec t l); [congruence|]. cbn [b2n] in O. lia.
    + apply (mv_gone M).
    + intros a La b m. symmetry. apply (mv_others M). intros ->. cbn [layer] in La.
      rewrite (proj2 (spare_iff _ _ _)) in La; [discriminate|]. eauto.
  - destruct (layer n (spare n (sw_graph e)) (astray (sw_graph e)) k v) eqn:Lk.
    + destruct (IH v t l Hv Lk R N) as (e' & R1 & O1 & A1 & K1). exists e'. splits; auto.
      intros a La. apply K1. cbn [layer] in La. apply orb_false_elim in La. tauto.
    + cbn [layer] in L. rewrite Lk in L. cbn [orb] in L. apply existsb_exists in L as (u & Hu & L).
      apply in_seq in Hu. apply andb_prop in L as [Lu La]. apply astray_iff in La as (l' & Ru & Nl).
      destruct (IH u v l' ltac:(lia) Lu Ru Nl) as (e1 & R1 & O1 & A1 & K1).
      destruct (reach_after R1 I) as (I1 & P1 & Q1).
      assert (Rv : rooted_from (sw_graph e1) v t l) by (apply K1; auto).
      assert (Nu : v <> u) by congruence.
      assert (Av : ~ adj (sw_graph e1) v u) by (intros X; apply A1, (sg_sym (proj1 I1)); auto).
      destruct (@mv_exists p n e1 v t u l I1 ltac:(rewrite Q1; auto) Rv Nu ltac:(lia) Av) as [e2 M]. exists e2. splits.
      * eapply reach_trans; [exact R1|]. eapply reach_mv; [exact M|constructor].
      * pose proof (mv_origin M) as O. destruct (Nat.eqb_spec t l); [congruence|]. cbn [b2n] in O. lia.
      * apply (mv_gone M).
      * intros a Ha b m. cbn [layer] in Ha. apply orb_false_elim in Ha as [Ha Ha']. rewrite (K1 a Ha). symmetry.
        apply (mv_others M). intros ->. assert (X : existsb (fun u => layer n (spare n (sw_graph e)) (astray (sw_graph e)) k u && astray (sw_graph e) v u) (seq 0 n) = true).
        { apply existsb_exists. exists u. split; [apply in_seq; lia|]. rewrite Lu. cbn. apply astray_iff. eauto. }
        congruence.
Qed.

Lemma ring_not_back n i o : 5 <= n -> i < n -> In o (ring_targets n 2 i) -> ~ In i (ring_targets n 2 o).
Proof.
  intros Hn Hi Ho Hb. rewrite ring_targets_two in *.
  assert (K : forall a k, k < n -> a < n -> (a + k) mod n = if a + k <? n then a + k else a + k - n).
  { intros a k Hk Ha. destruct (Nat.ltb_spec (a + k) n); [apply Nat.mod_small; auto|].
    replace (a + k) with (a + k - n + 1 * n) at 1 by lia. rewrite Nat.mod_add, Nat.mod_small; lia. }
  assert (Ln : o < n) by (destruct Ho as [<-|[<-|[]]]; apply Nat.mod_upper_bound; lia).
  simpl in Ho, Hb. rewrite !K in Ho, Hb by lia.
  destruct (Nat.ltb_spec (i + 1) n), (Nat.ltb_spec (i + 2) n), (Nat.ltb_spec (o + 1) n), (Nat.ltb_spec (o + 2) n); lia.
Qed.

Lemma progress p n e i t o : sw_inv n 2 (sw_graph e) -> (0 <= sw_r_prob e)%Q -> 6 <= n ->
  rooted_from (sw_graph e) i t o -> t <> o ->
  exists e', reach p n e e' /\ at_origin n (sw_graph e) < at_origin n (sw_graph e').
Proof.
  intros I Q Hn R N. pose proof I as (W & V & _ & _ & P). pose proof (rooted_edge I R) as Re.
  apply ring_edges_In in Re as [Hi Ho]. destruct (rooted_from_range I R) as [Lo No].
  assert (F : exists e1, reach p n e e1 /\ at_origin n (sw_graph e) <= at_origin n (sw_graph e1) /\ ~ adj (sw_graph e1) i o).
  { destruct (every_layer I Hn) as [k Hk].
    destruct (adj_dec (sw_graph e) i o) as [A|A]; [|exists e; splits; auto; constructor].
    apply adj_entries in A as ([y [l|]] & A & Ey); cbn in Ey; subst y.
    - destruct (@vacate p n e I Q k i o l Hi (Hk i Hi) A) as (e1 & R1 & O1 & A1 & _); [|eauto].
      intros ->. apply (place_iff _ _ _ I) in A, R. congruence.
    - apply P in A as [l A]. destruct (@vacate p n e I Q k o i l Lo (Hk o Lo) A) as (e1 & R1 & O1 & A1 & _).
      + intros ->. apply (rooted_edge I) in A. apply ring_edges_In in A as [_ A]. apply (@ring_not_back n i o); auto. lia.
      + exists e1. splits; auto. destruct (reach_after R1 I) as (I1 & _). intros X. apply A1, (sg_sym (proj1 I1)). auto. }
  destruct F as (e1 & R1 & O1 & A1). destruct (reach_after R1 I) as (I1 & _ & Q1).
  destruct (@place_some T n (sw_graph e1) i o I1) as [t1 Rt].
  { apply ring_edges_In; auto. }
  destruct (@mv_exists p n e1 i t1 o o I1 ltac:(rewrite Q1; auto) Rt (not_eq_sym No) Lo A1) as [e2 M].
  exists e2. split.
  - eapply reach_trans; [exact R1|]. eapply reach_mv; [exact M|constructor].
  - pose proof (mv_origin M) as O. rewrite Nat.eqb_refl in O. pose proof (mv_1x M). destruct (Nat.eqb_spec t1 o); [congruence|].
    cbn [b2n] in O. lia.
Qed.

Lemma reach_home p n : 6 <= n -> forall m e, sw_inv n 2 (sw_graph e) -> (0 <= sw_r_prob e)%Q ->
  length (ring_edges n) - at_origin n (sw_graph e) <= m ->
  exists e', reach p n e e' /\ forall i o, In (i, o) (ring_edges n) -> place (sw_graph e') i o = Some o.
Proof.
  intros Hn. assert (B : forall g, at_origin n g <= length (ring_edges n)).
  { intros g. unfold at_origin. rewrite <- (count_not (fun io : nat * nat => same_place (place g (fst io) (snd io)) (Some (snd io))) (ring_edges n)). apply Nat.le_add_r. }
  induction m as [|m IH]; intros e I Q L;
    (destruct (forallb (fun io : nat * nat => same_place (place (sw_graph e) (fst io) (snd io)) (Some (snd io))) (ring_edges n)) eqn:F;
     [exists e; split; [constructor|]; intros i o H; rewrite forallb_forall in F; specialize (F _ H); apply same_place_eq in F; exact F|]).
  - exfalso. unfold at_origin in L.
    pose proof (count_not (fun io : nat * nat => same_place (place (sw_graph e) (fst io) (snd io)) (Some (snd io))) (ring_edges n)) as C.
    assert (Z : count (fun io : nat * nat => negb (same_place (place (sw_graph e) (fst io) (snd io)) (Some (snd io)))) (ring_edges n) = 0) by lia.
    unfold count in Z. apply not_true_iff_false in F. apply F. apply forallb_forall. intros x Hx.
    destruct (same_place _ _) eqn:S; auto. apply length_zero_iff_nil in Z.
    assert (Y : In x (filter (fun io : nat * nat => negb (same_place (place (sw_graph e) (fst io) (snd io)) (Some (snd io)))) (ring_edges n)))
      by (apply filter_In; split; auto; rewrite S; auto).
    rewrite Z in Y. destruct Y.
  - assert (D : exists i t o, rooted_from (sw_graph e) i t o /\ t <> o).
    { apply not_true_iff_false in F.
      destruct (existsb (fun io : nat * nat => negb (same_place (place (sw_graph e) (fst io) (snd io)) (Some (snd io)))) (ring_edges n)) eqn:X.
      - apply existsb_exists in X as ([i o] & H & S). cbn [fst snd] in S. apply negb_true_iff in S.
        destruct (place_some I H) as [t Rt]. exists i, t, o. split; auto. intros ->. apply (place_iff _ _ _ I) in Rt.
        rewrite Rt in S. cbn in S. rewrite Nat.eqb_refl in S. discriminate.
      - destruct F. apply forallb_forall. intros x Hx. destruct (same_place _ _) eqn:S; auto.
        assert (Y : existsb (fun io : nat * nat => negb (same_place (place (sw_graph e) (fst io) (snd io)) (Some (snd io)))) (ring_edges n) = true)
          by (apply existsb_exists; exists x; split; auto; rewrite S; auto).
        congruence. }
    destruct D as (i & t & o & R & N). destruct (@progress p n e i t o I Q Hn R N) as (e1 & R1 & O1).
    destruct (reach_after R1 I) as (I1 & _ & Q1).
    destruct (IH e1 I1) as (e2 & R2 & H2); [rewrite Q1; auto|pose proof (B (sw_graph e1)); lia|].
    exists e2. split; auto. eapply reach_trans; eauto.
Qed.

Lemma reach_any p n e h : 6 <= n -> sw_inv n 2 (sw_graph e) -> sw_inv n 2 h -> payloads h = payloads (sw_graph e) ->
  (0 <= sw_r_prob e)%Q -> exists e', reach p n e e' /\ sw_alike h (sw_graph e').
Proof.
  intros Hn I I' P Q. set (f := mk_swe h (sw_r_prob e)).
  destruct (@reach_home p n Hn _ e I Q (le_n _)) as (e1 & R1 & H1).
  destruct (@reach_home p n Hn _ f I' Q (le_n _)) as (f1 & R2 & H2).
  destruct (reach_after R1 I) as (I1 & P1 & Q1). destruct (@reach_after p n f f1 R2 I') as (I2 & P2 & Q2).
  assert (A : sw_like f1 e1).
  { split; [|cbn in Q2; congruence]. apply (@places_alike T n); auto; [cbn in P2; congruence|]. intros i o.
    destruct (in_dec pair_dec (i, o) (ring_edges n)) as [J|J]; [|eapply place_outside; eauto].
    rewrite (H1 i o J), (H2 i o J). auto. }
  destruct (reach_back R2 Q I1 A) as (e2 & R3 & [A3 _]). exists e2. split; auto. eapply reach_trans; eauto.
Qed.


(** ** Five vertices *)

Lemma five_complete g i j : sw_inv 5 2 g -> i < 5 -> j < 5 -> i <> j -> adj g i j.
Proof.
  intros (W & V & E & _ & _) Hi Hj N.
  assert (B : forall i, length (nbrs g i) <= 4 /\ (4 <= length (nbrs g i) -> i < 5 -> incl (seq 0 5) (i :: nbrs g i))).
  { intros a. assert (D : NoDup (a :: nbrs g a)) by (constructor; [apply (sg_irrefl W)|apply W]).
    assert (K : forall x, In x (nbrs g a) -> x < 5 /\ a < 5).
    { intros x Hx. pose proof (sg_range W _ _ Hx). pose proof (sg_range W _ _ (sg_sym W _ _ Hx)). lia. }
    assert (In5 : a < 5 -> incl (a :: nbrs g a) (seq 0 5)).
    { intros Ha x [<-|Hx]; apply in_seq; [lia|]. apply K in Hx. lia. }
    split.
    - destruct (nbrs g a) as [|x l] eqn:El; [cbn; lia|]. assert (Ha : a < 5) by (apply (K x); simpl; auto).
      pose proof (NoDup_incl_length D (In5 Ha)) as L. cbn [length seq] in *. lia.
    - intros L Ha. apply NoDup_length_incl; auto. cbn [length seq]. lia. }
  pose proof (simple_degsum W) as D. unfold degsum in D. rewrite V, E in D. cbn [seq] in D.
  assert (L : 4 <= length (nbrs g i)).
  { pose proof (proj1 (B 0)). pose proof (proj1 (B 1)). pose proof (proj1 (B 2)). pose proof (proj1 (B 3)). pose proof (proj1 (B 4)).
    unfold sum_over in D. cbn [map list_sum fold_right] in D.
    destruct i as [|[|[|[|[|i]]]]]; lia. }
  destruct (proj2 (B i) L Hi j) as [X|X]; [apply in_seq; lia|congruence|exact X].
Qed.

Lemma five_changed g i0 i1 s g' : sw_inv 5 2 g -> changed 5 g i0 i1 s g' -> g' = g.
Proof.
  intros I [[_ ->]|(i2 & o & _ & _ & N & _ & H0 & _ & H2 & A & _)]; auto. destruct A. apply five_complete; auto.
Qed.

Lemma five_edge p e i0 i1 rs s e' rs' : sw_inv 5 2 (sw_graph e) -> rooted (sw_graph e) i0 i1 ->
  sw_randomize_edge p e i0 i1 rs = Done (s, e', rs') -> e' = e.
Proof.
  intros I R E. pose proof (@randomize_edge_spec _ p 5 2 e i0 i1 rs I R) as S. rewrite E in S. destruct S as (S & Q & _).
  apply five_changed in S; auto. destruct e, e'; cbn in *. congruence.
Qed.

Lemma five_step p e rs s e' rs' : sw_inv 5 2 (sw_graph e) -> sw_m_step p e rs = Done (s, e', rs') -> e' = e.
Proof.
  intros I E. pose proof (@m_step_spec _ p 5 e rs I ltac:(lia)) as S. rewrite E in S. destruct S as (i0 & i1 & _ & S & Q).
  apply five_changed in S; auto. destruct e, e'; cbn in *. congruence.
Qed.

Lemma five_randomize p e rs e' rs' : sw_inv 5 2 (sw_graph e) -> sw_randomize p e rs = Done (e', rs') -> e' = e.
Proof.
  intros I. unfold sw_randomize. generalize (seq 0 (vertex_count (sw_graph e))). intros l. revert rs.
  induction l as [|i l IH]; intros rs E; cbn [foldM] in E; [congruence|].
  apply bind_done in E as ([e1 rs1] & E1 & E). assert (X : e1 = e); [|subst e1; eauto].
  unfold sw_randomize_vertex in E1. apply bind_done in E1 as (c & Ec & E1). cbv zeta in E1.
  apply bind_done in E1 as (a & Ea & E1). apply bind_done in E1 as (b & Eb & E1). apply bind_done in E1 as (_u & _ & E1).
  apply bind_done in E1 as ([[s1 e2] rs2] & E2 & E1). apply bind_done in E1 as (_v & _ & E1).
  apply bind_done in E1 as ([[s3 e3] rs3] & E3 & E1). apply bind_done in E1 as (_w & _ & E1). injection E1 as <- <-.
  assert (K : forall k x, expect (nth_error (map se_to (filter se_is_root (sc_adj c))) k) = Done x -> rooted (sw_graph e) i x).
  { intros k x H. apply rooted_filter. unfold vget in Ec.
    destruct (nth_error (vertices (sw_graph e)) i) as [c'|] eqn:Ev; [|discriminate]. injection Ec as ->.
    destruct (@container_entries _ (sw_graph e) i (proj1 I)) as (c' & Ec' & _ & Ac).
    { rewrite <- (sg_len (proj1 I)). apply nth_error_Some. congruence. }
    rewrite Ev in Ec'. injection Ec' as <-. rewrite <- Ac.
    destruct (nth_error _ k) as [y|] eqn:Y; [|discriminate]. injection H as ->. eapply nth_error_In; eauto. }
  apply five_edge in E2; eauto. subst e2. apply five_edge in E3; eauto.
Qed.

End Reach.
