(** Facts about the Barabasi-Albert ensemble. *)
From Verif Require Import Base BaseFacts Containers ContainerSpec ContainerFacts Graph GraphSpec
  Sums GraphFacts GraphOps GraphBuild Rng RngFacts Runs EnsembleFacts ConfigFacts Ba BaSpec.
Set Implicit Arguments.
Unset Strict Implicit.
Local Open Scope nat_scope.

Local Notation cnt := (count_occ Nat.eq_dec).

(** *** Drawing by weight *)

Lemma list_sum_cons x l : list_sum (x :: l) = x + list_sum l.
Proof. reflexivity. Qed.

Lemma pick_lt ws : forall r, r < list_sum ws ->
  weighted_pick ws r < length ws /\ 0 < nth (weighted_pick ws r) ws 0.
Proof.
  induction ws as [|w ws IH]; intros r H; [cbn in H; lia|]. rewrite list_sum_cons in H.
  cbn [weighted_pick]. destruct (Nat.ltb_spec r w).
  - cbn. lia.
  - destruct (IH (r - w)) as [H1 H2]; [lia|]. cbn. split; [lia|auto].
Qed.

Lemma pick_reach ws : forall i, 0 < nth i ws 0 ->
  exists r, r < list_sum ws /\ weighted_pick ws r = i.
Proof.
  induction ws as [|w ws IH]; intros i H; [destruct i; cbn in H; lia|].
  rewrite list_sum_cons. destruct i as [|i]; cbn in H.
  - exists 0. cbn [weighted_pick]. destruct (Nat.ltb_spec 0 w); [|lia]. split; auto; lia.
  - destruct (IH i H) as (r & H1 & H2). exists (w + r). cbn [weighted_pick].
    destruct (Nat.ltb_spec (w + r) w); [lia|]. replace (w + r - w) with r by lia. split; [lia|congruence].
Qed.

(** The number of draws that lead to [i] is its weight. *)
Lemma pick_count ws : forall i,
  count (fun r => weighted_pick ws r =? i) (seq 0 (list_sum ws)) = nth i ws 0.
Proof.
  induction ws as [|w ws IH]; intros i; [destruct i; reflexivity|].
  rewrite list_sum_cons, seq_app, count_app. cbn [Nat.add].
  rewrite (count_shift (f := fun r => weighted_pick (w :: ws) r =? i)
    (g := fun r => Datatypes.S (weighted_pick ws r) =? i) (a := w) (b := 0) (len := list_sum ws)).
  2:{ intros t Ht. cbn [weighted_pick]. destruct (Nat.ltb_spec (w + t) w); [lia|].
      replace (w + t - w) with (0 + t) by lia. auto. }
  destruct i as [|i].
  - rewrite (count_all (l := seq 0 w)), seq_length.
    + rewrite count_none; [cbn; lia|]. intros; reflexivity.
    + intros r Hr. apply in_seq in Hr. cbn [weighted_pick]. destruct (Nat.ltb_spec r w); [auto|lia].
  - rewrite (count_none (l := seq 0 w)).
    + cbn [Nat.add nth]. apply IH.
    + intros r Hr. apply in_seq in Hr. cbn [weighted_pick]. destruct (Nat.ltb_spec r w); [auto|lia].
Qed.

Lemma list_sum_pos l i : 0 < nth i l 0 -> list_sum l <> 0.
Proof.
  revert i. induction l as [|x l IH]; intros [|i]; cbn [nth]; rewrite ?list_sum_cons; try lia.
  intros H. apply IH in H. lia.
Qed.

Lemma pick_new (l N : list nat) : NoDup l -> length N < length l -> exists k, In k l /\ ~ In k N.
Proof.
  intros ND Lt. destruct (existsb (fun k => negb (existsb (Nat.eqb k) N)) l) eqn:E.
  - apply existsb_exists in E as (k & I & H). exists k. split; auto. intros K.
    apply negb_true_iff, not_true_iff_false in H. apply H. apply existsb_exists. exists k.
    split; auto. apply Nat.eqb_refl.
  - exfalso. assert (Inc : incl l N).
    { intros k Hk. destruct (existsb (Nat.eqb k) N) eqn:Ek.
      - apply existsb_exists in Ek as (y & Iy & Ey). apply Nat.eqb_eq in Ey. congruence.
      - assert (X : existsb (fun k => negb (existsb (Nat.eqb k) N)) l = true).
        { apply existsb_exists. exists k. split; auto. rewrite Ek. auto. }
        congruence. }
    pose proof (NoDup_incl_length ND Inc). lia.
Qed.

Lemma add_ones (l : list nat) : forall us, (forall k, In k l -> k < length us) ->
  exists us', foldM (fun ws j => do w <- vget ws j; vset ws j (w + 1)) us l = Done us' /\
    length us' = length us /\ forall k, nth k us' 0 = nth k us 0 + cnt l k.
Proof.
  induction l as [|x l IH]; intros us H; cbn [foldM].
  - exists us. split; [auto|]. split; [auto|]. intros k. cbn. lia.
  - assert (Hx : x < length us) by (apply H; simpl; auto).
    destruct (vget_lt us Hx) as [w Ew]. unfold vget at 1. rewrite Ew. cbn [bind].
    unfold vset at 1. destruct (Nat.ltb_spec x (length us)); [|lia]. cbn [bind].
    destruct (IH (upd us x (w + 1))) as (us' & E & L & N).
    { intros k Hk. rewrite upd_length. apply H. simpl. auto. }
    exists us'. splits; auto; [rewrite L, upd_length; auto|]. intros k. rewrite N. cbn [count_occ].
    rewrite <- (nth_default_eq k (upd us x (w + 1)) 0), <- (nth_default_eq k us 0). unfold nth_default.
    rewrite nth_error_upd. destruct (Nat.eq_dec x k) as [<-|Nk].
    + rewrite Nat.eqb_refl. apply Nat.ltb_lt in Hx. rewrite Hx. cbn. rewrite Ew. lia.
    + destruct (Nat.eqb_spec x k); [congruence|]. cbn. lia.
Qed.

(** *** Attaching one vertex *)

Section Attach.
Context {T : Type}.
Local Notation G := (graph (node_container T)).
Implicit Types g : G.
Variables (p : profile) (m : nat) (g0 : G) (ws : list nat) (i n : nat).
Hypothesis W0 : simple_graph g0.
Hypothesis V0 : vertex_count g0 = n.
Hypothesis Hi : i < n.
Hypothesis Ni : nbrs g0 i = [].
Hypothesis Lw : length ws = n.
Hypothesis Hw : forall k, nth k ws 0 = length (nbrs g0 k).

(** While vertex [i] is attached. *)
Definition attaching g : Prop :=
  simple_graph g /\ vertex_count g = n /\ payloads g = payloads g0 /\
  length (nbrs g i) <= m /\ (forall k, In k (nbrs g i) -> 0 < nth k ws 0) /\
  (forall k, k <> i -> nbrs g k = nbrs g0 k ++ repeat i (cnt (nbrs g i) k)) /\
  edge_count g = edge_count g0 + length (nbrs g i).

Definition attached g : Prop := attaching g /\ length (nbrs g i) = m.

Lemma attaching_start : attaching g0.
Proof using All.
  unfold attaching. rewrite Ni. split; [auto|]. split; [auto|]. split; [auto|]. split; [cbn; lia|].
  split; [intros k []|]. split; [|cbn; lia]. intros k _. cbn. rewrite app_nil_r. auto.
Qed.

Lemma attach_add g k : attaching g -> length (nbrs g i) < m -> 0 < nth k ws 0 ->
  exists r g', add_edge p g i k = Done (r, g') /\ attaching g' /\
    (~ In k (nbrs g i) -> nbrs g' i = nbrs g i ++ [k]).
Proof using All.
  intros (W & V & P & Le & Po & Nb & Ec) Lt Hk.
  assert (Hkn : k < n).
  { rewrite <- Lw. destruct (Nat.lt_ge_cases k (length ws)); auto. rewrite nth_overflow in Hk; lia. }
  assert (Nk : i <> k) by (intros <-; rewrite Hw, Ni in Hk; cbn in Hk; lia).
  destruct (adj_dec g i k) as [A|A].
  - rewrite (add_edge_present p W A). eexists _, _. split; [reflexivity|]. split.
    + unfold attaching. splits; auto.
    + unfold adj in A. tauto.
  - destruct (@add_edge_absent _ _ _ _ p g i k W) as (g' & E & W' & V' & C' & P' & Nb'); auto; try congruence.
    rewrite E. eexists _, _. split; [reflexivity|].
    assert (Nbi : nbrs g' i = nbrs g i ++ [k]) by (rewrite Nb', Nat.eqb_refl; auto).
    split; auto. unfold attaching. rewrite Nbi. splits; auto; try congruence.
    + rewrite app_length. cbn. lia.
    + intros x Hx. apply in_app_iff in Hx as [Hx|[<-|[]]]; auto.
    + intros x Nx. rewrite Nb'. destruct (Nat.eqb_spec x i); [congruence|].
      rewrite count_occ_snoc. destruct (Nat.eqb_spec x k) as [->|Nxk].
      * rewrite Nb by auto. destruct (Nat.eq_dec k k); [|congruence].
        rewrite Nat.add_1_r. rewrite <- app_assoc. f_equal. rewrite <- repeat_cons. reflexivity.
      * rewrite Nb by auto. destruct (Nat.eq_dec k x); [congruence|]. rewrite Nat.add_0_r. auto.
    + rewrite app_length. cbn. lia.
Qed.

Lemma attach_container g : attaching g -> exists c, container g i = Done c /\ ac_degree c = length (nbrs g i) /\
  ac_neighbors c = nbrs g i.
Proof using All.
  intros (W & V & _). assert (Hg : i < vertex_count g) by lia.
  destruct (container_lt W Hg) as (c & E & _ & _ & N). exists c. unfold container, vget. rewrite E.
  splits; auto. rewrite law_degree. congruence.
Qed.

Lemma attach_runs live g : list_sum ws <> 0 -> attaching g ->
  runs live (fun r => match r with inl g' => attaching g' | inr g' => attached g' end)
    (ba_attach p m ws (list_sum ws) i g).
Proof using All.
  intros Sw At. destruct (attach_container At) as (c & E & Dc & _). unfold ba_attach. rewrite E. cbn [bind].
  rewrite Dc. destruct (Nat.ltb_spec (length (nbrs g i)) m) as [Lt|Ge].
  - apply (@runs_bind live _ _ (fun r => r < list_sum ws) _ (gen_range (list_sum ws))
      (fun r rs1 => do ' (_, g') <- add_edge p g i (weighted_pick ws r); Done (inl g', rs1))).
    + apply runs_gen_range. lia.
    + intros r Hr. destruct (pick_lt Hr) as [_ Hp].
      destruct (attach_add At Lt Hp) as (x & g' & -> & At' & _). cbn [bind]. apply runs_ret. auto.
  - apply runs_ret. split; auto. destruct At as (_ & _ & _ & Le & _). lia.
Qed.

Lemma attach_uses g rs g' rs' : attaching g -> ba_attach p m ws (list_sum ws) i g rs = Done (inl g', rs') ->
  length rs' < length rs.
Proof using All.
  intros At E. unfold ba_attach in E. apply bind_done in E as (c & _ & E).
  destruct (ac_degree c <? m); [|discriminate].
  apply bind_done in E as ([r rs1] & E1 & E). apply bind_done in E as ([x g1] & _ & E). injection E as <- <-.
  apply gen_range_done in E1 as (_ & ? & -> & _). cbn. lia.
Qed.

(** Enough vertices to attach to. *)
Definition enough : Prop := exists l, NoDup l /\ m <= length l /\ forall k, In k l -> 0 < nth k ws 0.

Lemma attach_finish : enough -> forall d g, m - length (nbrs g i) = d -> attaching g ->
  exists ds g', attached g' /\
    forall rest, loop (S (length (ds ++ rest))) (ba_attach p m ws (list_sum ws) i) g (ds ++ rest) = Done (g', rest).
Proof using All.
  intros (l & ND & Ll & Pl). induction d as [|d IH]; intros g Hd At.
  - exists [], g. assert (Eq : length (nbrs g i) = m) by (destruct At as (_ & _ & _ & Le & _); lia).
    split; [split; auto|]. intros rest. cbn [app loop]. unfold ba_attach.
    destruct (attach_container At) as (c & E & Dc & _). rewrite E. cbn [bind]. rewrite Dc, Eq.
    rewrite Nat.ltb_irrefl. reflexivity.
  - destruct (@pick_new l (nbrs g i) ND) as (k & Ik & Nk); [lia|].
    destruct (pick_reach (Pl k Ik)) as (r & Hr & Er).
    destruct (@attach_add g k At) as (x & g1 & E1 & At1 & Nb1); [lia|auto|].
    specialize (Nb1 Nk). destruct (IH g1) as (ds & g' & A' & L'); auto.
    { rewrite Nb1, app_length. cbn. lia. }
    exists (r :: ds), g'. split; auto. intros rest. cbn [app length loop].
    unfold ba_attach at 1. destruct (attach_container At) as (c & E & Dc & _). rewrite E. cbn [bind].
    rewrite Dc. destruct (Nat.ltb_spec (length (nbrs g i)) m); [|lia].
    rewrite gen_range_small by auto. cbn [bind]. rewrite Er, E1. cbn [bind].
    apply L'.
Qed.

Lemma attach_loop_runs : list_sum ws <> 0 ->
  runs enough attached (fun rs => loop (S (length rs)) (ba_attach p m ws (list_sum ws) i) g0 rs).
Proof using All.
  intros Sw. apply (runs_loop (I := attaching)).
  - intros g At. apply attach_runs; auto.
  - intros g rs g' rs1 At E. eapply attach_uses; eauto.
  - intros En g At. eapply attach_finish; eauto.
  - apply attaching_start.
Qed.

(** *** The weights afterwards *)

Lemma update_spec g : attached g ->
  exists ws', ba_update g ws i = Done ws' /\ length ws' = n /\ forall k, nth k ws' 0 = length (nbrs g k).
Proof using All.
  intros [At Em]. destruct (attach_container At) as (c & E & Dc & Nc). unfold ba_update. rewrite E. cbn [bind].
  rewrite Dc, Nc. unfold vset at 1. destruct (Nat.ltb_spec i (length ws)); [|lia]. cbn [bind].
  destruct At as (W & V & P & Le & Po & Nb & Ec).
  destruct (@add_ones (nbrs g i) (upd ws i (length (nbrs g i)))) as (ws' & E' & L' & N').
  { intros k Hk. rewrite upd_length. apply (sg_range W) in Hk. lia. }
  exists ws'. rewrite upd_length in L'. splits; auto; [lia|]. intros k. rewrite N'.
  rewrite <- (nth_default_eq k (upd ws i (length (nbrs g i))) 0). unfold nth_default. rewrite nth_error_upd.
  destruct (Nat.eqb_spec i k) as [<-|Nk].
  - destruct (Nat.ltb_spec i (length ws)); [|lia]. cbn [andb].
    rewrite (proj1 (count_occ_not_In Nat.eq_dec (nbrs g i) i)); [lia|]. apply (sg_irrefl W).
  - rewrite (Nb k) by congruence. rewrite app_length, repeat_length, <- Hw.
    destruct (Nat.eqb_spec k i); [congruence|]. cbn [andb].
    fold (nth_default 0 ws k). rewrite nth_default_eq. auto.
Qed.

End Attach.

(** *** Adding the vertices one after the other *)

Lemma earlier_spec s l y : earlier s l y = true <-> y < s \/ In y l.
Proof.
  unfold earlier. rewrite orb_true_iff, Nat.ltb_lt, existsb_exists. split.
  - intros [H|(x & I & E)]; auto. apply Nat.eqb_eq in E. subst. auto.
  - intros [H|H]; auto. right. exists y. split; auto. apply Nat.eqb_refl.
Qed.

Lemma earlier_false s l y : s <= y -> ~ In y l -> earlier s l y = false.
Proof. intros H N. apply not_true_iff_false. rewrite earlier_spec. intuition lia. Qed.

Section Grow.
Context {T : Type}.
Local Notation G := (graph (node_container T)).
Implicit Types g : G.
Variables (p : profile) (m n : nat) (src : G) (pay : list T) (order : list nat).
Hypothesis Ws : simple_graph src.
Hypothesis Hs : 0 < vertex_count src < n.
Hypothesis Ds : forall i, i < vertex_count src -> nbrs src i <> [].
Hypothesis Po : Permutation order (seq (vertex_count src) (n - vertex_count src)).
Let s := vertex_count src.

Definition growing (l1 : list nat) (st : G * list nat) (l2 : list nat) : Prop :=
  let '(g, ws) := st in
  simple_graph g /\ vertex_count g = n /\ payloads g = pay /\
  length ws = n /\ (forall k, nth k ws 0 = length (nbrs g k)) /\
  (forall k, In k l2 -> nbrs g k = []) /\
  (forall i j, i < s -> j < s -> (adj g i j <-> adj src i j)) /\
  (forall before x after, l1 = before ++ x :: after -> count (earlier s before) (nbrs g x) = m) /\
  edge_count g = edge_count src + m * length l1.

Lemma order_In x : In x order <-> s <= x < n.
Proof using Hs Po.
  split; intros H.
  - apply (Permutation_in _ Po), in_seq in H. unfold s. lia.
  - apply (Permutation_in _ (Permutation_sym Po)), in_seq. unfold s in *. lia.
Qed.

Lemma order_NoDup : NoDup order.
Proof using Po. apply (Permutation_NoDup (Permutation_sym Po)), seq_NoDup. Qed.

Lemma growing_source g ws l1 l2 i : growing l1 (g, ws) l2 -> i < s -> 0 < nth i ws 0.
Proof using Ds Ws Hs.
  intros (W & V & P & Lw & Hw & N2 & S0 & A1 & Ec) Hi. rewrite Hw.
  pose proof (Ds Hi) as D. destruct (nbrs src i) as [|y t] eqn:E; [congruence|].
  assert (A : adj src i y) by (unfold adj; rewrite E; simpl; auto).
  pose proof (proj2 (adj_lt Ws A)) as Hy. apply (S0 i y Hi) in A; auto. unfold adj in A.
  destruct (nbrs g i); [destruct A|]. cbn. lia.
Qed.

Lemma insert_runs l x l' st : order = l ++ x :: l' -> growing l st (x :: l') ->
  runs (m <= s) (fun st' => growing (l ++ [x]) st' l') (fun rs => ba_insert p m (st, rs) x).
Proof using Ws Hs Ds Po.
  intros Eo. destruct st as [g ws]. intros Gr. pose proof Gr as (W & V & P & Lw & Hw & N2 & S0 & A1 & Ec).
  assert (Hx : s <= x < n) by (apply order_In; rewrite Eo; apply in_app_iff; simpl; auto).
  pose proof order_NoDup as ND. rewrite Eo in ND. apply NoDup_remove in ND as [ND Nx].
  assert (Nx0 : nbrs g x = []) by (apply N2; simpl; auto).
  assert (Sw : list_sum ws <> 0).
  { apply (@list_sum_pos ws 0). apply (@growing_source g ws l (x :: l')); auto. unfold s; lia. }
  assert (H0 : x < n) by lia.
  unfold ba_insert, weighted_new. destruct (Nat.eqb_spec (list_sum ws) 0) as [|_]; [congruence|]. cbn [bind].
  apply (@runs_bind _ _ _ (attached m g ws x n) _
    (fun rs => loop (S (length rs)) (ba_attach p m ws (list_sum ws) x) g rs)
    (fun g' rs1 => do ws' <- ba_update g' ws x; Done ((g', ws'), rs1))).
  { eapply runs_live; [|apply (attach_loop_runs p m W V H0 Nx0 Lw Hw Sw)].
    intros Hm. exists (seq 0 s). rewrite seq_length. splits; auto; [apply seq_NoDup|].
    intros k Hk. apply in_seq in Hk. apply (@growing_source g ws l (x :: l')); auto. lia. }
  intros g' At. destruct (update_spec p W V H0 Nx0 Lw Hw At) as (ws' & -> & Lw' & Hw'). cbn [bind].
  apply runs_ret. destruct At as [(W' & V' & P' & _ & Pk & Nb & Ec') Em].
  assert (Old : forall k, In k (nbrs g' x) -> k < s \/ In k l).
  { intros k Hk. pose proof (Pk k Hk) as Hp. rewrite Hw in Hp. destruct (Nat.lt_ge_cases k s); auto. right.
    assert (Hkn : k < n) by (apply (sg_range W') in Hk; lia).
    assert (I : In k order) by (apply order_In; lia). rewrite Eo in I. apply in_app_iff in I as [I|I]; auto.
    rewrite (N2 k I) in Hp. cbn in Hp. lia. }
  unfold growing. split; [auto|]. split; [auto|]. split; [congruence|]. split; [auto|]. split; [auto|].
  split; [|split; [|split]].
  - intros k Hk. assert (k <> x) by (intros ->; apply Nx; apply in_app_iff; auto).
    rewrite (Nb k) by auto. rewrite (N2 k) by (simpl; auto). cbn [app].
    destruct (cnt (nbrs g' x) k) eqn:Eck; auto. exfalso.
    assert (I : In k (nbrs g' x)) by (apply (count_occ_In Nat.eq_dec); lia).
    destruct (Old k I) as [Hlt|Il].
    + assert (I2 : In k order) by (rewrite Eo; apply in_app_iff; simpl; auto). apply order_In in I2. lia.
    + apply NoDup_app_iff in ND as (_ & _ & D). apply (D k Il Hk).
  - intros i j Hi Hj. rewrite <- (S0 i j Hi Hj). unfold adj. rewrite (Nb i) by lia. rewrite in_app_iff.
    split; auto. intros [I|I]; auto. apply repeat_spec in I. lia.
  - intros before y after Ey. destruct (@exists_last _ (y :: after)) as (q & z & Eq); [discriminate|].
    rewrite Eq in Ey. rewrite app_assoc in Ey. apply app_inj_tail in Ey as [El ->].
    destruct q as [|y' q].
    + cbn in Eq. injection Eq as -> ->. rewrite app_nil_r in El. subst before.
      rewrite count_all; auto. intros k Hk. apply earlier_spec. auto.
    + cbn in Eq. injection Eq as <- ->. assert (Iy : In y l) by (rewrite El; apply in_app_iff; simpl; auto).
      rewrite (Nb y); [|intros ->; apply Nx; apply in_app_iff; auto].
      rewrite count_app, (A1 before y q El). rewrite count_none; [lia|].
      intros k Hk. apply repeat_spec in Hk. subst k. apply earlier_false; [lia|].
      intros I. apply Nx. apply in_app_iff. left. rewrite El. apply in_app_iff. auto.
  - rewrite Ec', Ec, Em, app_length. cbn. lia.
Qed.

Lemma grow_runs g ws : growing [] (g, ws) order ->
  runs (m <= s) (fun st => growing order st []) (fun rs => foldM (ba_insert p m) ((g, ws), rs) order).
Proof using Ws Hs Ds Po.
  intros Gr. apply (@runs_foldM_along (m <= s) _ _ growing (ba_insert p m) order [] (g, ws)); auto.
  intros l x l' st Eq. apply insert_runs. auto.
Qed.

(** Every state on the way is such a state. *)
Lemma grow_prefix g ws rs : growing [] (g, ws) order ->
  forall l1 l2 st rs', order = l1 ++ l2 -> foldM (ba_insert p m) ((g, ws), rs) l1 = Done (st, rs') ->
  growing l1 st l2.
Proof using Ws Hs Ds Po.
  intros Gr. induction l1 as [|x l1 IH] using rev_ind; intros l2 st rs' Eo E.
  - cbn in E, Eo. injection E as <- _. subst l2. auto.
  - rewrite foldM_app in E. apply bind_done in E as ([st1 rs1] & E1 & E). cbn [foldM] in E.
    rewrite <- app_assoc in Eo. apply bind_done in E as ([st2 rs2] & E2 & E). injection E as -> ->.
    pose proof (IH _ _ _ Eo E1) as G1. apply (runs_done (insert_runs Eo G1) E2).
Qed.

End Grow.

(** *** The whole procedure *)

Lemma foldM_ext {S X} (f f' : S -> X -> outcome S) l : (forall s x, f s x = f' s x) ->
  forall s, foldM f s l = foldM f' s l.
Proof.
  intros H. induction l as [|x l IH]; intros s; cbn; auto. rewrite H. destruct (f' s x); cbn; auto.
Qed.

Lemma set_range (f : nat -> outcome nat) v len : forall a us, a + len <= length us ->
  (forall i, a <= i < a + len -> f i = Done (v i)) ->
  exists us', foldM (fun ws i => do x <- f i; vset ws i x) us (seq a len) = Done us' /\
    length us' = length us /\ forall k, nth k us' 0 = if (a <=? k) && (k <? a + len) then v k else nth k us 0.
Proof.
  induction len as [|len IH]; intros a us H Hf; cbn [seq foldM].
  - exists us. split; [auto|]. split; [auto|]. intros k.
    destruct (Nat.leb_spec a k), (Nat.ltb_spec k (a + 0)); cbn; auto; lia.
  - rewrite Hf by lia. cbn [bind]. unfold vset at 1. destruct (Nat.ltb_spec a (length us)); [|lia]. cbn [bind].
    destruct (IH (S a) (upd us a (v a))) as (us' & E & L & N).
    + rewrite upd_length. lia.
    + intros i Hi. apply Hf. lia.
    + exists us'. split; [auto|]. rewrite upd_length in L. split; [auto|]. intros k. rewrite N.
      rewrite <- (nth_default_eq k (upd us a (v a)) 0), <- (nth_default_eq k us 0). unfold nth_default.
      rewrite nth_error_upd.
      destruct (Nat.eqb_spec a k) as [Eq|Ne], (Nat.leb_spec (S a) k), (Nat.leb_spec a k),
        (Nat.ltb_spec k (S a + len)), (Nat.ltb_spec k (a + S len)), (Nat.ltb_spec a (length us));
        try lia; cbn [andb]; auto; try congruence.
Qed.

(** What [randomize] needs. *)
Record ba_ready {T} (n m : nat) (e : ba T) : Prop := {
  br_source : simple_graph (ba_source e);
  br_nonempty : 0 < vertex_count (ba_source e) < n;
  br_degrees : forall i, i < vertex_count (ba_source e) -> nbrs (ba_source e) i <> [];
  br_m : ba_m e = m;
  br_simple : simple_graph (ba_graph e);
  br_count : vertex_count (ba_graph e) = n;
  br_weights : length (ba_weights e) = n
}.

Lemma ok_ready {T} n m (e : ba T) : ba_ok n m e -> ba_ready n m e.
Proof.
  intros O. constructor; try apply O. destruct (bo_grown O) as (o & Gr). apply Gr.
Qed.

Lemma randomize_runs {T} p n m (e : ba T) : ba_ready n m e ->
  runs (m <= vertex_count (ba_source e))
    (fun e' => ba_ok n m e' /\ ba_source e' = ba_source e /\ payloads (ba_graph e') = payloads (ba_graph e))
    (ba_randomize p e).
Proof.
  intros R. unfold ba_randomize. pose proof (br_nonempty R) as Hn.
  destruct (@reset_from_graph_spec T (ba_graph e) (ba_source e)) as (g & E & W & V & Ec & P & Nb);
    [apply R|apply R|rewrite (br_count R); lia|].
  rewrite E. cbn [bind]. rewrite V, (br_count R).
  set (s := vertex_count (ba_source e)) in *.
  apply (@runs_bind _ _ _ (fun o => Permutation (seq s (n - s)) o) _
    (fun rs => shuffle (seq s (n - s)) rs)
    (fun order rs1 =>
      do ws1 <- foldM (fun ws i => do c <- vget (vertices (ba_source e)) i; vset ws i (ac_degree c))
                  (ba_weights e) (seq 0 s);
      do ws2 <- foldM (fun ws i => vset ws i 0) ws1 (seq s (n - s));
      do ' (g', ws', rs2) <- foldM (ba_insert p (ba_m e)) ((g, ws2), rs1) order;
      Done (mk_ba (ba_source e) g' (ba_m e) ws', rs2))); [apply runs_shuffle|].
  intros order Po. apply Permutation_sym in Po.
  assert (src_out : forall k, s <= k -> nbrs (ba_source e) k = []).
  { intros k Hk. apply nbrs_out. rewrite (sg_len (br_source R)). auto. }
  destruct (@set_range (fun i => do c <- vget (vertices (ba_source e)) i; Done (ac_degree c))
    (fun i => length (nbrs (ba_source e) i)) s 0 (ba_weights e)) as (ws1 & E1 & L1 & N1).
  { rewrite (br_weights R). lia. }
  { intros i Hi. cbn in Hi. destruct (container_lt (br_source R) (i := i)) as (c & Ei & _ & _ & Nc); [fold s; lia|].
    unfold vget. rewrite Ei. cbn [bind]. rewrite law_degree. congruence. }
  replace (foldM (fun ws i => do c <- vget (vertices (ba_source e)) i; vset ws i (ac_degree c))
             (ba_weights e) (seq 0 s)) with (Done ws1 : outcome (list nat)).
  2:{ rewrite <- E1. apply foldM_ext. intros ws i. destruct (vget _ i); reflexivity. }
  cbn [bind].
  destruct (@set_range (fun _ => Done 0) (fun _ => 0) (n - s) s ws1) as (ws2 & E2 & L2 & N2).
  { rewrite L1, (br_weights R). lia. } { auto. }
  cbn [bind] in E2. rewrite E2. cbn [bind].
  rewrite (br_m R).
  apply runs_ext with (m := fun rs => do ' (st, rs2) <- foldM (ba_insert p m) ((g, ws2), rs) order;
    Done (mk_ba (ba_source e) (fst st) m (snd st), rs2)).
  { intros rs. destruct (foldM (ba_insert p m) ((g, ws2), rs) order) as [[[]]| | |]; reflexivity. }
  apply (@runs_bind _ _ _ (fun st => growing m n (ba_source e) (payloads g) order st []) _
    (fun rs => foldM (ba_insert p m) ((g, ws2), rs) order)
    (fun st rs2 => Done (mk_ba (ba_source e) (fst st) m (snd st), rs2))).
  - apply (@grow_runs T p m n (ba_source e) (payloads g) order); try apply R; auto.
    unfold growing. split; [auto|]. split; [rewrite V; apply R|]. split; [auto|].
    split; [rewrite L2, L1; apply R|]. split; [|split; [|split; [|split]]].
    + intros k. rewrite N2, N1, Nb. fold s. destruct (Nat.leb_spec s k), (Nat.ltb_spec k (s + (n - s))); cbn [andb];
        destruct (Nat.ltb_spec k (0 + s)); cbn [Nat.leb andb]; try lia.
      * rewrite src_out; auto.
      * rewrite src_out; auto. rewrite nth_overflow; auto. rewrite (br_weights R). lia.
    + intros k Hk. apply (Permutation_in _ Po), in_seq in Hk. rewrite Nb. apply src_out. apply Hk.
    + intros i j _ _. unfold adj. rewrite Nb. tauto.
    + intros [|? ?] x after K; discriminate.
    + rewrite Ec. cbn. lia.
  - intros [g' ws'] (W' & V' & P' & Lw & Hw & _ & S0 & A1 & Ec'). apply runs_ret. cbn [fst snd].
    split; [|cbn; split; congruence]. constructor; cbn; try apply R; auto.
    exists order. constructor; auto.
    + rewrite V'. auto.
    + rewrite Ec', V', (Permutation_length Po), seq_length. auto.
Qed.

(** The rounds of [randomize]. *)
Lemma randomize_rounds {T} p n m (e e' : ba T) rs rs' : ba_ready n m e ->
  ba_randomize p e rs = Done (e', rs') ->
  exists g ws order rs1, Permutation order (seq (vertex_count (ba_source e)) (n - vertex_count (ba_source e))) /\
    shuffle (seq (vertex_count (ba_source e)) (n - vertex_count (ba_source e))) rs = Done (order, rs1) /\
    growing m n (ba_source e) (payloads g) [] (g, ws) order /\
    (forall i, nbrs g i = nbrs (ba_source e) i) /\
    foldM (ba_insert p m) ((g, ws), rs1) order = Done ((ba_graph e', ba_weights e'), rs').
Proof.
  intros R E0. unfold ba_randomize in E0. pose proof (br_nonempty R) as Hn.
  destruct (@reset_from_graph_spec T (ba_graph e) (ba_source e)) as (g & E & W & V & Ec & P & Nb);
    [apply R|apply R|rewrite (br_count R); lia|].
  rewrite E in E0. cbn [bind] in E0. rewrite V, (br_count R) in E0.
  set (s := vertex_count (ba_source e)) in *.
  apply bind_done in E0 as ([order rs1] & Eo & E0). pose proof (Permutation_sym (shuffle_done Eo)) as Po.
  assert (src_out : forall k, s <= k -> nbrs (ba_source e) k = []).
  { intros k Hk. apply nbrs_out. rewrite (sg_len (br_source R)). auto. }
  destruct (@set_range (fun i => do c <- vget (vertices (ba_source e)) i; Done (ac_degree c))
    (fun i => length (nbrs (ba_source e) i)) s 0 (ba_weights e)) as (ws1 & E1 & L1 & N1).
  { rewrite (br_weights R). lia. }
  { intros i Hi. cbn in Hi. destruct (container_lt (br_source R) (i := i)) as (c & Ei & _ & _ & Nc); [fold s; lia|].
    unfold vget. rewrite Ei. cbn [bind]. rewrite law_degree. congruence. }
  replace (foldM (fun ws i => do c <- vget (vertices (ba_source e)) i; vset ws i (ac_degree c))
             (ba_weights e) (seq 0 s)) with (Done ws1 : outcome (list nat)) in E0.
  2:{ rewrite <- E1. apply foldM_ext. intros ws i. destruct (vget _ i); reflexivity. }
  cbn [bind] in E0.
  destruct (@set_range (fun _ => Done 0) (fun _ => 0) (n - s) s ws1) as (ws2 & E2 & L2 & N2).
  { rewrite L1, (br_weights R). lia. } { auto. }
  cbn [bind] in E2. rewrite E2 in E0. cbn [bind] in E0. rewrite (br_m R) in E0.
  apply bind_done in E0 as ([[g' ws'] rs2] & E3 & E0). injection E0 as <- <-.
  exists g, ws2, order, rs1. split; [auto|]. split; [auto|]. split; [|split; [auto|auto]].
  unfold growing. split; [auto|]. split; [rewrite V; apply R|]. split; [auto|].
  split; [rewrite L2, L1; apply R|]. split; [|split; [|split; [|split]]].
  - intros k. rewrite N2, N1, Nb. fold s. destruct (Nat.leb_spec s k), (Nat.ltb_spec k (s + (n - s))); cbn [andb];
      destruct (Nat.ltb_spec k (0 + s)); cbn [Nat.leb andb]; try lia.
    * rewrite src_out; auto.
    * rewrite src_out; auto. rewrite nth_overflow; auto. rewrite (br_weights R). lia.
  - intros k Hk. apply (Permutation_in _ Po), in_seq in Hk. rewrite Nb. apply src_out. apply Hk.
  - intros i j _ _. unfold adj. rewrite Nb. tauto.
  - intros [|? ?] x after K; discriminate.
  - rewrite Ec. cbn. lia.
Qed.

(** *** The constructors *)

Lemma copy_spec {T} (g src : graph (node_container T)) :
  simple_graph g -> simple_graph src -> vertex_count src <= vertex_count g ->
  exists g', ba_copy g src = Done g' /\ simple_graph g' /\ vertex_count g' = vertex_count g /\
    payloads g' = payloads src ++ skipn (vertex_count src) (payloads g).
Proof.
  intros W Ws H. pose proof (payloads_length W) as Lg. pose proof (payloads_length Ws) as Ls.
  destruct (@foldM_seq_inv _ (fun g i => do t <- at_ src i; at_mut_set g i t)
    (fun k g' => simple_graph g' /\ vertex_count g' = vertex_count g /\
       payloads g' = firstn k (payloads src) ++ skipn k (payloads g)) (vertex_count src) g)
    as (g' & E & W' & V' & P').
  - splits; auto.
  - intros k h Hk (Wh & Vh & Ph).
    destruct (nth_error (payloads src) k) as [t|] eqn:Et; [|apply nth_error_None in Et; lia].
    destruct (nth_error (payloads g) k) as [u|] eqn:Eu; [|apply nth_error_None in Eu; lia].
    rewrite (at_spec k Ws), Et. cbn [bind].
    destruct (@at_mut_set_spec _ _ _ _ h k t Wh) as (h' & E & W' & V' & _ & P' & _); [lia|].
    exists h'. splits; auto; [congruence|]. rewrite P', Ph. apply list_ext. intros j.
    rewrite nth_error_upd, app_length, firstn_length, skipn_length, Ls, Lg.
    assert (Nf : forall X (l : list X) a b, nth_error (firstn a l) b = if b <? a then nth_error l b else None).
    { clear. induction l as [|x l IH]; intros [|a] [|b]; auto.
      - cbn [firstn nth_error]. destruct (S b <? S a); auto.
      - cbn [firstn nth_error]. rewrite IH. auto. }
    assert (Ns : forall X (l : list X) a b, nth_error (skipn a l) b = nth_error l (a + b)).
    { clear. induction l as [|x l IH]; intros [|a] b; cbn [skipn]; auto; [destruct b; auto|apply IH]. }
    assert (Na : forall a, a <= vertex_count src ->
      nth_error (firstn a (payloads src) ++ skipn a (payloads g)) j =
      if j <? a then nth_error (payloads src) j else nth_error (payloads g) j).
    { intros a Ha. destruct (Nat.ltb_spec j a).
      - rewrite nth_error_app1 by (rewrite firstn_length; lia). rewrite Nf.
        destruct (Nat.ltb_spec j a); [auto|lia].
      - rewrite nth_error_app2 by (rewrite firstn_length; lia). rewrite Ns, firstn_length. f_equal. lia. }
    rewrite !Na by lia.
    destruct (Nat.eqb_spec k j), (Nat.ltb_spec j k), (Nat.ltb_spec j (S k)),
      (Nat.ltb_spec k (Nat.min k (vertex_count src) + (vertex_count g - k))); cbn [andb]; try lia; subst; auto.
  - exists g'. splits; auto. rewrite P'. f_equal. rewrite <- Ls. apply firstn_all.
Qed.

Lemma complete_done {T} p (mk : nat -> T) n : 2 <= n ->
  exists g, complete_graph p mk n = Done g /\ simple_graph g /\ vertex_count g = n /\
    (forall i j, adj g i j <-> i < n /\ j < n /\ i <> j).
Proof.
  intros Hn. destruct (complete_spec mk (half_square n)) as (W & P & A).
  eexists. splits; [|exact W|reflexivity|exact A].
  unfold complete_graph. destruct n as [|n]; [lia|]. destruct p; reflexivity.
Qed.

Lemma new_ready {T} (mk : nat -> T) p n m s src : 2 <= s -> s < n -> complete_graph p mk s = Done src ->
  ba_ready n m (mk_ba src (graph_new mk n) m (repeat 0 n)) /\ vertex_count src = s.
Proof.
  intros H2 Hn E. destruct (complete_done p mk H2) as (g & E' & W & V & A).
  rewrite E in E'. injection E' as <-. pose proof (@graph_new_spec T (node_container T) _ _ mk n) as (Wn & Vn & _).
  split; auto. constructor; cbn; auto; try lia.
  - intros i Hi K. assert (X : adj src i (if i =? 0 then 1 else 0)).
    { apply A. destruct (Nat.eqb_spec i 0); lia. }
    unfold adj in X. rewrite K in X. destruct X.
  - apply repeat_length.
Qed.

Lemma no_isolated {T A : Type} {C : AdjContainer T A} {L : AdjLaws C} (g : graph A) : simple_graph g ->
  forallb (fun c => 0 <? ac_degree c) (vertices g) = true <-> forall i, i < vertex_count g -> nbrs g i <> [].
Proof.
  intros W. rewrite forallb_forall. split.
  - intros H i Hi. destruct (container_lt W Hi) as (c & E & _ & _ & N). rewrite <- N.
    specialize (H c (nth_error_In _ _ E)). rewrite law_degree in H. apply Nat.ltb_lt in H.
    destruct (ac_neighbors c); [cbn in H; lia|discriminate].
  - intros H c Hc. apply In_nth_error in Hc as (i & E). assert (Hi : i < vertex_count g).
    { rewrite <- (sg_len W). apply nth_error_Some. congruence. }
    specialize (H i Hi). rewrite (nbrs_nth E) in H. rewrite law_degree. apply Nat.ltb_lt.
    destruct (ac_neighbors c); [congruence|cbn; lia].
Qed.

Lemma skipn_seq s n : s <= n -> skipn s (seq 0 n) = seq s (n - s).
Proof.
  intros H. replace (seq 0 n) with (seq 0 s ++ seq s (n - s)).
  - rewrite skipn_app, skipn_all2 by (rewrite seq_length; auto). rewrite seq_length, Nat.sub_diag. auto.
  - replace n with (s + (n - s)) at 2 by lia. symmetry. apply seq_app.
Qed.

Lemma copy_ready {T} (mk : nat -> T) n m (src g : graph (node_container T)) :
  simple_graph src -> (forall i, i < vertex_count src -> nbrs src i <> []) ->
  0 < vertex_count src < n -> ba_copy (graph_new mk n) src = Done g ->
  ba_ready n m (mk_ba src g m (repeat 0 n)) /\
  payloads g = payloads src ++ map mk (seq (vertex_count src) (n - vertex_count src)).
Proof.
  intros Ws D Hn E. pose proof (@graph_new_spec T (node_container T) _ _ mk n) as (Wn & Vn & _ & Pn & _).
  destruct (@copy_spec T (graph_new mk n) src Wn Ws) as (g' & E' & W' & V' & P'); [lia|].
  rewrite E in E'. injection E' as <-. split.
  - constructor; cbn; auto; try congruence; try lia; apply repeat_length.
  - rewrite P', Pn. f_equal. rewrite skipn_map. f_equal. apply skipn_seq. lia.
Qed.

(** *** Histories *)

Lemma count_perm {X} (f : X -> bool) l l' : Permutation l l' -> count f l = count f l'.
Proof.
  unfold count. induction 1; cbn; auto; try congruence.
  - destruct (f x); cbn; auto.
  - destruct (f x), (f y); cbn; auto.
Qed.

Lemma count_le {X} (f : X -> bool) l : count f l <= length l.
Proof. unfold count. induction l as [|x l IH]; cbn; auto. destruct (f x); cbn; lia. Qed.

Lemma sort_ok {T} n m (e e' : ba T) : ba_ok n m e -> ba_sort_adj e = Done e' ->
  ba_ok n m e' /\ ba_source e' = ba_source e /\ same_topology (ba_graph e) (ba_graph e').
Proof.
  intros O E. destruct (bo_grown O) as (order & Gr). unfold ba_sort_adj in E.
  destruct (sort_adj_spec (gr_simple Gr)) as (g' & Es & W' & Tp & _). rewrite Es in E. cbn in E. injection E as <-.
  pose proof Tp as (V' & Ec' & P' & Nb). split; [|cbn; auto].
  constructor; cbn; try apply O.
  - rewrite V'. apply O.
  - exists order. constructor; auto; rewrite ?V'; try apply Gr.
    + intros i j Hi Hj. rewrite <- (same_topology_adj i j Tp). apply Gr; auto.
    + intros before x after Eo. rewrite <- (count_perm _ (Nb x)). eapply Gr; eauto.
    + rewrite Ec'. apply Gr.
  - destruct (bo_weights O) as [Lw Hw]. split; auto. intros i. rewrite Hw. apply Permutation_length. auto.
Qed.

(** With more edges per vertex than the source has vertices there is no such graph. *)
Lemma grown_le {T} m (src g : graph (node_container T)) order : grown m src g order ->
  vertex_count src < vertex_count g -> m <= vertex_count src.
Proof.
  intros Gr Hn. pose proof (gr_order Gr) as Po. destruct order as [|x l].
  - apply Permutation_length in Po. rewrite seq_length in Po. cbn in Po. lia.
  - rewrite <- (gr_attach Gr [] x l eq_refl). unfold count.
    apply Nat.le_trans with (length (seq 0 (vertex_count src))); [|rewrite seq_length; auto].
    apply NoDup_incl_length.
    + apply NoDup_filter. apply (sg_nodup (gr_simple Gr)).
    + intros y Hy. apply filter_In in Hy as [_ Hy]. apply earlier_spec in Hy as [Hy|[]].
      apply in_seq. lia.
Qed.

Lemma randomize_stuck {T} p n m (e : ba T) rs : ba_ready n m e -> vertex_count (ba_source e) < m ->
  ba_randomize p e rs = NoFuel.
Proof.
  intros R Hm. pose proof (randomize_runs p R rs) as X.
  destruct (ba_randomize p e rs) as [[e' rs']| | |]; try tauto.
  destruct X as ((O & Es & _) & _). destruct (bo_grown O) as (order & Gr).
  apply grown_le in Gr; [rewrite Es in Gr; lia|]. rewrite (bo_count O). apply O.
Qed.

(** An empty source: there is nothing to draw from. *)
Lemma randomize_empty_panic {T} p (src g : graph (node_container T)) n m ws order rs rs' :
  simple_graph src -> vertex_count src = 0 -> simple_graph g -> vertex_count g = n -> 0 < n -> length ws = n ->
  shuffle (seq 0 n) rs = Done (order, rs') ->
  ba_randomize p (mk_ba src g m ws) rs = Panic.
Proof.
  intros Ws Z W V Hn Lw E. unfold ba_randomize. cbn [ba_graph ba_source ba_m ba_weights].
  destruct (@reset_from_graph_spec T g src) as (g' & E' & W' & V' & _); auto; [lia|].
  rewrite E'. cbn [bind]. rewrite Z, V', V, Nat.sub_0_r, E. cbn [bind seq foldM].
  destruct (@set_range (fun _ => Done 0) (fun _ => 0) n 0 ws) as (ws2 & E2 & L2 & N2); [lia|auto|].
  cbn [bind] in E2. rewrite E2. cbn [bind].
  apply shuffle_done, Permutation_length in E. rewrite seq_length in E. destruct order as [|x l]; [cbn in E; lia|].
  cbn [foldM]. unfold ba_insert at 1, weighted_new.
  replace (list_sum ws2) with 0; [reflexivity|]. symmetry.
  assert (K : forall us, (forall k, nth k us 0 = 0) -> list_sum us = 0).
  { clear. induction us as [|u us IH]; intros H; auto. rewrite list_sum_cons, IH.
    - specialize (H 0). cbn in H. lia.
    - intros k. apply (H (S k)). }
  apply K. intros k. rewrite N2. destruct (Nat.leb_spec 0 k), (Nat.ltb_spec k (0 + n)); cbn [andb]; auto; try lia.
  apply nth_overflow. lia.
Qed.

Lemma randomize_empty_done {T} p (src g : graph (node_container T)) n m ws rs x :
  simple_graph src -> vertex_count src = 0 -> simple_graph g -> vertex_count g = n -> 0 < n -> length ws = n ->
  ba_randomize p (mk_ba src g m ws) rs <> Done x.
Proof.
  intros Ws Z W V Hn Lw E. destruct (shuffle (seq 0 n) rs) as [[o rs']| | |] eqn:Es.
  - rewrite (@randomize_empty_panic T p src g n m ws o rs rs') in E; auto. discriminate.
  - unfold ba_randomize in E. cbn [ba_graph ba_source] in E. apply bind_done in E as (g' & Er & E).
    destruct (@reset_from_graph_spec T g src) as (g2 & E' & W' & V' & _); auto; [lia|].
    rewrite Er in E'. injection E' as <-. rewrite Z, V', V, Nat.sub_0_r, Es in E. discriminate.
  - unfold ba_randomize in E. cbn [ba_graph ba_source] in E. apply bind_done in E as (g' & Er & E).
    destruct (@reset_from_graph_spec T g src) as (g2 & E' & W' & V' & _); auto; [lia|].
    rewrite Er in E'. injection E' as <-. rewrite Z, V', V, Nat.sub_0_r, Es in E. discriminate.
  - unfold ba_randomize in E. cbn [ba_graph ba_source] in E. apply bind_done in E as (g' & Er & E).
    destruct (@reset_from_graph_spec T g src) as (g2 & E' & W' & V' & _); auto; [lia|].
    rewrite Er in E'. injection E' as <-. rewrite Z, V', V, Nat.sub_0_r, Es in E. discriminate.
Qed.

Lemma copy_count {T} (mk : nat -> T) n (src g : graph (node_container T)) :
  simple_graph src -> vertex_count src < n -> ba_copy (graph_new mk n) src = Done g ->
  simple_graph g /\ vertex_count g = n.
Proof.
  intros Ws Hn E. pose proof (@graph_new_spec T (node_container T) _ _ mk n) as (Wn & Vn & _ & Pn & _).
  destruct (@copy_spec T (graph_new mk n) src Wn Ws) as (g' & E' & W' & V' & P'); [lia|].
  rewrite E in E'. injection E' as <-. split; congruence.
Qed.

Lemma degrees_total {T} (g : graph (node_container T)) ws : simple_graph g ->
  length ws = vertex_count g -> (forall k, nth k ws 0 = length (nbrs g k)) -> list_sum ws = 2 * edge_count g.
Proof.
  intros W Lw Hw. apply (@degrees_sum _ _ _ _ ws g W). split; auto.
Qed.
