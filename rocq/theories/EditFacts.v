(** What single edges do to the measures. *)
From Verif Require Import Base BaseFacts Containers ContainerSpec Graph GraphSpec GraphFacts.
From Verif Require Import GraphOps GraphBuild Search Traversal TraversalSpec TraversalFacts.
From Verif Require Import Components ComponentSpec ComponentFacts CoreFacts Transitivity TransitivityFacts.
From Verif Require Import EnsembleFacts BiconnectedFacts MeasureFacts ConsistencyFacts EditSpec.
From Coq Require Import Sorted.
Set Implicit Arguments.
Unset Strict Implicit.

Section Edit.
Context {T A : Type} {C : AdjContainer T A} {L : AdjLaws C}.
Implicit Types g : graph A.

Lemma one_more_extends g g' i j : one_more g g' i j -> extends g g'.
Proof. intros (V & _ & _ & _ & _ & H). split; auto. intros x y K. apply H. auto. Qed.

Lemma add_one_more p g i j g' : simple_graph g -> add_edge p g i j = Done (Ok tt, g') ->
  simple_graph g' /\ one_more g g' i j.
Proof.
  intros W E. destruct (add_edge_range W E) as (Hi & Hj & N).
  destruct (add_edge_ok W E) as (Na & W' & V & _ & _ & H). split; auto.
  unfold one_more. auto 10.
Qed.

Lemma remove_one_more p g i j g' : simple_graph g -> remove_edge p g i j = Done (Ok tt, g') ->
  simple_graph g' /\ one_more g' g i j.
Proof.
  intros W E. destruct (remove_edge_range W E) as (Hi & Hj & N).
  destruct (remove_edge_ok W E) as (Na & W' & V & _ & _ & H). split; auto.
  unfold one_more. rewrite V. split; [auto|]. split; [auto|]. split; [auto|]. split; [auto|]. split.
  - rewrite H. unfold is_pair. tauto.
  - intros x y. rewrite H. unfold is_pair. split.
    + intros K. assert ((x = i /\ y = j) \/ (x = j /\ y = i) \/ ~ ((x = i /\ y = j) \/ (x = j /\ y = i))) by lia. tauto.
    + intros [[K _]|[[-> ->]|[-> ->]]]; auto. apply (sg_sym W), Na.
Qed.

(** ** Monotone measures *)

Lemma extends_connected g g' : extends g g' -> connected g -> connected g'.
Proof.
  intros [V H] K u v Hu Hv. rewrite V in *. eapply joined_mono; [apply H|]. auto.
Qed.

Lemma extends_diameter g g' d : simple_graph g -> simple_graph g' -> extends g g' ->
  diameter g = Done (Some d) -> exists d', diameter g' = Done (Some d') /\ d' <= d.
Proof.
  intros W W' X E. destruct (diameter_spec W) as [[_ K]|(H0 & Cn & k & K & D)]; [congruence|].
  assert (k = d) by congruence. subst k. pose proof (extends_connected X Cn) as Cn'.
  destruct (diameter_spec W') as [[[Z|Z] _]|(_ & _ & d' & E' & [(u & v & Hu & Hd) _])].
  - destruct X as [V _]. lia.
  - tauto.
  - exists d'. split; auto. destruct X as [V X]. rewrite V in Hu.
    assert (Hv : v < vertex_count g) by (rewrite <- V; apply (joined_lt W' (i := u)); [lia|exists d'; apply Hd]).
    destruct (dist_exists W Hu (Cn u v Hu Hv)) as (k & Hk).
    eapply Nat.le_trans; [|apply (proj2 D u v k Hu Hk)].
    apply Hd. eapply walk_impl; [apply X|]. apply Hk.
Qed.

Lemma extends_dense g g' q S : simple_graph g -> simple_graph g' -> extends g g' ->
  q_dense g q S -> q_dense g' q S.
Proof.
  intros W W' [V X] D v Hv. destruct (D v Hv) as [Hl Hq]. split; [lia|].
  eapply Nat.le_trans; [apply Hq|]. apply NoDup_incl_length; [apply NoDup_filter, (sg_nodup W)|].
  intros w Hw. apply filter_In in Hw as [Hw Sw]. apply filter_In. split; auto. apply X. auto.
Qed.

Lemma extends_core g g' q v : simple_graph g -> simple_graph g' -> extends g g' ->
  in_core g q v -> in_core g' q v.
Proof. intros W W' X (S & D & Hv). exists S. split; auto. exact (extends_dense W W' X D). Qed.

Lemma extends_q_core g g' q m : simple_graph g -> simple_graph g' -> extends g g' ->
  q_core g q = Done (Some m) -> exists m', q_core g' q = Done (Some m') /\ m <= m'.
Proof.
  intros W W' X E. pose proof (proj1 X) as V.
  destruct (q_core_spec q W) as [[_ K]|(H2 & H0 & k & K & _ & Hm)]; rewrite K in E; [discriminate|].
  injection E as ->.
  destruct (q_core_spec q W') as [[[?|?] _]|(_ & _ & m' & E' & Hle & _)]; try lia.
  exists m'. split; auto.
  destruct Hm as [[-> _]|(v & comp & Cv & [N Hc] & <-)]; [lia|].
  pose proof (extends_core W W' X Cv) as Cv'.
  destruct (core_component_exists W' H2 Cv') as (big & Hb).
  eapply Nat.le_trans; [|apply (Hle v big Cv' Hb)].
  apply NoDup_incl_length; auto. intros w Hw. apply Hb. apply Hc in Hw. destruct Hw as [k Wk].
  exists k. eapply walk_impl; [|apply Wk]. intros x y (H & Cx & Cy).
  split; [apply X, H|]. split; [exact (extends_core W W' X Cx)|exact (extends_core W W' X Cy)].
Qed.

(** ** Components *)

Lemma one_more_joined g g' i j x y : simple_graph g -> one_more g g' i j ->
  (joined (adj g') x y <->
   joined (adj g) x y \/ (joined (adj g) x i /\ joined (adj g) j y) \/
   (joined (adj g) x j /\ joined (adj g) i y)).
Proof.
  intros W (V & Hi & Hj & N & Na & H).
  assert (M : forall u v, joined (adj g) u v -> joined (adj g') u v).
  { intros u v. apply joined_mono. intros a b K. apply H. auto. }
  assert (Ij : joined (adj g') i j) by (apply (joined_step (joined_refl _ _)), H; auto).
  assert (Ji : joined (adj g') j i) by (apply (joined_step (joined_refl _ _)), H; auto).
  split.
  - apply joined_add; [apply (sg_sym W)|]. exact H.
  - intros [K|[[K1 K2]|[K1 K2]]]; auto.
    + eapply joined_trans; [apply M, K1|]. eapply joined_trans; [apply Ij|]. auto.
    + eapply joined_trans; [apply M, K1|]. eapply joined_trans; [apply Ji|]. auto.
Qed.

Lemma one_more_components g g' i j : simple_graph g -> simple_graph g' -> one_more g g' i j ->
  exists s s', connected_components g = Done s /\ connected_components g' = Done s' /\
  (joined (adj g) i j -> s' = s) /\
  (~ joined (adj g) i j -> exists ci cj r,
     is_component (adj g) i ci /\ is_component (adj g) j cj /\
     Permutation s (length ci :: length cj :: r) /\
     Permutation s' (length ci + length cj :: r)).
Proof.
  intros W W' O. pose proof (fun x y => one_more_joined x y W O) as J.
  pose proof O as (V & Hi & Hj & N & Na & H).
  pose proof (fun a b => @joined_sym _ (adj g) a b (sg_sym W)) as JS.
  destruct (components_spec W) as (s & p & Es & Ss & Ps & Pc & Ne & K).
  destruct (components_spec W') as (s' & p' & Es' & Ss' & Ps' & Pc' & Ne' & K').
  exists s, s'. split; auto. split; auto. rewrite V in *.
  assert (Np : NoDup (concat p)) by (eapply Permutation_NoDup; [apply Permutation_sym, Pc|apply seq_NoDup]).
  assert (Np' : NoDup (concat p')) by (eapply Permutation_NoDup; [apply Permutation_sym, Pc'|apply seq_NoDup]).
  assert (Ip : forall w, In w (concat p) <-> w < vertex_count g).
  { intros w. split; intros Hw.
    - apply (Permutation_in _ Pc), in_seq in Hw. lia.
    - eapply Permutation_in; [apply Permutation_sym, Pc|]. apply in_seq. lia. }
  assert (Ip' : forall w, In w (concat p') <-> w < vertex_count g).
  { intros w. split; intros Hw.
    - apply (Permutation_in _ Pc'), in_seq in Hw. lia.
    - eapply Permutation_in; [apply Permutation_sym, Pc'|]. apply in_seq. lia. }
  split.
  - intros Jij. apply sorted_perm_eq; auto.
    eapply perm_trans; [apply Ps'|]. eapply perm_trans; [|apply Permutation_sym, Ps].
    apply (@classes_perm nat (joined (adj g'))); auto.
    + intros w. rewrite Ip, Ip'. tauto.
    + intros c u w Hc Hu Hw. apply K'; auto. apply Ip'. auto.
    + intros c u w Hc Hu Hw. apply Ip in Hw. rewrite (K c u w Hc Hu Hw), J. split; auto.
      intros [Q|[[Q1 Q2]|[Q1 Q2]]]; auto.
      * eapply joined_trans; [apply Q1|]. eapply joined_trans; [apply Jij|apply Q2].
      * eapply joined_trans; [apply Q1|]. eapply joined_trans; [apply JS, Jij|apply Q2].
  - intros Nij.
    assert (Hci : In i (concat p)) by (apply Ip; auto). apply in_concat in Hci as (ci & Hci & Ii).
    assert (Hcj : In j (concat p)) by (apply Ip; auto). apply in_concat in Hcj as (cj & Hcj & Ij).
    assert (Kj := Hcj).
    assert (Dij : ci <> cj) by (intros ->; apply Nij, (K cj i j); auto).
    destruct (in_split _ _ Hci) as (p1 & p2 & Ep).
    assert (P1 : Permutation p (ci :: p1 ++ p2)) by (rewrite Ep; apply Permutation_sym, Permutation_middle).
    pose proof (Permutation_in _ P1 Hcj) as Hcj'. destruct Hcj' as [Z|Hcj']; [congruence|].
    destruct (in_split _ _ Hcj') as (q1 & q2 & Eq).
    assert (P2 : Permutation p (ci :: cj :: q1 ++ q2)).
    { eapply perm_trans; [apply P1|]. apply perm_skip. rewrite Eq. apply Permutation_sym, Permutation_middle. }
    set (r := q1 ++ q2) in *.
    assert (Comp : forall c u, In c p -> In u c -> is_component (adj g) u c).
    { intros c u Hc Hu. split.
      - apply in_split in Hc as (a & b & ->). rewrite concat_app in Np. apply NoDup_app_iff in Np as (_ & Np & _).
        cbn [concat] in Np. apply NoDup_app_iff in Np. tauto.
      - intros w. assert (u < vertex_count g) by (apply Ip, in_concat; eauto). split; intros Hw.
        + apply (K c u w); auto. apply Ip, in_concat. eauto.
        + apply (K c u w); auto. apply (joined_lt W (i := u)); auto. }
    exists ci, cj, (map (@length nat) r). split; [auto|]. split; [auto|]. split.
    + eapply perm_trans; [apply Ps|]. apply (Permutation_map (@length nat) P2).
    + eapply perm_trans; [apply Ps'|].
      replace (length ci + length cj :: map (@length nat) r) with (map (@length nat) ((ci ++ cj) :: r))
        by (cbn [map]; rewrite app_length; auto).
      assert (Pr : Permutation (concat p) (concat ((ci ++ cj) :: r))).
      { cbn [concat]. rewrite <- app_assoc. change (ci ++ cj ++ concat r) with (concat (ci :: cj :: r)).
        clear -P2. revert P2. generalize (ci :: cj :: r). intros m P. induction P; cbn [concat]; auto.
        - apply Permutation_app_head; auto.
        - rewrite !app_assoc. apply Permutation_app_tail, Permutation_app_comm.
        - eapply perm_trans; eauto. }
      assert (Iq : forall w, In w (concat ((ci ++ cj) :: r)) <-> w < vertex_count g).
      { intros w. rewrite <- Ip. split; apply Permutation_in; auto. apply Permutation_sym; auto. }
      assert (Sub : forall c, In c r -> In c p).
      { intros c Hc. eapply Permutation_in; [apply Permutation_sym, P2|]. simpl. auto. }
      apply (@classes_perm nat (joined (adj g'))); auto.
      * eapply Permutation_NoDup; eauto.
      * intros c [<-|Hc]; [|auto]. specialize (Ne ci Hci). destruct ci; [congruence|discriminate].
      * intros w. rewrite Ip', Iq. tauto.
      * intros c u w Hc Hu Hw. apply K'; auto. apply Ip'. auto.
      * intros c u w Hc Hu Hw. apply Iq in Hw. rewrite J. destruct Hc as [<-|Hc].
        -- rewrite in_app_iff. rewrite in_app_iff in Hu.
           rewrite (K ci i w Hci Ii Hw), (K cj j w Kj Ij Hw).
           destruct Hu as [Hu|Hu].
           ++ assert (Jiu : joined (adj g) i u) by (apply (Comp ci i); auto).
              split.
              ** intros [Q|Q]; [left; eapply joined_trans; [apply JS, Jiu|auto]|].
                 right. left. split; auto.
              ** intros [Q|[[Q1 Q2]|[Q1 Q2]]]; auto. left. eapply joined_trans; eauto.
           ++ assert (Jju : joined (adj g) j u) by (apply (Comp cj j); auto).
              split.
              ** intros [Q|Q]; [|left; eapply joined_trans; [apply JS, Jju|auto]].
                 right. right. split; auto.
              ** intros [Q|[[Q1 Q2]|[Q1 Q2]]]; auto. right. eapply joined_trans; eauto.
        -- rewrite (K c u w (Sub c Hc) Hu Hw). split; auto.
           assert (Disj : forall x, In x c -> ~ In x ci /\ ~ In x cj).
           { intros x Hx. pose proof (Permutation_NoDup Pr Np) as Nq. cbn [concat] in Nq.
             rewrite <- app_assoc in Nq. apply NoDup_app_iff in Nq as (_ & Nq & D1).
             apply NoDup_app_iff in Nq as (_ & _ & D2).
             assert (In x (concat r)) by (apply in_concat; eauto).
             split; intros Z; [apply (D1 x); auto; apply in_app_iff; auto|apply (D2 x); auto]. }
           destruct (Disj u Hu) as [Du1 Du2].
           intros [Q|[[Q1 _]|[Q1 _]]]; auto; exfalso.
           ++ apply Du1. apply (Comp ci i Hci Ii). auto.
           ++ apply Du2. apply (Comp cj j Kj Ij). auto.
Qed.

(** ** Degrees *)

Lemma one_more_degree g g' i j : simple_graph g -> simple_graph g' -> one_more g g' i j ->
  length (nbrs g' i) = S (length (nbrs g i)).
Proof.
  intros W W' (V & Hi & Hj & N & Na & H). change (S (length (nbrs g i))) with (length (j :: nbrs g i)).
  apply Permutation_length, NoDup_Permutation; [apply (sg_nodup W')|constructor; [apply Na|apply (sg_nodup W)]|].
  intros x. change (adj g' i x <-> j = x \/ adj g i x). rewrite H. intuition (subst; auto).
Qed.

Lemma one_more_sym g g' i j : simple_graph g -> one_more g g' i j -> one_more g g' j i.
Proof.
  intros W (V & Hi & Hj & N & Na & H). repeat split; auto; try (rewrite H; tauto).
  intros K. apply Na, (sg_sym W), K.
Qed.

Lemma one_more_degree_r g g' i j : simple_graph g -> simple_graph g' -> one_more g g' i j ->
  length (nbrs g' j) = S (length (nbrs g j)).
Proof. intros W W' O. exact (one_more_degree W W' (one_more_sym W O)). Qed.

(** ** Transitivity *)

Lemma in_triples n a b c : In (a, b, c) (triples n) <-> a < n /\ b < n /\ c < n.
Proof.
  unfold triples. rewrite in_flat_map. split.
  - intros (x & Hx & H). apply in_flat_map in H as (y & Hy & H). apply in_map_iff in H as (z & E & Hz).
    injection E as -> -> ->. apply in_seq in Hx, Hy, Hz. lia.
  - intros (Ha & Hb & Hc). exists a. split; [apply in_seq; lia|]. apply in_flat_map. exists b.
    split; [apply in_seq; lia|]. apply in_map_iff. exists c. split; auto. apply in_seq; lia.
Qed.

Lemma NoDup_triples n : NoDup (triples n).
Proof.
  unfold triples. apply NoDup_flat_map; [apply seq_NoDup| |].
  - intros a _. apply NoDup_flat_map; [apply seq_NoDup| |].
    + intros b _. apply FinFun.Injective_map_NoDup; [|apply seq_NoDup]. intros x y E. congruence.
    + intros x y z _ _ Hx Hy. apply in_map_iff in Hx as (? & <- & _), Hy as (? & E & _). congruence.
  - intros x y z _ _ Hx Hy. apply in_flat_map in Hx as (? & _ & Hx), Hy as (? & _ & Hy).
    apply in_map_iff in Hx as (? & <- & _), Hy as (? & E & _). congruence.
Qed.

Lemma two_path_adj g a b c : two_path g (a, b, c) = true <-> adj g a b /\ adj g b c /\ c <> a.
Proof.
  unfold two_path. rewrite !andb_true_iff, !adjb_adj, negb_true_iff, Nat.eqb_neq. tauto.
Qed.

Lemma closed_path_adj g a b c : closed_path g (a, b, c) = true <->
  adj g a b /\ adj g b c /\ c <> a /\ adj g c a.
Proof.
  unfold closed_path. rewrite andb_true_iff, adjb_adj, two_path_adj. tauto.
Qed.

Lemma count_more (f f' : nat * nat * nat -> bool) n new :
  NoDup new ->
  (forall a b c, a < n -> b < n -> c < n -> f' (a, b, c) = true <-> f (a, b, c) = true \/ In (a, b, c) new) ->
  (forall a b c, In (a, b, c) new -> a < n /\ b < n /\ c < n /\ f (a, b, c) = false) ->
  count f' (triples n) = count f (triples n) + length new.
Proof.
  intros N H K. unfold count. rewrite <- app_length. apply Permutation_length.
  apply NoDup_Permutation; [apply NoDup_filter, NoDup_triples| |].
  - apply NoDup_app_iff. split; [apply NoDup_filter, NoDup_triples|]. split; auto.
    intros [[a b] c] Hf Hn. apply filter_In in Hf as [_ Hf]. destruct (K a b c Hn) as (_ & _ & _ & E). congruence.
  - intros [[a b] c]. rewrite in_app_iff, !filter_In, in_triples. split.
    + intros [(Ha & Hb & Hc) E]. apply (H a b c Ha Hb Hc) in E. tauto.
    + intros [[(Ha & Hb & Hc) E]|Hn].
      * split; auto. apply (H a b c Ha Hb Hc). auto.
      * destruct (K a b c Hn) as (Ha & Hb & Hc & _). split; auto. apply (H a b c Ha Hb Hc). auto.
Qed.

Lemma in_common g i j k : In k (common g i j) <-> adj g i k /\ adj g j k.
Proof. unfold common. rewrite filter_In, adjb_adj. unfold adj. tauto. Qed.

Lemma in_map_l (l : list nat) (i j a b c : nat) :
  In (a, b, c) (map (fun k => (k, i, j)) l) <-> In a l /\ b = i /\ c = j.
Proof.
  rewrite in_map_iff. split; [intros (k & E & H); injection E as -> -> ->; auto|].
  intros (H & -> & ->). eauto.
Qed.
Lemma in_map_m (l : list nat) (i j a b c : nat) :
  In (a, b, c) (map (fun k => (i, k, j)) l) <-> a = i /\ In b l /\ c = j.
Proof.
  rewrite in_map_iff. split; [intros (k & E & H); injection E as -> -> ->; auto|].
  intros (-> & H & ->). eauto.
Qed.
Lemma in_map_r (l : list nat) (i j a b c : nat) :
  In (a, b, c) (map (fun k => (i, j, k)) l) <-> a = i /\ b = j /\ In c l.
Proof.
  rewrite in_map_iff. split; [intros (k & E & H); injection E as -> -> ->; auto|].
  intros (-> & -> & H). eauto.
Qed.

Ltac nodup_map := apply FinFun.Injective_map_NoDup; [intros ? ? ?; congruence|].

Lemma one_more_two_paths g g' i j : simple_graph g -> simple_graph g' -> one_more g g' i j ->
  count (two_path g') (triples (vertex_count g')) =
  count (two_path g) (triples (vertex_count g)) + 2 * (length (nbrs g i) + length (nbrs g j)).
Proof.
  intros W W' (V & Hi & Hj & N & Na & H). rewrite V.
  pose proof (sg_sym W) as Sy. pose proof (sg_irrefl W) as Ir.
  assert (Rg : forall x y, adj g x y -> y < vertex_count g) by (intros x y; apply (sg_range W)).
  assert (Na' : ~ adj g j i) by (intros K; apply Na, Sy, K).
  rewrite (@count_more (two_path g) (two_path g') _
    (map (fun k => (i, j, k)) (nbrs g j) ++ map (fun k => (k, j, i)) (nbrs g j) ++
     map (fun k => (j, i, k)) (nbrs g i) ++ map (fun k => (k, i, j)) (nbrs g i))).
  - rewrite !app_length, !map_length. lia.
  - rewrite !NoDup_app_iff.
    repeat split; try (nodup_map; apply (sg_nodup W));
      intros [[a b] c]; rewrite ?in_app_iff, ?in_map_l, ?in_map_r; intros E;
      fold (adj g i a) (adj g i c) (adj g j a) (adj g j c) in *; intuition (subst; try tauto).
  - intros a b c Ha Hb Hc. rewrite !two_path_adj, !H, !in_app_iff, !in_map_l, !in_map_r.
    fold (adj g i a) (adj g i c) (adj g j a) (adj g j c).
    pose proof (Ir i). pose proof (Ir j).
    split.
    + intros (E1 & E2 & Ne).
      destruct E1 as [E1|[[-> ->]|[-> ->]]]; destruct E2 as [E2|[[? ->]|[? ->]]]; subst; auto 10; try tauto.
    + intros [E|[E|[E|[E|E]]]].
      * tauto.
      * destruct E as (-> & -> & E). split; [tauto|]. split; [tauto|]. intros ->. tauto.
      * destruct E as (E & -> & ->). split; [left; apply Sy, E|]. split; [tauto|]. intros ->. tauto.
      * destruct E as (-> & -> & E). split; [tauto|]. split; [tauto|]. intros ->. tauto.
      * destruct E as (E & -> & ->). split; [left; apply Sy, E|]. split; [tauto|]. intros ->. tauto.
  - intros a b c. rewrite !in_app_iff, !in_map_l, !in_map_r.
    fold (adj g i a) (adj g i c) (adj g j a) (adj g j c).
    intros E. assert (Z : a < vertex_count g /\ b < vertex_count g /\ c < vertex_count g).
    { intuition (subst; eauto). }
    split; [tauto|]. split; [tauto|]. split; [tauto|].
    apply not_true_iff_false. rewrite two_path_adj. intuition (subst; tauto).
Qed.

Lemma one_more_closed_paths g g' i j : simple_graph g -> simple_graph g' -> one_more g g' i j ->
  count (closed_path g') (triples (vertex_count g')) =
  count (closed_path g) (triples (vertex_count g)) + 6 * length (common g i j).
Proof.
  intros W W' (V & Hi & Hj & N & Na & H). rewrite V.
  pose proof (sg_sym W) as Sy. pose proof (sg_irrefl W) as Ir.
  assert (Rg : forall x y, adj g x y -> y < vertex_count g) by (intros x y; apply (sg_range W)).
  assert (Na' : ~ adj g j i) by (intros K; apply Na, Sy, K).
  assert (Nc : NoDup (common g i j)) by (apply NoDup_filter, (sg_nodup W)).
  rewrite (@count_more (closed_path g) (closed_path g') _
    (map (fun k => (i, j, k)) (common g i j) ++ map (fun k => (j, i, k)) (common g i j) ++
     map (fun k => (k, i, j)) (common g i j) ++ map (fun k => (k, j, i)) (common g i j) ++
     map (fun k => (i, k, j)) (common g i j) ++ map (fun k => (j, k, i)) (common g i j))).
  - rewrite !app_length, !map_length. lia.
  - rewrite !NoDup_app_iff.
    repeat split; try (nodup_map; assumption);
      intros [[a b] c]; rewrite ?in_app_iff, ?in_map_l, ?in_map_m, ?in_map_r, ?in_common; intros E;
      pose proof (Ir i); pose proof (Ir j); intuition (subst; try tauto).
  - intros a b c Ha Hb Hc. rewrite !closed_path_adj, !H, !in_app_iff, !in_map_l, !in_map_m, !in_map_r, !in_common.
    pose proof (Ir i). pose proof (Ir j).
    split.
    + intros (E1 & E2 & Ne & E3).
      destruct E1 as [E1|[[-> ->]|[-> ->]]]; destruct E2 as [E2|[[? ->]|[? ->]]]; destruct E3 as [E3|[[? ?]|[? ?]]]; subst; try tauto;
      repeat match goal with K : adj g ?x ?y |- _ => lazymatch goal with _ : adj g y x |- _ => fail | _ => pose proof (Sy _ _ K) end end; tauto.
    + intros [E|E]; [tauto|].
      assert (c <> a) by (intros ->; intuition (subst; tauto)).
      intuition (subst; auto).
  - intros a b c. rewrite !in_app_iff, !in_map_l, !in_map_m, !in_map_r, !in_common.
    intros E. assert (Z : a < vertex_count g /\ b < vertex_count g /\ c < vertex_count g).
    { intuition (subst; eauto). }
    split; [tauto|]. split; [tauto|]. split; [tauto|].
    apply not_true_iff_false. rewrite closed_path_adj. intuition (subst; tauto).
Qed.

Lemma one_more_transitivity g g' i j c p : simple_graph g -> simple_graph g' -> one_more g g' i j ->
  transitivity g = Done (c, p) ->
  transitivity g' = Done (c + 6 * length (common g i j), p + 2 * (length (nbrs g i) + length (nbrs g j))).
Proof.
  intros W W' O. rewrite (transitivity_spec W), (transitivity_spec W'). intros E. injection E as <- <-.
  rewrite (one_more_two_paths W W' O), (one_more_closed_paths W W' O). auto.
Qed.
End Edit.
