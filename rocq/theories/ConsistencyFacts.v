(** How the measures of one graph are related to each other. *)
From Verif Require Import Base BaseFacts Containers ContainerSpec Graph GraphSpec GraphFacts.
From Verif Require Import GraphOps Search Traversal TraversalSpec TraversalFacts.
From Verif Require Import Components ComponentSpec ComponentFacts CoreFacts Transitivity TransitivityFacts.
From Verif Require Import Load LoadSpec LoadFacts LoadSums Sums EnsembleFacts ErMFacts MeasureFacts.
From Coq Require Import Sorted.
Set Implicit Arguments.
Unset Strict Implicit.

Lemma length_concat {X} (l : list (list X)) : length (concat l) = list_sum (map (@length X) l).
Proof. induction l as [|a l IH]; simpl; auto. rewrite app_length, IH. auto. Qed.

Section Consistency.
Context {T A : Type} {C : AdjContainer T A} {L : AdjLaws C}.
Implicit Types g : graph A.

Lemma joined_dec g u v : simple_graph g -> u < vertex_count g -> joined (adj g) u v \/ ~ joined (adj g) u v.
Proof.
  intros W Hu. destruct (dfs_index_spec u W) as (is & _ & _ & R & _).
  destruct (in_dec Nat.eq_dec v (map fst is)) as [K|K]; rewrite R in K; tauto.
Qed.

(** ** Components *)

Lemma sizes_sum g sizes : simple_graph g -> connected_components g = Done sizes ->
  list_sum sizes = vertex_count g.
Proof.
  intros W E. destruct (components_spec W) as (s & p & E' & _ & Ps & Pc & _).
  rewrite E' in E. injection E as <-. rewrite (list_sum_perm Ps), <- length_concat.
  rewrite (Permutation_length Pc). apply seq_length.
Qed.

Lemma sizes_pos g sizes s : simple_graph g -> connected_components g = Done sizes -> In s sizes -> 1 <= s.
Proof.
  intros W E Hs. destruct (components_spec W) as (z & p & E' & _ & Ps & _ & Ne & _).
  rewrite E' in E. injection E as <-. apply (Permutation_in _ Ps) in Hs.
  apply in_map_iff in Hs as (c & <- & Hc). specialize (Ne c Hc). destruct c; simpl; [congruence|lia].
Qed.

Lemma sizes_numbers g : simple_graph g ->
  exists num ids sizes sugg, connected_components_ids g = Done (num, ids) /\
    connected_components g = Done sizes /\ suggest_connections g = Done sugg /\
    length sizes = num /\ length sugg = num.
Proof.
  intros W. destruct (components_run W) as (sugg & ids & cur & Es & E & I).
  destruct (ids_spec W) as (num & ids' & E' & Hl & H1 & _). rewrite E in E'. injection E' as <- <-.
  unfold connected_components. rewrite E. cbn [bind].
  destruct (@count_ids cur ids) as (r & -> & Lr & _).
  { intros i Hi. apply In_nth_error in Hi as [v Hv]. pose proof (nth_error_lt _ _ Hv) as Hlt.
    destruct (H1 v) as (c & Hc & Hn); [lia|]. exists c. split; congruence. }
  cbn [bind]. exists cur, ids, (sort_desc r), sugg. splits; auto.
  - rewrite (Permutation_length (sort_desc_perm r)). auto.
  - apply (ci_cur I).
Qed.

Lemma connected_sizes g sizes : simple_graph g -> 0 < vertex_count g ->
  connected_components g = Done sizes -> (connected g <-> sizes = [vertex_count g]).
Proof.
  intros W H0 E. destruct (components_spec W) as (z & p & E' & _ & Ps & Pc & Ne & K).
  rewrite E' in E. injection E as <-.
  assert (N : NoDup (concat p)) by (eapply Permutation_NoDup; [apply Permutation_sym, Pc|apply seq_NoDup]).
  assert (R : forall v, v < vertex_count g -> In v (concat p)).
  { intros v Hv. apply (Permutation_in _ (Permutation_sym Pc)), in_seq. lia. }
  split.
  - intros Hc. destruct p as [|c p].
    { exfalso. apply (R 0 H0). }
    assert (c <> []) as Nc by (apply Ne; simpl; auto). destruct c as [|u c]; [congruence|].
    assert (Hu : u < vertex_count g).
    { assert (Hi : In u (concat ((u :: c) :: p))) by (simpl; auto). apply (Permutation_in _ Pc), in_seq in Hi. lia. }
    assert (All : forall v, v < vertex_count g -> In v (u :: c)).
    { intros v Hv. apply (K _ u v); simpl; auto. }
    assert (p = []).
    { destruct p as [|d p]; auto. exfalso. assert (d <> []) as Nd by (apply Ne; simpl; auto).
      destruct d as [|w d]; [congruence|].
      cbn [concat] in N. apply NoDup_app_iff in N as (_ & _ & Dj). apply (Dj w).
      - apply All. assert (Hi : In w (concat ((u :: c) :: (w :: d) :: p))).
        { cbn [concat]. apply in_app_iff. simpl. auto. }
        apply (Permutation_in _ Pc), in_seq in Hi. lia.
      - simpl. auto. }
    subst p. cbn [concat map] in *. rewrite app_nil_r in Pc.
    rewrite (Permutation_length Pc), seq_length in Ps.
    apply Permutation_sym, Permutation_length_1_inv in Ps. auto.
  - intros ->. apply Permutation_length_1_inv in Ps.
    destruct p as [|c [|d p]]; try discriminate. cbn [concat] in *. rewrite app_nil_r in *.
    intros u v Hu Hv. apply (K c u v); simpl; auto.
Qed.

(** ** Distances *)

Lemma longest_le_diameter g d i e : simple_graph g -> diameter g = Done (Some d) ->
  longest_shortest_path_from_index g i = Done (Some e) -> e <= d.
Proof.
  intros W Ed Ee. destruct (diameter_spec W) as [[_ K]|(_ & _ & d' & K & Hd)]; rewrite K in Ed; [discriminate|].
  injection Ed as ->.
  destruct (longest_spec i W) as [[_ K']|(Hi & e' & K' & He)]; rewrite K' in Ee; [discriminate|].
  injection Ee as ->. destruct He as [(v & Hv) _]. eapply (proj2 Hd); eauto.
Qed.

Lemma diameter_attained g d : simple_graph g -> diameter g = Done (Some d) ->
  exists i, i < vertex_count g /\ longest_shortest_path_from_index g i = Done (Some d).
Proof.
  intros W Ed. destruct (diameter_spec W) as [[_ K]|(_ & _ & d' & K & Hd)]; rewrite K in Ed; [discriminate|].
  injection Ed as ->. destruct Hd as [(u & v & Hu & Hd) Hm]. exists u. split; auto.
  destruct (longest_spec u W) as [[? _]|(_ & e' & K' & (w & Hw) & He)]; [lia|].
  rewrite K'. do 2 f_equal. apply Nat.le_antisymm; [apply (Hm u w)|apply (He v)]; auto.
Qed.

Lemma dist_exists g u v : simple_graph g -> u < vertex_count g -> joined (adj g) u v ->
  exists d, is_dist (adj g) u v d.
Proof.
  intros W Hu J.
  destruct (bfs_like_spec u W (@bfs_like_next _ _ _ g)) as (is & _ & _ & R & D & _).
  assert (Hv : In v (map (fun x => fst (fst x)) is)) by (apply R; auto).
  apply in_map_iff in Hv as ([[v' t] d] & <- & Hi). exists d. apply (D _ _ _ Hi).
Qed.

(** No distance exceeds twice the greatest distance from any one vertex. *)
Lemma diameter_twice g d i e : simple_graph g -> diameter g = Done (Some d) ->
  longest_shortest_path_from_index g i = Done (Some e) -> d <= 2 * e.
Proof.
  intros W Ed Ee. destruct (diameter_spec W) as [[_ K]|(_ & Cn & d' & K & Hd)]; rewrite K in Ed; [discriminate|].
  injection Ed as ->.
  destruct (longest_spec i W) as [[_ K']|(Hi & e' & K' & _ & He)]; rewrite K' in Ee; [discriminate|].
  injection Ee as ->. destruct Hd as [(u & v & Hu & Hd) _].
  assert (Hv : v < vertex_count g) by (eapply joined_lt; [apply W|apply Hu|exists d; apply Hd]).
  destruct (dist_exists W Hi (Cn i u Hi Hu)) as [a Ha].
  destruct (dist_exists W Hi (Cn i v Hi Hv)) as [b Hb].
  pose proof (He _ _ Ha). pose proof (He _ _ Hb).
  assert (d <= a + b); [|lia]. apply (proj2 Hd).
  eapply walk_trans; [|apply Hb]. apply walk_sym; [apply (sg_sym W)|]. apply Ha.
Qed.

Lemma dist_vertices g u d : simple_graph g -> u < vertex_count g ->
  forall v, is_dist (adj g) u v d ->
  exists l, length l = S d /\ NoDup l /\
    forall w, In w l -> w < vertex_count g /\ exists k, k <= d /\ is_dist (adj g) u w k.
Proof.
  intros W Hu. induction d as [|d IH]; intros v Hd.
  - exists [u]. split; auto. split; [constructor; [tauto|constructor]|].
    intros w [<-|[]]. split; auto. exists 0. split; auto. apply is_dist_self.
  - destruct Hd as [Wk Mn]. inversion Wk as [|w x k Ww Hwv]; subst.
    destruct (IH w) as (l & Ll & Nd & R).
    { split; auto. intros k Hk. assert (S d <= S k); [|lia]. apply Mn. econstructor; eauto. }
    exists (v :: l). split; [simpl; auto|]. split.
    + constructor; auto. intros Hv. destruct (R v Hv) as (_ & k & Hk & Hd & _). apply Mn in Hd. lia.
    + intros x [<-|Hx].
      * split; [apply (sg_range W _ _ Hwv)|]. exists (S d). split; auto. split; auto.
      * destruct (R x Hx) as (H1 & k & Hk & Hx'). split; auto. exists k. split; auto.
Qed.

Lemma longest_lt g i e : simple_graph g -> longest_shortest_path_from_index g i = Done (Some e) ->
  e < vertex_count g.
Proof.
  intros W E. destruct (longest_spec i W) as [[_ K]|(Hi & e' & K & (v & Hv) & _)]; rewrite K in E; [discriminate|].
  injection E as ->. destruct (dist_vertices W Hi Hv) as (l & Ll & Nd & R).
  assert (length l <= length (seq 0 (vertex_count g))).
  { apply NoDup_incl_length; auto. intros w Hw. apply in_seq. destruct (R w Hw). lia. }
  rewrite seq_length in *. lia.
Qed.

(** ** Cores *)

Lemma core_antitone g q q' v : q <= q' -> in_core g q' v -> in_core g q v.
Proof.
  intros H (S & D & Hv). exists S. split; auto. intros w Hw. destruct (D w Hw). split; auto. lia.
Qed.

Lemma in_core_dec g q v : simple_graph g -> 2 <= q -> in_core g q v \/ ~ in_core g q v.
Proof.
  intros W Hq.
  destruct (core_peel_spec W Hq (fuel := S (vertex_count g)) (pinv_start W Hq)) as (d & _ & Hl & Hd).
  { unfold measure. pose proof (count_length (live (map ac_degree (vertices g))) (seq 0 (vertex_count g))).
    rewrite seq_length in H. lia. }
  rewrite <- Hd. lia.
Qed.

Lemma list_of (P : nat -> Prop) n : (forall v, P v \/ ~ P v) -> exists l, forall v, In v l <-> v < n /\ P v.
Proof.
  intros Dec. induction n as [|n [l IH]].
  - exists []. simpl. intuition lia.
  - destruct (Dec n) as [Y|N]; [exists (n :: l)|exists l]; intros v; simpl; rewrite IH.
    + split; [intros [<-|[? ?]]|intros [? ?]]; auto. destruct (Nat.eq_dec v n); [auto|right; split; auto; lia].
    + split; [intros [? ?]|intros [? ?]]; auto. split; auto. destruct (Nat.eq_dec v n) as [->|]; [tauto|lia].
Qed.

Lemma reach_list (succ : nat -> list nat) n v : v < n -> (forall u w, In w (succ u) -> w < n) ->
  exists l, NoDup l /\ forall w, In w l <-> joined (fun a b => In b (succ a)) v w.
Proof.
  intros Hv R.
  edestruct (@adfs_trace _ Nat.eq_dec succ (seq 0 n)) with (seen := [v]) (stack := [v]) as (ys & Tr & _).
  { apply seq_NoDup. } { intros u w _ Hw. apply in_seq. specialize (R u w Hw). lia. }
  { intros y [<-|[]]. apply in_seq. lia. } { reflexivity. }
  pose proof (adfs_run Tr) as Hr. simpl in Hr. exists ys. split.
  - apply (run_NoDup Hr); [constructor; [tauto|constructor]|auto].
  - intros w. rewrite (run_start_reach Hr).
    split; intros [k Wk]; exists k; eapply walk_impl; try apply Wk; unfold edge_avoiding; simpl; tauto.
Qed.

Lemma core_component_exists g q v : simple_graph g -> 2 <= q -> in_core g q v ->
  exists comp, is_component (core_edge g q) v comp.
Proof.
  intros W Hq Cv.
  destruct (list_of (vertex_count g) (fun w => in_core_dec w W Hq)) as [K HK].
  set (succ := fun a => if in_dec Nat.eq_dec a K then filter (fun b => if in_dec Nat.eq_dec b K then true else false) (nbrs g a) else []).
  assert (Es : forall a b, In b (succ a) <-> core_edge g q a b).
  { intros a b. unfold succ, core_edge. destruct (in_dec Nat.eq_dec a K) as [Ha|Ha].
    - rewrite filter_In. destruct (in_dec Nat.eq_dec b K) as [Hb|Hb]; apply HK in Ha.
      + apply HK in Hb. tauto.
      + split; [intros [_ ?]; discriminate|]. intros (_ & _ & Cb). exfalso. apply Hb, HK. split; auto. eapply in_core_lt; eauto.
    - simpl. split; [tauto|]. intros (_ & Ca & _). apply Ha, HK. split; auto. eapply in_core_lt; eauto. }
  destruct (@reach_list succ (vertex_count g) v) as (l & N & H).
  - eapply in_core_lt; eauto.
  - intros u w Hw. apply Es in Hw as (_ & _ & Cw). eapply in_core_lt; eauto.
  - exists l. split; auto. intros w. rewrite H.
    split; intros [k Wk]; exists k; eapply walk_impl; try apply Wk; intros x y; apply Es.
Qed.

Lemma core_joined_in g q v w : in_core g q v -> joined (core_edge g q) v w -> in_core g q w.
Proof. intros Cv [k Wk]. inversion Wk as [|a b c _ (_ & _ & H)]; subst; auto. Qed.

Lemma q_core_le_n g q m : simple_graph g -> q_core g q = Done (Some m) -> m <= vertex_count g.
Proof.
  intros W E. destruct (q_core_spec q W) as [[_ K]|(_ & _ & k & K & _ & Hm)]; rewrite K in E; [discriminate|].
  injection E as ->. destruct Hm as [[-> _]|(v & comp & Cv & [N Hc] & <-)]; [lia|].
  rewrite <- (seq_length (vertex_count g) 0). apply NoDup_incl_length; auto.
  intros w Hw. apply Hc in Hw. apply in_seq. pose proof (in_core_lt (core_joined_in Cv Hw)). lia.
Qed.

Lemma q_core_large g q m : simple_graph g -> q_core g q = Done (Some m) -> m = 0 \/ q + 1 <= m.
Proof.
  intros W E. destruct (q_core_spec q W) as [[_ K]|(_ & _ & k & K & _ & Hm)]; rewrite K in E; [discriminate|].
  injection E as ->. destruct Hm as [[-> _]|(v & comp & Cv & [N Hc] & <-)]; [auto|]. right.
  destruct Cv as (S & D & Hv). pose proof (proj2 (D v Hv)) as Hq. unfold count in Hq.
  rewrite Nat.add_1_r. eapply Nat.le_trans; [apply le_n_S, Hq|].
  change (length (v :: filter S (nbrs g v)) <= length comp). apply NoDup_incl_length.
  - constructor; [|apply NoDup_filter, (sg_nodup W)]. rewrite filter_In. intros [H _]. apply (sg_irrefl W v H).
  - assert (Cv : in_core g q v) by (exists S; auto).
    intros w [<-|Hw]; apply Hc; [apply joined_refl|].
    apply filter_In in Hw as [Hw Sw]. apply (joined_step (joined_refl _ _)).
    split; auto. split; auto. exists S. auto.
Qed.

Lemma q_core_antitone g q q' m m' : simple_graph g -> q <= q' ->
  q_core g q = Done (Some m) -> q_core g q' = Done (Some m') -> m' <= m.
Proof.
  intros W Hq E E'.
  destruct (q_core_spec q W) as [[_ K]|(H2 & _ & k & K & Hle & _)]; rewrite K in E; [discriminate|].
  destruct (q_core_spec q' W) as [[_ K']|(H2' & _ & k' & K' & _ & Hm)]; rewrite K' in E'; [discriminate|].
  injection E as ->. injection E' as ->.
  destruct Hm as [[-> _]|(v & comp & Cv & [N Hc] & <-)]; [lia|].
  pose proof (core_antitone Hq Cv) as Cv'.
  destruct (core_component_exists W H2 Cv') as (big & Hb).
  eapply Nat.le_trans; [|apply (Hle v big Cv' Hb)].
  apply NoDup_incl_length; auto. intros w Hw. apply Hb. apply Hc in Hw. destruct Hw as [k Wk].
  exists k. eapply walk_impl; [|apply Wk]. intros x y (H & Cx & Cy).
  split; auto. split; eapply core_antitone; eauto.
Qed.

(** ** Transitivity *)

Lemma closed_le g : simple_graph g ->
  exists c t, Transitivity.transitivity g = Done (c, t) /\ c <= t.
Proof.
  intros W. rewrite (transitivity_spec W). do 2 eexists. split; [reflexivity|].
  apply count_le. intros [[a b] c] _. unfold closed_path. intros H. apply andb_true_iff in H. tauto.
Qed.
End Consistency.
