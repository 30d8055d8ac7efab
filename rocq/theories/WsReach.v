(** Every graph with the right number of edges is a possible outcome of the
    Watts-Strogatz [randomize]. *)
From Verif Require Import Base BaseFacts Sums Containers ContainerSpec ContainerFacts Graph GraphSpec GraphFacts GraphOps
  Rng RngFacts Runs Ws WsSpec WsFacts WsRun BaFacts.
From Coq Require Import QArith.
Set Implicit Arguments.
Unset Strict Implicit.
Local Open Scope nat_scope.

(** Draws that pick exactly the wanted edges. *)
Lemma pick_exact q (yes no : nat) (want : nat * original_edge -> bool) :
  accepts q yes = true -> accepts q no = false ->
  forall k (l rv : list (nat * original_edge)), k <= length l ->
  exists ds l' rv', (forall rest,
      foldM (ws_pick q) (map fst l, map snd l, map snd rv, ds ++ rest) (rev (seq 0 k))
      = Done (map fst l', map snd l', map snd (rv ++ rv'), rest)) /\
    Permutation l (l' ++ rv') /\
    Forall (fun x => oe_at_origin (snd x) = true /\ want x = true) rv' /\
    (forall x, In x l' -> oe_at_origin (snd x) = true -> want x = true -> In x (skipn k l)).
Proof.
  intros Hy Hn. induction k as [|k IH]; intros l rv Hk.
  - exists [], l, []. cbn [seq rev foldM]. rewrite !app_nil_r. splits; auto.
  - destruct (nth_error l k) as [e|] eqn:E; [|apply nth_error_None in E; lia].
    assert (Sk : skipn k l = e :: skipn (S k) l).
    { clear - E. revert k E. induction l as [|a l IH]; intros [|k] E; cbn in *; try discriminate.
      - congruence.
      - rewrite (IH _ E). destruct l; auto. }
    assert (V : vget (map snd l) k = Done (snd e)) by (unfold vget; rewrite nth_error_map, E; reflexivity).
    assert (St : forall s, foldM (ws_pick q) s (rev (seq 0 (S k)))
      = do s1 <- ws_pick q s k; foldM (ws_pick q) s1 (rev (seq 0 k))).
    { intros s. rewrite seq_S, rev_app_distr. reflexivity. }
    destruct (oe_at_origin (snd e)) eqn:O.
    + destruct (want e) eqn:We.
      * destruct (swap_remove_spec _ _ E) as (l1 & E1 & P1).
        destruct (IH l1 (rv ++ [e])) as (ds & l' & rv' & R & P' & F' & A').
        { apply Permutation_length in P1. cbn [length] in P1. lia. }
        exists (yes :: ds), l', (e :: rv'). splits.
        -- intros rest. rewrite St. unfold ws_pick at 1. rewrite V. cbn [bind]. rewrite O. unfold gen_f64.
           cbn [app draw bind]. fold (accepts q yes). rewrite Hy.
           rewrite (swap_remove_map fst _ _ E1), (swap_remove_map snd _ _ E1). cbn [bind].
           replace (map snd rv ++ [snd e]) with (map snd (rv ++ [e])) by (rewrite map_app; auto).
           rewrite R. rewrite <- app_assoc. reflexivity.
        -- rewrite P1, P'. apply Permutation_middle.
        -- constructor; auto.
        -- intros x Hx Ox Wx. apply (In_skipn_swap_remove E1). auto.
      * destruct (IH l rv) as (ds & l' & rv' & R & P' & F' & A'); [lia|].
        exists (no :: ds), l', rv'. splits; auto.
        -- intros rest. rewrite St. unfold ws_pick at 1. rewrite V. cbn [bind]. rewrite O. unfold gen_f64.
           cbn [app draw bind]. fold (accepts q no). rewrite Hn. cbn [bind]. apply R.
        -- intros x Hx Ox Wx. specialize (A' x Hx Ox Wx). rewrite Sk in A'. destruct A' as [<-|]; auto. congruence.
    + destruct (IH l rv) as (ds & l' & rv' & R & P' & F' & A'); [lia|].
      exists ds, l', rv'. splits; auto.
      * intros rest. rewrite St. unfold ws_pick at 1. rewrite V. cbn [bind]. rewrite O. cbn [bind]. apply R.
      * intros x Hx Ox Wx. specialize (A' x Hx Ox Wx). rewrite Sk in A'. destruct A' as [<-|]; auto. congruence.
Qed.

Lemma sum_lt_exists (f h : nat -> nat) n : sum_over f (seq 0 n) < sum_over h (seq 0 n) ->
  exists i, i < n /\ f i < h i.
Proof.
  induction n as [|n IH]; intros H; [cbn in H; lia|].
  rewrite !seq_S, !sum_over_app, !sum_over_one in H. cbn [plus] in H.
  destruct (Nat.lt_ge_cases (f n) (h n)); [exists n; lia|].
  destruct IH as (i & Hi & Hl); [lia|]. exists i. lia.
Qed.

Lemma sum_le_eq (f h : nat -> nat) n : (forall i, i < n -> f i <= h i) ->
  sum_over f (seq 0 n) = sum_over h (seq 0 n) -> forall i, i < n -> f i = h i.
Proof.
  induction n as [|n IH]; intros Le E i Hi; [lia|].
  rewrite !seq_S, !sum_over_app, !sum_over_one in E. cbn [plus] in E.
  assert (S : sum_over f (seq 0 n) <= sum_over h (seq 0 n)).
  { clear - Le. induction n as [|n IH]; [apply Nat.le_refl|].
    rewrite !seq_S, !sum_over_app, !sum_over_one. cbn [plus].
    specialize (IH ltac:(auto)). specialize (Le n ltac:(lia)). lia. }
  pose proof (Le n ltac:(lia)). destruct (Nat.eq_dec i n) as [->|]; [lia|].
  apply IH; auto; lia.
Qed.

Lemma edge_sum {T A} {C : AdjContainer T A} {L : AdjLaws C} (h : graph A) : simple_graph h ->
  2 * edge_count h = sum_over (fun i => length (nbrs h i)) (seq 0 (vertex_count h)).
Proof. intros W. rewrite <- (simple_degsum W). reflexivity. Qed.

Section Reach.
Context {T A : Type} {C : AdjContainer T A} {L : AdjLaws C}.
Implicit Types g : graph (ws_container T).
Variables (p : profile) (n : nat) (h : graph A).
Hypothesis Wh : simple_graph h.
Hypothesis Vh : vertex_count h = n.

Definition in_h (k : nat) (x : nat * original_edge) : bool := existsb (Nat.eqb (fst x)) (nbrs h k).

Lemma in_h_spec k x : in_h k x = true <-> adj h k (fst x).
Proof.
  unfold in_h, adj. rewrite existsb_exists. split.
  - intros (y & Hy & E). apply Nat.eqb_eq in E. congruence.
  - intros H. exists (fst x). split; auto. apply Nat.eqb_refl.
Qed.

(** As long as an edge is missing, one of [h] is. *)
Lemma target_exists ent P : good n ent P -> length P < 2 * edge_count h ->
  exists a b, adj h a b /\ ~ In b (map fst (ent a)).
Proof using Wh Vh.
  intros G Lt. rewrite <- (Permutation_length (gd_all G)) in Lt. rewrite (origs_length n ent) in Lt.
  rewrite (edge_sum Wh), Vh in Lt. destruct (sum_lt_exists Lt) as (a & Ha & La).
  destruct (@pick_new (nbrs h a) (map fst (ent a))) as (b & Hb & Nb).
  - apply (sg_nodup Wh).
  - rewrite map_length. auto.
  - exists a, b. auto.
Qed.

(** One edge moved to a chosen place. *)
Lemma add_one_exact g P o : shape n g -> good n (ws_entries g) P -> length P < 2 * edge_count h ->
  ~ adj h (oe_from o) (oe_to o) ->
  exists ds g', (forall rest, ws_add_random_edge p (g, ds ++ rest) o = Done (g', rest)) /\
    shape n g' /\ payloads g' = payloads g /\ edge_count g' = edge_count g /\
    good n (ws_entries g') (ends o :: flip (ends o) :: P) /\
    (forall k x, In x (ws_entries g' k) ->
       In x (ws_entries g k) \/ (oe_at_origin (snd x) = false /\ adj h k (fst x))).
Proof using Wh Vh.
  intros S G Lt No. destruct (target_exists G Lt) as (a & b & Hab & Nab).
  pose proof (adj_lt Wh Hab) as [Ha Hb]. rewrite Vh in Ha, Hb.
  assert (Ne : a <> b) by (intros <-; apply (sg_irrefl Wh a Hab)).
  assert (Ad : admissible n (ws_entries g) o a b).
  { unfold admissible. splits; auto; unfold ends; intros K; injection K as K1 K2; apply No; rewrite K1, K2; auto.
    apply (sg_sym Wh). auto. }
  destruct (add_edge_good p S G Ad) as (g1 & E1 & S1 & P1 & C1 & G1 & K1 & O1 & New).
  exists [a; b], g1. splits; auto.
  - intros rest. unfold ws_add_random_edge. assert (Hn : 0 < n) by lia.
    rewrite find_pair_eq; [|destruct S as (_ & -> & _); auto|lia].
    change ([a; b] ++ rest) with (a :: b :: rest).
    rewrite (find_pair_step _ _ _ _ S Hn). rewrite !Nat.mod_small by auto.
    rewrite (proj2 (skip_admissible _ _ Ha Hb) Ad). cbn [bind]. 
    destruct (_ || _); rewrite E1; reflexivity.
  - (* where the new entries are *)
    intros k [j oj] Hx. destruct (O1 _ _ Hx) as [|Of]; auto.
    destruct (in_dec Nat.eq_dec j (map fst (ws_entries g k))) as [I|I].
    + left. apply in_map_iff in I as ([j' o'] & Ej & I). cbn in Ej. subst j'.
      pose proof (K1 _ _ I) as I1.
      assert (oj = o'); [|congruence].
      pose proof (gd_nodup G1 k) as ND.
      clear - ND Hx I1. induction (ws_entries g1 k) as [|[c oc] t IH]; [destruct Hx|].
      cbn [map fst] in ND. apply NoDup_cons_iff in ND as [Nc ND].
      destruct Hx as [Hx|Hx], I1 as [I1|I1]; auto; try congruence; exfalso; apply Nc.
      * injection Hx as -> ->. apply (in_map fst) in I1. auto.
      * injection I1 as -> ->. apply (in_map fst) in Hx. auto.
    + right. split; auto. cbn [fst].
      assert (Q : (k = a /\ j = b) \/ (k = b /\ j = a)); [|destruct Q as [[-> ->]|[-> ->]]; auto; apply (sg_sym Wh); auto].
      assert (M : forall g', (if (a =? oe_to o) || (b =? oe_from o)
              then ws_create_edge p g b a (oe_swap o) else ws_create_edge p g a b o) = Done g' ->
              forall x, In x (ws_entries g' k) -> In x (ws_entries g k) \/ (k = a /\ fst x = b) \/ (k = b /\ fst x = a)).
      { clear - S Ha Hb Ne. intros g' E x Hx. destruct (_ || _).
        - destruct (create_edge_spec p (oe_swap o) S Hb Ha (not_eq_sym Ne)) as (g2 & E2 & _ & _ & _ & X).
          rewrite E in E2. injection E2 as <-. rewrite X in Hx.
          destruct (Nat.eqb_spec k b) as [->|]; [apply in_app_iff in Hx as [Hx|[<-|[]]]; auto|].
          destruct (Nat.eqb_spec k a) as [->|]; [apply in_app_iff in Hx as [Hx|[<-|[]]]; auto|auto].
        - destruct (create_edge_spec p o S Ha Hb Ne) as (g2 & E2 & _ & _ & _ & X).
          rewrite E in E2. injection E2 as <-. rewrite X in Hx.
          destruct (Nat.eqb_spec k a) as [->|]; [apply in_app_iff in Hx as [Hx|[<-|[]]]; auto|].
          destruct (Nat.eqb_spec k b) as [->|]; [apply in_app_iff in Hx as [Hx|[<-|[]]]; auto|auto]. }
      destruct (M _ E1 _ Hx) as [K|K]; auto. exfalso. apply I. apply (in_map fst) in K. auto.
Qed.

Lemma add_edges_exact l : forall g P, shape n g -> good n (ws_entries g) P ->
  length P + 2 * length l <= 2 * edge_count h ->
  (forall o, In o l -> ~ adj h (oe_from o) (oe_to o)) ->
  exists ds g', (forall rest, foldM (ws_add_random_edge p) (g, ds ++ rest) l = Done (g', rest)) /\
    shape n g' /\ payloads g' = payloads g /\ edge_count g' = edge_count g /\
    good n (ws_entries g') (map ends l ++ map (fun o => flip (ends o)) l ++ P) /\
    (forall k x, In x (ws_entries g' k) ->
       In x (ws_entries g k) \/ (oe_at_origin (snd x) = false /\ adj h k (fst x))).
Proof using Wh Vh.
  induction l as [|o l IH]; intros g P S G Le No.
  - exists [], g. cbn [foldM map app]. splits; auto.
  - cbn [length] in Le. destruct (@add_one_exact g P o S G) as (d1 & g1 & R1 & S1 & P1 & C1 & G1 & O1).
    { lia. } { apply No. simpl; auto. }
    destruct (IH g1 _ S1 G1) as (d2 & g2 & R2 & S2 & P2 & C2 & G2 & O2).
    { cbn [length]. lia. } { intros; apply No; simpl; auto. }
    exists (d1 ++ d2), g2. splits; auto; try congruence.
    + intros rest. cbn [foldM]. rewrite <- app_assoc, R1. cbn [bind]. apply R2.
    + apply (good_P G2). cbn [map]. rewrite <- !app_comm_cons.
      etransitivity; [|apply perm_skip; apply Permutation_middle].
      rewrite <- Permutation_middle. rewrite app_assoc, <- Permutation_middle, <- Permutation_middle.
      rewrite <- app_assoc. apply perm_skip. rewrite <- Permutation_middle. reflexivity.
    + intros k x H. destruct (O2 _ _ H) as [H'|]; auto.
Qed.

Variables (q : Q) (yes no : nat) (P : list (nat * nat)).
Hypothesis Hyes : accepts q yes = true.
Hypothesis Hno : accepts q no = false.
Hypothesis LP : length P = 2 * edge_count h.

(** The vertices below [i] have only edges of [h]. *)
Definition toward i g : Prop :=
  shape n g /\ good n (ws_entries g) P /\
  (forall k x, In x (ws_entries g k) -> oe_at_origin (snd x) = false -> adj h k (fst x)) /\
  (forall k x, k < i -> In x (ws_entries g k) -> adj h k (fst x)).

Lemma vertex_exact i g : toward i g -> i < n ->
  exists ds g', (forall rest, ws_randomize_vertex p q (g, ds ++ rest) i = Done (g', rest)) /\
    toward (S i) g' /\ payloads g' = payloads g /\ edge_count g' = edge_count g.
Proof using Wh Vh Hyes Hno LP.
  intros (Sh & G & Mv & Bl) Hi. destruct (container_ws Sh Hi) as (c & Hc & Ec & Lc).
  assert (E1 : wc_to c = map fst (ws_entries g i)) by (rewrite Ec, map_fst_combine; auto).
  assert (E2 : wc_original c = map snd (ws_entries g i)) by (rewrite Ec, map_snd_combine; auto).
  destruct (pick_exact (fun x => negb (in_h i x)) Hyes Hno [] (le_n (length (ws_entries g i))))
    as (d1 & l' & rv & R1 & Pl & Fr & Al).
  assert (Fr1 : Forall (fun x => oe_at_origin (snd x) = true) rv).
  { eapply Forall_impl; [|exact Fr]. cbn. tauto. }
  destruct (vertex_removed Sh G Hi Hc Pl Fr1) as (g2 & Er & S2 & P2 & C2 & G2 & Pm & Ei & Sub & Keep & KeepM).
  pose proof (Permutation_length Pm) as Lm. rewrite !app_length, !map_length in Lm.
  destruct (@add_edges_exact (map snd rv) g2 _ S2 G2) as (d2 & g3 & R2 & S3 & P3 & C3 & G3 & O3).
  { rewrite map_length. lia. }
  { intros o Ho. apply in_map_iff in Ho as ([j o'] & <- & Hx). cbn [snd].
    rewrite Forall_forall in Fr. destruct (Fr _ Hx) as [Ox Wx]. cbn [snd] in Ox.
    apply negb_true_iff, not_true_iff_false in Wx. rewrite in_h_spec in Wx. cbn [fst] in Wx.
    assert (H : In (j, o') (ws_entries g i)) by (rewrite Pl; apply in_app_iff; auto).
    pose proof (gd_origin G H) as Og. unfold og, ends in Og. rewrite Ox in Og. injection Og as -> ->. auto. }
  exists (d1 ++ d2), g3. splits; try congruence.
  - intros rest. rewrite (vertex_unfold p q _ Hc Lc). rewrite E1, E2, map_length. rewrite <- app_assoc.
    specialize (R1 (d2 ++ rest)). cbn [map app] in R1. rewrite R1. cbn [bind].
    rewrite Er. cbn [bind]. apply R2.
  - unfold toward. splits; auto.
    + apply (good_P G3). rewrite Pm. reflexivity.
    + intros k x H O. destruct (O3 _ _ H) as [K|[_ K]]; auto.
    + intros k x Hk H. destruct (O3 _ _ H) as [K|[_ K]]; auto.
      destruct (Nat.eq_dec k i) as [->|Nk]; [|apply Bl; auto; lia].
      destruct (oe_at_origin (snd x)) eqn:O; [|auto].
      destruct (in_h i x) eqn:Ih; [apply in_h_spec; auto|].
      rewrite Ei in K. exfalso. assert (K2 : In x (skipn (length (ws_entries g i)) (ws_entries g i))).
      { apply Al; auto. rewrite Ih. auto. }
      rewrite skipn_all in K2. destruct K2.
Qed.

Lemma loop_exact k : forall g, k <= n -> toward 0 g ->
  exists ds g', (forall rest, foldM (ws_randomize_vertex p q) (g, ds ++ rest) (seq 0 k) = Done (g', rest)) /\
    toward k g' /\ payloads g' = payloads g /\ edge_count g' = edge_count g.
Proof using Wh Vh Hyes Hno LP.
  induction k as [|k IH]; intros g Hk T0.
  - exists [], g. splits; auto.
  - destruct (IH g) as (d1 & g1 & R1 & T1 & P1 & C1); [lia|auto|].
    destruct (@vertex_exact k g1 T1) as (d2 & g2 & R2 & T2 & P2 & C2); [lia|].
    exists (d1 ++ d2), g2. splits; auto; try congruence.
    intros rest. rewrite seq_S, foldM_app, <- app_assoc, R1. cbn [bind plus foldM]. rewrite R2. reflexivity.
Qed.

Lemma toward_end g : toward n g -> forall i j, adj g i j <-> adj h i j.
Proof using Wh Vh LP.
  intros (Sh & G & _ & Bl).
  assert (Sub : forall i, incl (map fst (ws_entries g i)) (nbrs h i)).
  { intros i j Hj. apply in_map_iff in Hj as (x & <- & Hx).
    destruct (Nat.lt_ge_cases i n) as [Hi|Hi]; [apply (Bl i x Hi Hx)|].
    rewrite (gd_out G Hi) in Hx. destruct Hx. }
  assert (Le : forall i, i < n -> length (ws_entries g i) <= length (nbrs h i)).
  { intros i _. rewrite <- (map_length fst). apply NoDup_incl_length; [apply G|auto]. }
  assert (Eq : forall i, i < n -> length (ws_entries g i) = length (nbrs h i)).
  { apply sum_le_eq; auto. rewrite <- origs_length, (Permutation_length (gd_all G)), LP, (edge_sum Wh), Vh. auto. }
  intros i j. unfold adj. rewrite <- (map_fst_entries i Sh).
  destruct (Nat.lt_ge_cases i n) as [Hi|Hi].
  - split; [apply Sub|]. apply NoDup_length_incl; [apply G| |apply Sub].
    rewrite map_length, Eq; auto.
  - rewrite (gd_out G Hi). rewrite nbrs_out; [tauto|]. rewrite (sg_len Wh). lia.
Qed.

End Reach.

Lemma randomize_reach {T A} {C : AdjContainer T A} {L : AdjLaws C} p (e : ws_ensemble T) n d (h : graph A) yes no :
  simple_graph (ws_graph e) -> vertex_count (ws_graph e) = n -> ws_distance e = d -> 2 * d < n ->
  accepts (ws_rewire_prob e) yes = true -> accepts (ws_rewire_prob e) no = false ->
  simple_graph h -> vertex_count h = n -> edge_count h = n * d ->
  exists ds e', (forall rest, ws_randomize p e (ds ++ rest) = Done (e', rest)) /\
    ws_ok n d (ws_graph e') /\ payloads (ws_graph e') = payloads (ws_graph e) /\
    ws_rewire_prob e' = ws_rewire_prob e /\ ws_distance e' = d /\
    forall i j, adj (ws_graph e') i j <-> adj h i j.
Proof.
  intros W V D Hd Hy Hn Wh Vh Eh. rewrite <- V in Hd. destruct (ws_ring p W Hd) as (g & E & S & P & C0 & G & Or & _).
  rewrite V in *.
  assert (LP : length (ring_both n d) = 2 * edge_count h) by (rewrite ring_both_length, Eh; lia).
  destruct (@loop_exact T A C L p n h Wh Vh _ _ _ _ Hy Hn LP n g (le_n _)) as (ds & g' & R & Tw & P' & C').
  { unfold toward. splits; auto.
    - intros k x Hx Ox. rewrite (Or _ _ Hx) in Ox. discriminate.
    - intros k x Hk. lia. }
  exists ds, (mk_wse g' (ws_rewire_prob e) d). cbn [ws_graph ws_rewire_prob ws_distance]. splits; auto; try congruence.
  - intros rest. unfold ws_randomize. rewrite D, E. cbn [bind unwrap].
    pose proof S as (_ & -> & _). rewrite R. reflexivity.
  - apply good_ws_ok; auto; [apply Tw|congruence|apply Tw].
  - apply (toward_end Wh Vh LP Tw).
Qed.
