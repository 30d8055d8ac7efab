(** Drawing Watts-Strogatz graphs ends with probability one. *)
From Verif Require Import Base BaseFacts Containers ContainerSpec ContainerFacts Graph GraphSpec
  Sums GraphFacts GraphOps GraphBuild Rng RngFacts Runs EnsembleFacts Ws WsSpec WsFacts WsRun
  SurelySpec SurelyFacts.
Set Implicit Arguments.
Unset Strict Implicit.
From Coq Require Import QArith.
Local Open Scope nat_scope.

Local Ltac lows := repeat first [apply Forall_cons; [lia|]|apply Forall_nil].

Section Model.
Context {T : Type}.
Implicit Types g : graph (ws_container T).
Variable h : nat.

Lemma find_pair_swift n g o : shape n g -> 0 < n -> n <= h ->
  (exists a b, admissible n (ws_entries g) o a b) ->
  swift h 3 (fun ab => admissible n (ws_entries g) o (fst ab) (snd ab)) (find_pair_list g o).
Proof.
  intros S Hn Hh (x & y & Hxy).
  apply (@swift_post h (nat * nat) False (fun _ => True) _ (find_pair_list g o)); [apply find_pair_runs; auto; tauto|].
  pose proof Hxy as (Hx & Hy & _).
  assert (More : forall rs, find_pair_list g o (x :: y :: rs) = Done (x, y, rs)).
  { intros rs. rewrite (find_pair_step _ _ _ _ S Hn), !Nat.mod_small by auto.
    rewrite (proj2 (skip_admissible (n := n) (ws_entries g) o Hx Hy) Hxy). auto. }
  intros rs. remember (length rs) as k eqn:Ek. revert rs Ek.
  induction k as [k IH] using lt_wf_ind. intros rs Ek.
  destruct rs as [|a [|b rs]].
  - exists [x; y], (x, y). splits; auto. lows.
  - cbn [find_pair_list].
    destruct (skip_pair (ws_entries g) o (a mod n) (0 mod n)) eqn:Q.
    + exists [0; x; y], (x, y). splits; auto; [lows|]. intros rest.
      cbn [app]. rewrite (find_pair_step _ _ _ _ S Hn), Q. apply More.
    + exists [0], (a mod n, 0 mod n). splits; auto; [lows|].
      intros rest. cbn [app]. rewrite (find_pair_step _ _ _ _ S Hn), Q. reflexivity.
  - assert (Hl : length rs < k) by (cbn [length] in Ek; lia). specialize (IH _ Hl rs eq_refl).
    rewrite (find_pair_step _ _ _ _ S Hn).
    destruct (skip_pair (ws_entries g) o (a mod n) (b mod n)) eqn:Q.
    + destruct (find_pair_list g o rs) as [[z rs']| | |]; auto.
      * destruct IH as (_ & u & Eu & Hu). split; auto. exists (a :: b :: u). split.
        -- cbn [app]. congruence.
        -- intros more. cbn [app]. rewrite (find_pair_step _ _ _ _ S Hn), Q. auto.
      * destruct IH as (more & z & H1 & H2 & H3 & _). exists more, z. splits; auto.
        intros rest. cbn [app]. rewrite (find_pair_step _ _ _ _ S Hn), Q. auto.
    + split; auto. exists [a; b]. split; auto. intros more. cbn [app].
      rewrite (find_pair_step _ _ _ _ S Hn), Q. reflexivity.
Qed.

Lemma add_edges_swift p n l : forall g P,
  shape n g -> 0 < n -> n <= h -> good n (ws_entries g) P -> length P + 2 * length l < n * (n - 1) ->
  swift h (length l * 3) (fun _ => True) (fun rs => foldM (ws_add_random_edge p) (g, rs) l).
Proof.
  induction l as [|o l IH]; intros g P S Hn Hh G Live.
  - apply swift_ret. auto.
  - apply swift_ext with (m := fun rs => do ' (ab, rs1) <- find_pair_list g o rs;
      (fun ab rs1 => do g' <- (if (fst ab =? oe_to o) || (snd ab =? oe_from o)
            then ws_create_edge p g (snd ab) (fst ab) (oe_swap o)
            else ws_create_edge p g (fst ab) (snd ab) o);
         foldM (ws_add_random_edge p) (g', rs1) l) ab rs1).
    { intros rs. cbn [foldM]. unfold ws_add_random_edge at 2.
      rewrite find_pair_eq; [|destruct S as (_ & -> & _); auto|lia].
      destruct (find_pair_list g o rs) as [[[a b] rs1]| | |]; cbn [bind]; auto. cbn [fst snd].
      destruct (_ || _); [destruct (ws_create_edge p g b a _)|destruct (ws_create_edge p g a b o)]; reflexivity. }
    apply (@swift_bind h (nat * nat) _ (fun ab => admissible n (ws_entries g) o (fst ab) (snd ab)) _
      (find_pair_list g o) _ 3 (length l * 3)).
    { apply find_pair_swift; auto. apply (admissible_exists o G). cbn [length] in Live. lia. }
    intros [a b] Ad. cbn [fst snd] in *.
    destruct (add_edge_good p S G Ad) as (g1 & E1 & S1 & P1 & C1 & G1 & K1 & O1 & _).
    eapply swift_pure; [exact E1|]. apply (IH g1 _ S1 Hn Hh G1). cbn [length] in *. lia.
Qed.

Lemma pick_swift q k : 0 < h -> forall (l rv : list (nat * original_edge)), k <= length l ->
  swift h k (fun _ => True)
    (fun rs => foldM (ws_pick q) (map fst l, map snd l, map snd rv, rs) (rev (seq 0 k))).
Proof.
  intros Hh. induction k as [|k IH]; intros l rv Hk; [apply swift_ret; auto|].
  destruct (nth_error l k) as [e|] eqn:E; [|apply nth_error_None in E; lia].
  rewrite seq_S, rev_app_distr. cbn [plus rev app foldM].
  assert (V : vget (map snd l) k = Done (snd e)) by (unfold vget; rewrite nth_error_map, E; reflexivity).
  destruct (oe_at_origin (snd e)) eqn:O.
  - apply swift_ext with (m := fun rs => do ' (r, rs1) <- draw rs;
      (fun r rs1 => do s <- (if accepts q r then
          do orig' <- swap_remove (map snd l) k;
          do to' <- swap_remove (map fst l) k;
          Done (to', orig', map snd rv ++ [snd e])
        else Done (map fst l, map snd l, map snd rv));
        foldM (ws_pick q) (s, rs1) (rev (seq 0 k))) r rs1).
    { intros rs. unfold ws_pick at 2. rewrite V. cbn [bind]. rewrite O. unfold gen_f64.
      destruct rs as [|r rs]; cbn [draw bind]; auto. fold (accepts q r).
      destruct (accepts q r); cbn [bind]; auto.
      destruct (swap_remove (map snd l) k); cbn [bind]; auto.
      destruct (swap_remove (map fst l) k); cbn [bind]; auto. }
    apply (@swift_bind h nat _ (fun _ => True) _ draw _ 1 k); [apply swift_draw; auto|].
    intros r _. destruct (accepts q r) eqn:Ac.
    * destruct (swap_remove_spec _ _ E) as (l1 & E1 & P1).
      rewrite (swap_remove_map fst _ _ E1), (swap_remove_map snd _ _ E1). cbn [bind].
      replace (map snd rv ++ [snd e]) with (map snd (rv ++ [e])) by (rewrite map_app; auto).
      apply (IH l1 (rv ++ [e])). apply Permutation_length in P1. cbn [length] in P1. lia.
    * cbn [bind]. apply (IH l rv). lia.
  - apply swift_ext with (m := fun rs => foldM (ws_pick q) (map fst l, map snd l, map snd rv, rs) (rev (seq 0 k))).
    { intros rs. unfold ws_pick at 2. rewrite V. cbn [bind]. rewrite O. reflexivity. }
    eapply swift_weaken; [| |apply (IH l rv); lia]; auto.
Qed.

Lemma vertex_swift p q n g P i :
  shape n g -> good n (ws_entries g) P -> i < n -> n <= h -> length P < n * (n - 1) ->
  swift h (4 * n) (vertex_post n q g P i) (fun rs => ws_randomize_vertex p q (g, rs) i).
Proof.
  intros S G Hi Hh Live.
  apply (@swift_post h _ False (fun _ => True) _ (fun rs => ws_randomize_vertex p q (g, rs) i));
    [apply vertex_runs; auto; tauto|].
  destruct (container_ws S Hi) as (c & Hc & Ec & Lc).
  apply swift_ext with (m := fun rs =>
    do ' (s, rs1) <- foldM (ws_pick q) (wc_to c, wc_original c, [], rs) (rev (seq 0 (length (wc_original c))));
    (fun s rs1 => let '(to, orig, rewire) := s in
      do g2 <- foldM ws_remove_other (ws_with g (upd (vertices g) i (mk_wc (wc_id c) (wc_node c) to orig))) rewire;
      foldM (ws_add_random_edge p) (g2, rs1) rewire) s rs1).
  { intros rs. rewrite (vertex_unfold p q rs Hc Lc). reflexivity. }
  assert (E1 : wc_to c = map fst (ws_entries g i)) by (rewrite Ec, map_fst_combine; auto).
  assert (E2 : wc_original c = map snd (ws_entries g i)) by (rewrite Ec, map_snd_combine; auto).
  pose proof (good_short G Hi) as Sh.
  replace (4 * n) with (n + 3 * n) by lia.
  eapply (@swift_bind h _ _ _ _ (fun rs => foldM (ws_pick q) (wc_to c, wc_original c, [], rs) (rev (seq 0 (length (wc_original c)))))).
  { rewrite E1, E2, map_length. change (@nil original_edge) with (map snd (@nil (nat * original_edge))).
    eapply swift_post; [apply (pick_runs False q (l := ws_entries g i) [] (le_n _))|].
    eapply swift_weaken; [intros x Hx; exact Hx| |apply pick_swift; [lia|auto]]. lia. }
  cbv beta. intros s (l' & rv & -> & Pl & Fr & Al). cbn [app].
  destruct (vertex_removed S G Hi Hc Pl Fr) as (g2 & Er & S2 & P2 & C2 & G2 & Pm & Ei & Sub & Keep & KeepM).
  eapply swift_pure; [exact Er|].
  pose proof (Permutation_length Pm) as Lm. rewrite !app_length, !map_length in Lm.
  eapply swift_weaken; [| |eapply (@add_edges_swift p n (map snd rv) g2 (origs n (ws_entries g2)) S2); auto]; auto.
  - rewrite map_length. apply Permutation_length in Pl. rewrite app_length in Pl. lia.
  - lia.
  - rewrite map_length. lia.
Qed.

Lemma ws_swift p (e : ws_ensemble T) n d :
  simple_graph (ws_graph e) -> vertex_count (ws_graph e) = n -> ws_distance e = d -> 2 * d + 1 < n -> n <= h ->
  swift h (n * (4 * n)) (fun _ => True) (ws_randomize p e).
Proof.
  intros W V D Hd Hh. assert (Hd' : 2 * d < n) by lia. rewrite <- V in Hd'.
  destruct (ws_ring p W Hd') as (g & E & S & P & C & G & Or & Len).
  rewrite V in *.
  apply swift_ext with (m := fun rs =>
    do ' (g', rs') <- foldM (ws_randomize_vertex p (ws_rewire_prob e)) (g, rs) (seq 0 n);
    Done (mk_wse g' (ws_rewire_prob e) d, rs')).
  { intros rs. unfold ws_randomize. rewrite D, E. cbn [bind unwrap].
    pose proof S as (_ & -> & _). reflexivity. }
  rewrite <- (Nat.add_0_r (n * (4 * n))).
  apply (@swift_bind h _ _ (loop_post n g (ring_both n d)) _
    (fun rs => foldM (ws_randomize_vertex p (ws_rewire_prob e)) (g, rs) (seq 0 n))
    (fun g' rs' => Done (mk_wse g' (ws_rewire_prob e) d, rs'))).
  - replace (n * (4 * n)) with (length (seq 0 n) * (4 * n)) by (rewrite seq_length; auto).
    apply swift_foldM.
    + intros g1 i (S1 & P1 & C1 & G1 & K1) Hi. apply in_seq in Hi.
      eapply swift_weaken; [|apply le_n|apply (@vertex_swift p (ws_rewire_prob e) n g1 (ring_both n d) i S1 G1); auto].
      * intros g2 (S2 & P2 & C2 & G2 & _ & _ & K2 & _). unfold loop_post. splits; auto; congruence.
      * lia.
      * rewrite ring_both_length by lia. nia.
    + unfold loop_post. splits; auto.
  - intros g' _. apply swift_ret. auto.
Qed.
(** ** The smallest ring *)

(** A vertex of the complete graph that gives up one of its edges waits for ever. *)
Lemma vertex_trap p q n g P i r u :
  shape n g -> good n (ws_entries g) P -> length P = n * (n - 1) -> i < n -> 1 < n ->
  (forall k x, In x (ws_entries g k) -> oe_at_origin (snd x) = true) ->
  accepts q r = true -> Forall (fun r => accepts q r = false) u -> S (length u) = length (ws_entries g i) ->
  forall rs, ws_randomize_vertex p q (g, r :: u ++ rs) i = NoFuel.
Proof.
  intros S G L Hi Hn Or Ar Fu Lu rs. destruct (container_ws S Hi) as (c & Hc & Ec & Lc).
  rewrite (vertex_unfold p q _ Hc Lc).
  assert (E1 : wc_to c = map fst (ws_entries g i)) by (rewrite Ec, map_fst_combine; auto).
  assert (E2 : wc_original c = map snd (ws_entries g i)) by (rewrite Ec, map_snd_combine; auto).
  assert (Sp : exists l' x, ws_entries g i = l' ++ [x]).
  { destruct (exists_last (l := ws_entries g i)) as (l' & x & E); eauto. intros E. rewrite E in Lu. discriminate Lu. }
  destruct Sp as (l' & [j o] & El). rewrite El, app_length in Lu. cbn [length] in Lu.
  assert (Oo : oe_at_origin o = true) by (apply (Or i (j, o)); rewrite El; apply in_app_iff; simpl; auto).
  rewrite E1, E2, El, !map_app, app_length, map_length. cbn [map length fst snd].
  rewrite seq_app, rev_app_distr. cbn [plus seq rev app foldM]. unfold ws_pick at 1, vget.
  rewrite nth_error_app2, map_length, Nat.sub_diag by (rewrite map_length; lia). cbn [nth_error bind].
  rewrite Oo. cbn [gen_f64 draw bind]. fold (accepts q r). rewrite Ar.
  assert (Sw : forall X (l : list X) x k, k = length l -> swap_remove (l ++ [x]) k = Done l).
  { clear. intros X l x k ->. rewrite swap_remove_snoc, Nat.eqb_refl by lia. auto. }
  rewrite (Sw _ (map snd l') o) by (rewrite map_length; auto). cbn [bind].
  rewrite (Sw _ (map fst l') j) by (rewrite map_length; auto). cbn [bind app].
  assert (Al : filter oe_at_origin (map snd l') = map snd l').
  { assert (F : forall l, (forall o, In o l -> oe_at_origin o = true) -> filter oe_at_origin l = l).
    { clear. induction l as [|a l IH]; intros H; auto. cbn. rewrite (H a), IH; simpl; auto. intros. apply H. simpl; auto. }
    apply F. intros o' H. apply in_map_iff in H as (x & <- & H). apply (Or i). rewrite El. apply in_app_iff. auto. }
  rewrite pick_reject; auto.
  2:{ rewrite map_length. lia. }
  2:{ rewrite <- (map_length snd l'), firstn_all, Al, map_length. lia. }
  cbn [bind].
  destruct (@vertex_removed T n g P i l' [(j, o)] c S G Hi Hc) as (g2 & Er & S2 & P2 & C2 & G2 & Pm & Ei & Sub & Keep & KeepM).
  { rewrite El. auto. }
  { constructor; auto. }
  cbn [map snd] in Er. rewrite Er. cbn [bind foldM]. unfold ws_add_random_edge at 1.
  rewrite find_pair_eq; [|destruct S2 as (_ & -> & _); lia|lia].
  rewrite (find_pair_stuck S2); [reflexivity|lia|].
  assert (Hin : In (j, o) (ws_entries g i)) by (rewrite El; apply in_app_iff; simpl; auto).
  assert (Oe : ends o = (i, j)).
  { pose proof (gd_origin G Hin) as Og. unfold og in Og. rewrite Oo in Og. auto. }
  intros a b (Ha & Hb & N & N1 & N2 & Na). apply Na. rewrite Oe in N1, N2.
  destruct (good_complete G L Ha Hb N) as [ob Hob].
  assert (K : forall a b ob, In (b, ob) (ws_entries g a) -> a = i -> b <> j -> In (b, ob) (ws_entries g2 a)).
  { clear - El Ei. intros a b ob H -> Nb. rewrite Ei. rewrite El in H.
    apply in_app_iff in H as [H|[H|[]]]; auto. congruence. }
  destruct (Nat.eq_dec a i) as [->|Nai].
  - apply (in_map fst) with (x := (b, ob)). apply K; auto; congruence.
  - destruct (Nat.eq_dec b i) as [->|Nbi].
    + pose proof (gd_partner G Hob) as Hp. apply K in Hp; auto; try congruence.
      apply (gd_partner G2) in Hp. apply (in_map fst) in Hp. auto.
    + apply (in_map fst) with (x := (b, ob)). apply Keep; auto.
Qed.

(** Some draws never lead to a graph. *)
Lemma ring_trap p (e : ws_ensemble T) n d :
  simple_graph (ws_graph e) -> vertex_count (ws_graph e) = n -> ws_distance e = d ->
  n = 2 * d + 1 -> 1 <= d -> (0 <= ws_rewire_prob e)%Q -> (9007199254740992 <= Z.of_nat h)%Z ->
  exists u, Forall (fun r => r < h) u /\ forall rs, ws_randomize p e (u ++ rs) = NoFuel.
Proof.
  intros W V D Hn Hd Hq Hh. set (q := ws_rewire_prob e) in *.
  assert (Top : exists r, Z.of_nat r = 9007199254740991%Z).
  { exists (Z.to_nat 9007199254740991). apply Z2Nat.id. lia. }
  destruct Top as [r Hr]. destruct (accepts q r) eqn:Ar.
  - exists []. split; auto. intros rs. cbn [app]. apply (@randomize_stuck T p e n d); auto. fold q.
    intros k. unfold accepts in *. apply Qle_bool_iff in Ar. apply Qle_bool_iff.
    eapply Qle_trans; [|exact Ar]. unfold unit_float, Qle. cbn [Qnum Qden]. rewrite Hr.
    pose proof (Z.mod_pos_bound (Z.of_nat k) 9007199254740992 ltac:(lia)).
    replace (9007199254740991 mod 9007199254740992)%Z with 9007199254740991%Z by reflexivity. lia.
  - exists (0 :: repeat r (2 * d - 1)). split.
    { constructor; [lia|]. apply Forall_forall. intros y Hy. apply repeat_spec in Hy. lia. }
    intros rs. assert (H : 2 * d < vertex_count (ws_graph e)) by lia.
    destruct (ws_ring p W H) as (g & E & S & P & C & G & Or & Len). rewrite V in *.
    unfold ws_randomize. rewrite D, E. cbn [bind unwrap]. pose proof S as (_ & -> & _).
    replace (seq 0 n) with (0 :: seq 1 (n - 1)).
    2:{ destruct n; [lia|]. cbn. rewrite Nat.sub_0_r. auto. }
    cbn [foldM app]. fold q.
    assert (L : length (ring_both n d) = n * (n - 1)) by (rewrite ring_both_length by lia; nia).
    rewrite (@vertex_trap p q n g (ring_both n d) 0 0 (repeat r (2 * d - 1))); auto; try lia.
    + unfold accepts, unit_float. apply Qle_bool_iff. eapply Qle_trans; [|exact Hq]. cbn. unfold Qle. cbn. lia.
    + apply Forall_forall. intros y Hy. apply repeat_spec in Hy. subst. auto.
    + rewrite repeat_length, Len by lia. lia.
Qed.

End Model.
