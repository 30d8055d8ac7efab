(** Proofs about [ErEnsembleC]. *)
From Verif Require Import Base BaseFacts Sums Containers ContainerSpec ContainerFacts Graph GraphSpec GraphFacts GraphOps Search Traversal TraversalSpec TraversalFacts Components ComponentFacts Rng RngFacts Markov EnsembleFacts ErC ErCSpec.
From Coq Require Import QArith Sorted.
Set Implicit Arguments.
Unset Strict Implicit.
Local Open Scope nat_scope.

Section Facts.
Context {T : Type}.
Implicit Types g : graph (node_container T).
Implicit Types e h : er_c T.

(** ** The unchecked insertion *)

Lemma push_both_add p g i j :
  simple_graph g -> i < vertex_count g -> j < vertex_count g -> i <> j -> ~ adj g i j ->
  exists g', push_both g i j = Done g' /\ add_edge p g i j = Done (Ok tt, g').
Proof.
  intros W Hi Hj N H.
  destruct (container_lt W Hi) as (ci & Ei & _ & Ii & Ni).
  destruct (container_lt W Hj) as (cj & Ej & _ & Ij & Nj).
  cbn [ac_id ac_neighbors NodeContainer] in *.
  eexists. split.
  - unfold push_both, adj_push, vget. rewrite Ei. cbn [bind vertices next_id edge_count].
    rewrite nth_error_upd_other, Ej by auto. cbn [bind]. reflexivity.
  - unfold add_edge. rewrite (get_2_mut_ok p W Hi Hj N Ei Ej). cbn [bind].
    cbn [ac_push NodeContainer]. unfold nc_push.
    assert (contains (nc_adj ci) (nc_id cj) = false) as ->.
    { apply not_true_iff_false. intros X. apply contains_In in X. apply H.
      unfold adj. rewrite <- Ni, <- Ij. auto. }
    cbn [bind]. unfold put_2. rewrite Ii, Ij. reflexivity.
Qed.

(** ** The visited pairs *)

Lemma er_pairs_In n i j : In (i, j) (er_pairs n) <-> i < j /\ j < n.
Proof.
  unfold er_pairs. rewrite in_flat_map. split.
  - intros (x & Hx & H). apply in_map_iff in H as (y & E & Hy). injection E as -> ->.
    apply in_seq in Hx, Hy. lia.
  - intros H. exists i. split; [apply in_seq; lia|]. apply in_map_iff. exists j.
    split; auto. apply in_seq. lia.
Qed.

Lemma er_pairs_NoDup n : NoDup (er_pairs n).
Proof.
  unfold er_pairs. generalize (seq_NoDup n 0). generalize (seq 0 n) as l.
  induction l as [|i l IH]; intros N; cbn [flat_map]; [constructor|].
  apply NoDup_cons_iff in N as [Ni N]. apply NoDup_app_iff. splits; auto.
  - apply FinFun.Injective_map_NoDup; [intros x y; congruence|]. apply seq_NoDup.
  - intros [a b] H1 H2. apply in_map_iff in H1 as (x & E & _).
    apply in_flat_map in H2 as (y & Hy & H2). apply in_map_iff in H2 as (z & E' & _). congruence.
Qed.

(** ** [randomize] *)

Definition accepted (prob : Q) (r : nat) : bool := Qle_bool (unit_float r) prob.

Definition erc_loop (prob : Q) := fun (s : graph (node_container T) * rng) (ij : nat * nat) =>
      let '(g, rs) := s in
      do ' (x, rs1) <- gen_f64 rs;
      if Qle_bool x prob
      then do g1 <- push_both g (fst ij) (snd ij); Done (g1, rs1)
      else Done (g, rs1).

Lemma erc_loop_cons prob g r rs i j :
  erc_loop prob (g, r :: rs) (i, j) =
  if accepted prob r then do g1 <- push_both g i j; Done (g1, rs) else Done (g, rs).
Proof. reflexivity. Qed.

Lemma erc_loop_spec prob l : forall g rs,
  simple_graph g -> (forall i j, In (i, j) l -> i < j /\ j < vertex_count g /\ ~ adj g i j) ->
  NoDup l -> length l <= length rs ->
  exists g', foldM (erc_loop prob) (g, rs) l = Done (g', skipn (length l) rs) /\
    simple_graph g' /\ vertex_count g' = vertex_count g /\ payloads g' = payloads g /\
    edge_count g' = edge_count g + count (accepted prob) (firstn (length l) rs) /\
    (forall x y, adj g' x y <-> adj g x y \/
       exists k i j r, nth_error l k = Some (i, j) /\ nth_error rs k = Some r /\
         accepted prob r = true /\ is_pair i j x y).
Proof.
  induction l as [|[i j] l IH]; intros g rs W R N Len.
  - exists g. simpl. splits; auto. intros x y. split; auto.
    intros [H|(k & i & j & r & H & _)]; auto. destruct k; discriminate.
  - destruct rs as [|r rs]; [simpl in Len; lia|].
    apply NoDup_cons_iff in N as [Nij N].
    destruct (R i j (or_introl eq_refl)) as (Hij & Hj & Hnew).
    cbn [foldM]. rewrite erc_loop_cons. cbn [length firstn skipn].
    destruct (accepted prob r) eqn:Acc.
    + destruct (@push_both_add Debug g i j) as (g1 & -> & Ea); auto; try lia. cbn [bind].
      destruct (add_edge_ok W Ea) as (_ & W1 & V1 & C1 & P1 & A1).
      destruct (IH g1 rs) as (g' & E & W' & V' & P' & C' & A'); auto; try (simpl in Len; lia).
      { intros a b Hab. destruct (R a b (or_intror Hab)) as (X1 & X2 & X3). splits; try lia.
        rewrite A1. intros [Y|[[-> ->]|[-> ->]]]; auto. lia. }
      exists g'. splits; auto; try congruence.
      * rewrite C', C1. unfold count. simpl. rewrite Acc. simpl. lia.
      * intros x y. rewrite A', A1. split.
        -- intros [[H|H]|(k & a & b & q & H1 & H2 & H3 & H4)]; auto.
           ++ right. exists 0, i, j, r. auto.
           ++ right. exists (S k), a, b, q. auto.
        -- intros [H|([|k] & a & b & q & H1 & H2 & H3 & H4)]; auto.
           ++ simpl in H1, H2. injection H1 as <- <-. auto.
           ++ right. exists k, a, b, q. auto.
    + destruct (IH g rs) as (g' & E & W' & V' & P' & C' & A'); auto; try (simpl in Len; lia).
      { intros a b Hab. apply R. right; auto. }
      exists g'. splits; auto.
      * rewrite C'. unfold count. simpl. rewrite Acc. auto.
      * intros x y. rewrite A'. split.
        -- intros [H|(k & a & b & q & H1 & H2 & H3 & H4)]; auto.
           right. exists (S k), a, b, q. auto.
        -- intros [H|([|k] & a & b & q & H1 & H2 & H3 & H4)]; auto.
           ++ simpl in H1, H2. congruence.
           ++ right. exists k, a, b, q. auto.
Qed.

Lemma erc_randomize_spec e rs :
  let n := vertex_count (erc_graph e) in
  simple_graph (erc_graph e) -> length (er_pairs n) <= length rs ->
  exists e', erc_randomize e rs = Done (e', skipn (length (er_pairs n)) rs) /\
    simple_graph (erc_graph e') /\ vertex_count (erc_graph e') = n /\
    payloads (erc_graph e') = payloads (erc_graph e) /\
    erc_prob e' = erc_prob e /\ erc_c_target e' = erc_c_target e /\
    edge_count (erc_graph e') =
      count (accepted (erc_prob e)) (firstn (length (er_pairs n)) rs) /\
    (forall k i j r, nth_error (er_pairs n) k = Some (i, j) -> nth_error rs k = Some r ->
       (adj (erc_graph e') i j <-> (unit_float r <= erc_prob e)%Q)).
Proof.
  intros n W Len. unfold erc_randomize.
  destruct (clear_edges_spec W) as (W0 & V0 & C0 & P0 & N0).
  cbv zeta. rewrite V0.
  destruct (@erc_loop_spec (erc_prob e) (er_pairs n) (clear_edges (erc_graph e)) rs)
    as (g' & E & W' & V' & P' & C' & A'); auto.
  { intros i j H. apply er_pairs_In in H. splits; try (rewrite V0; fold n); try tauto.
    unfold adj. rewrite N0. auto. }
  { apply er_pairs_NoDup. }
  unfold erc_loop in E. unfold n in E. rewrite E. cbn [bind].
  eexists. split; [reflexivity|]. cbn [erc_graph erc_prob erc_c_target].
  splits; auto; try congruence.
  - rewrite V'. exact V0.
  - rewrite C', C0. reflexivity.
  - intros k i j r Hk Hr. rewrite A'. unfold adj at 1. rewrite N0. rewrite <- Qle_bool_iff. split.
    + intros [[]|(k' & a & b & q & H1 & H2 & H3 & H4)].
      pose proof (nth_error_In _ _ Hk) as I1. pose proof (nth_error_In _ _ H1) as I2.
      apply er_pairs_In in I1, I2.
      assert ((a, b) = (i, j)) as Eab by (destruct H4 as [[-> ->]|[-> ->]]; [auto|lia]).
      assert (k = k').
      { apply (proj1 (NoDup_nth_error (er_pairs n)) (er_pairs_NoDup n)).
        - apply nth_error_Some. congruence.
        - congruence. }
      subst k'. assert (q = r) by congruence. subst. auto.
    + intros Acc. right. exists k, i, j, r. splits; auto. left; auto.
Qed.

(** ** Steps *)

Lemma draw_two_spec p high rs a b rs' :
  draw_two_from_range p high rs = Done (a, b, rs') -> a < high /\ b < high /\ a <> b.
Proof.
  unfold draw_two_from_range. intros E. apply bind_done in E as ([x rs1] & E1 & E).
  apply bind_done in E as (h & E2 & E). apply bind_done in E as ([y rs2] & E3 & E).
  apply gen_range_done in E1 as [Hx _]. apply gen_range_done in E3 as [Hy _].
  unfold usub in E2. destruct (Nat.leb_spec 1 high); [|lia]. injection E2 as <-.
  destruct (Nat.ltb_spec y x); injection E as <- <- <-; lia.
Qed.

Lemma draw_two_cons p high x y rs :
  x < high -> y < high - 1 ->
  draw_two_from_range p high (x :: y :: rs) =
  Done (x, if y <? x then y else y + 1, rs).
Proof.
  intros Hx Hy. unfold draw_two_from_range. rewrite gen_range_small by auto. cbn [bind].
  unfold usub. destruct (Nat.leb_spec 1 high); [|lia]. cbn [bind].
  rewrite gen_range_small by auto. cbn [bind]. destruct (y <? x); auto.
Qed.

Lemma erc_m_step_cases p e rs r e' rs' :
  simple_graph (erc_graph e) -> erc_m_step p e rs = Done (r, e', rs') ->
  erc_prob e' = erc_prob e /\ erc_c_target e' = erc_c_target e /\
  match r with
  | ErC_Nothing => e' = e
  | ErC_AddedEdge (a, b) => add_edge p (erc_graph e) a b = Done (Ok tt, erc_graph e')
  | ErC_RemovedEdge (a, b) => remove_edge p (erc_graph e) a b = Done (Ok tt, erc_graph e')
  | ErC_GError _ => False
  end.
Proof.
  intros W E. unfold erc_m_step in E.
  apply bind_done in E as ([[a b] rs1] & E1 & E). apply bind_done in E as ([x rs2] & E2 & E).
  apply draw_two_spec in E1 as (Ha & Hb & N). destruct e as [g pr c]. cbn [erc_graph erc_prob erc_c_target] in *.
  destruct (Qle_bool x pr).
  - destruct (adj_dec g a b) as [H|H].
    + rewrite add_edge_present in E by auto. cbn [bind] in E. injection E as <- <- <-. auto.
    + destruct (@add_edge_absent _ _ _ _ p g a b) as (g' & Ea & _); auto.
      rewrite Ea in E. cbn [bind] in E. injection E as <- <- <-. auto.
  - destruct (adj_dec g a b) as [H|H].
    + destruct (@remove_edge_present _ _ _ _ p g a b W H) as (g' & Ea & _).
      rewrite Ea in E. cbn [bind] in E. injection E as <- <- <-. auto.
    + rewrite remove_edge_absent in E by auto. cbn [bind] in E. injection E as <- <- <-. auto.
Qed.

Lemma erc_m_step_simple p e rs r e' rs' :
  simple_graph (erc_graph e) -> erc_m_step p e rs = Done (r, e', rs') ->
  simple_graph (erc_graph e').
Proof.
  intros W E. destruct (erc_m_step_cases W E) as (_ & _ & H). destruct r as [|[a b]|[a b]|]; subst; auto.
  - apply (add_edge_ok W H).
  - apply (remove_edge_ok W H).
  - tauto.
Qed.

Lemma erc_m_step_total p e x y z rs :
  simple_graph (erc_graph e) -> 2 <= vertex_count (erc_graph e) ->
  exists r e', erc_m_step p e (x :: y :: z :: rs) = Done (r, e', rs).
Proof.
  intros W Hn. unfold erc_m_step, draw_two_from_range.
  rewrite gen_range_cons by lia. cbn [bind]. unfold usub.
  destruct (Nat.leb_spec 1 (vertex_count (erc_graph e))); [|lia]. cbn [bind].
  rewrite gen_range_cons by lia. cbn [bind].
  set (n := vertex_count (erc_graph e)) in *.
  pose proof (Nat.mod_upper_bound x n ltac:(lia)) as Bx.
  pose proof (Nat.mod_upper_bound y (n - 1) ltac:(lia)) as By.
  set (a := Nat.modulo x n) in *. set (b0 := Nat.modulo y (n - 1)) in *.
  set (b := if b0 <? a then b0 else b0 + 1).
  assert (Hb : b < n /\ a <> b) by (unfold b; destruct (Nat.ltb_spec b0 a); lia).
  assert ((if b0 <? a then Done (a, b0, z :: rs) else Done (a, b0 + 1, z :: rs))
    = Done (a, b, z :: rs)) as -> by (unfold b; destruct (b0 <? a); auto).
  cbn [bind]. unfold gen_f64, draw. cbn [bind].
  destruct (Qle_bool (unit_float z) (erc_prob e)).
  - destruct (adj_dec (erc_graph e) a b) as [H'|H'].
    + rewrite add_edge_present by auto. cbn [bind]. eauto.
    + destruct (@add_edge_absent _ _ _ _ p (erc_graph e) a b) as (g' & -> & _); try tauto.
      cbn [bind]. eauto.
  - destruct (adj_dec (erc_graph e) a b) as [H'|H'].
    + destruct (@remove_edge_present _ _ _ _ p (erc_graph e) a b W H') as (g' & -> & _).
      cbn [bind]. eauto.
    + rewrite remove_edge_absent by tauto. cbn [bind]. eauto.
Qed.

Lemma erc_step_undo p e rs r e' rs' :
  simple_graph (erc_graph e) -> erc_m_step p e rs = Done (r, e', rs') ->
  forall h, simple_graph (erc_graph h) -> erc_like e' h ->
  exists u h', erc_undo_step p h r = Done (u, h') /\ erc_inverse r u /\
    simple_graph (erc_graph h') /\ erc_like e h'.
Proof.
  intros W E h Wh (S & P & Ct). destruct (erc_m_step_cases W E) as (P1 & C1 & H).
  destruct r as [|[a b]|[a b]|]; simpl.
  - subst e'. exists ErC_Nothing, h. splits; auto. unfold erc_like; auto.
  - destruct (undo_add W H Wh S) as (g' & -> & W' & S'). cbn [bind].
    do 2 eexists. split; [reflexivity|]. splits; auto. unfold erc_like; splits; simpl; auto; congruence.
  - destruct (undo_remove W H Wh S) as (g' & -> & W' & S'). cbn [bind].
    do 2 eexists. split; [reflexivity|]. splits; auto. unfold erc_like; splits; simpl; auto; congruence.
  - tauto.
Qed.

Lemma erc_step_undo_quiet p e rs r e' rs' :
  simple_graph (erc_graph e) -> erc_m_step p e rs = Done (r, e', rs') ->
  forall h, simple_graph (erc_graph h) -> erc_like e' h ->
  exists h', erc_undo_step_quiet p h r = Done h' /\
    simple_graph (erc_graph h') /\ erc_like e h'.
Proof.
  intros W E h Wh S. destruct (erc_step_undo W E Wh S) as (u & h' & Eu & I & W' & S').
  exists h'. splits; auto. destruct (erc_m_step_cases W E) as (_ & _ & H).
  destruct r as [|[a b]|[a b]|]; simpl in *; try tauto.
  - congruence.
  - apply bind_done in Eu as ([r g] & -> & Eu). cbn [bind]. destruct r; congruence.
  - apply bind_done in Eu as ([r g] & -> & Eu). cbn [bind]. destruct r; congruence.
Qed.

(** ** [make_connected] *)

Lemma connect_loop_spec p l : forall g last,
  simple_graph g -> (forall s, In s (last :: l) -> s < vertex_count g) -> NoDup (last :: l) ->
  (forall s s', In s (last :: l) -> In s' (last :: l) -> joined (adj g) s s' -> s = s') ->
  exists g', connect_loop p g last l = Done g' /\ simple_graph g' /\
    vertex_count g' = vertex_count g /\ payloads g' = payloads g /\
    edge_count g' = edge_count g + length l /\
    (forall x y, adj g x y -> adj g' x y) /\
    (forall s, In s l -> joined (adj g') last s).
Proof.
  induction l as [|s l IH]; intros g last W R N J.
  - exists g. cbn [connect_loop]. splits; auto. simpl. tauto.
  - apply NoDup_cons_iff in N as [N1 N2]. cbn [connect_loop].
    assert (last <> s) by (intros ->; apply N1; simpl; auto).
    destruct (@add_edge_absent _ _ _ _ p g last s) as (g1 & E & _); auto.
    { apply R; simpl; auto. }
    { apply R; simpl; auto. }
    { intros H1. apply H, J; simpl; auto. exists 1. econstructor; [constructor|auto]. }
    rewrite E. cbn [bind unwrap].
    destruct (add_edge_ok W E) as (_ & W1 & V1 & C1 & P1 & A1).
    destruct (IH g1 s W1) as (g' & E' & W' & V' & P' & C' & M' & J'); auto.
    + intros x Hx. rewrite V1. apply R. right; auto.
    + intros x y Hx Hy Jxy.
      apply (joined_add (R := adj g) (a := last) (b := s)) in Jxy; auto; [|apply adj_sym; auto].
      assert (NL : forall z, In z (s :: l) -> ~ joined (adj g) z last).
      { intros z Hz Jz. apply J in Jz; simpl; auto. subst z. auto. }
      destruct Jxy as [Jxy|[[J1 J2]|[J1 J2]]].
      * apply J; simpl; auto.
      * destruct (NL x Hx J1).
      * apply joined_sym in J2; [|apply adj_sym; auto]. destruct (NL y Hy J2).
    + exists g'. splits; auto; try congruence.
      * rewrite C', C1. simpl. lia.
      * intros x y Hxy. apply M', A1. auto.
      * assert (Js : joined (adj g') last s).
        { exists 1. econstructor; [constructor|]. apply M', A1. right. left. auto. }
        intros x [<-|Hx]; auto. eapply joined_trans; eauto.
Qed.

Lemma components_number g : simple_graph g ->
  exists sugg sizes, suggest_connections g = Done sugg /\
    connected_components g = Done sizes /\ length sizes = length sugg.
Proof.
  intros W. destruct (components_run W) as (sugg & ids & cur & E & Ei & I).
  destruct (ids_spec W) as (num & ids' & Ei' & Hl & H1 & _).
  rewrite Ei in Ei'. injection Ei' as <- <-.
  destruct (@count_ids cur ids) as (r & Er & Lr & _).
  { intros i Hi. apply In_nth_error in Hi as [v Hv]. pose proof (nth_error_lt _ _ Hv) as Hlt.
    destruct (H1 v) as (c & Hc & Hn); [lia|]. exists c. split; congruence. }
  exists sugg, (sort_desc r). splits; auto.
  - unfold connected_components. rewrite Ei. cbn [bind]. rewrite Er. reflexivity.
  - rewrite (Permutation_length (sort_desc_perm r)), Lr. symmetry. apply I.
Qed.

Lemma erc_make_connected_spec p e :
  simple_graph (erc_graph e) -> 0 < vertex_count (erc_graph e) ->
  exists e' sizes, erc_make_connected p e = Done e' /\
    connected_components (erc_graph e) = Done sizes /\
    simple_graph (erc_graph e') /\ connected (erc_graph e') /\
    vertex_count (erc_graph e') = vertex_count (erc_graph e) /\
    payloads (erc_graph e') = payloads (erc_graph e) /\
    erc_prob e' = erc_prob e /\ erc_c_target e' = erc_c_target e /\
    edge_count (erc_graph e') + 1 = edge_count (erc_graph e) + length sizes /\
    (forall x y, adj (erc_graph e) x y -> adj (erc_graph e') x y).
Proof.
  intros W Hn. destruct (components_number W) as (sugg & sizes & Es & Ec & Len).
  destruct (suggest_spec W) as (sugg' & Es' & Srt & S1 & S2 & S3).
  rewrite Es in Es'. injection Es' as <-.
  unfold erc_make_connected. rewrite Es. cbn [bind].
  assert (IR : forall s, In s (rev sugg) <-> In s sugg) by (intros; symmetry; apply in_rev).
  assert (NR : NoDup (rev sugg)).
  { apply NoDup_rev. clear - Srt. induction Srt as [|a l S IH F]; constructor; auto.
    intros H. rewrite Forall_forall in F. specialize (F _ H). lia. }
  assert (LR : length (rev sugg) = length sugg) by apply rev_length.
  destruct (rev sugg) as [|last rest] eqn:ER.
  - destruct (S2 0 Hn) as (s & Hs & _). apply IR in Hs. destruct Hs.
  - destruct (@connect_loop_spec p rest (erc_graph e) last) as (g' & E & W' & V' & P' & C' & M' & J'); auto.
    { intros s Hs. apply IR in Hs. destruct (S1 s Hs); auto. }
    { intros s s' Hs Hs'. apply S3; apply IR; auto. }
    rewrite E. cbn [bind]. do 2 eexists. split; [reflexivity|]. cbn [erc_graph erc_prob erc_c_target].
    splits; eauto.
    + assert (HL : forall v, v < vertex_count g' -> joined (adj g') last v).
      { intros v Hv. rewrite V' in Hv. destruct (S2 v Hv) as (s & Hs & Js).
        apply (joined_mono (R' := adj g')) in Js; [|exact M'].
        apply IR in Hs. destruct Hs as [<-|Hs]; auto. eapply joined_trans; eauto. }
      unfold connected. intros u v Hu Hv. eapply joined_trans; [|apply HL; auto].
      apply joined_sym; [apply adj_sym; auto|]. apply HL; auto.
    + rewrite C', Len, <- LR. simpl. lia.
Qed.

(** What a step does with the pair and the number drawn. *)
Lemma erc_step_effect p e x y z rs :
  simple_graph (erc_graph e) -> 2 <= vertex_count (erc_graph e) ->
  exists a b r e', draw_two_from_range p (vertex_count (erc_graph e)) (x :: y :: z :: rs) = Done (a, b, z :: rs) /\
    erc_m_step p e (x :: y :: z :: rs) = Done (r, e', rs) /\
    r = (if Qle_bool (unit_float z) (erc_prob e)
         then if adjb (erc_graph e) a b then ErC_Nothing else ErC_AddedEdge (a, b)
         else if adjb (erc_graph e) a b then ErC_RemovedEdge (a, b) else ErC_Nothing) /\
    (forall i j, adj (erc_graph e') i j <->
       if Qle_bool (unit_float z) (erc_prob e) then adj (erc_graph e) i j \/ is_pair a b i j
       else adj (erc_graph e) i j /\ ~ is_pair a b i j).
Proof.
  intros W Hn. unfold erc_m_step.
  assert (exists a b, draw_two_from_range p (vertex_count (erc_graph e)) (x :: y :: z :: rs) = Done (a, b, z :: rs))
    as (a & b & Ed).
  { unfold draw_two_from_range. rewrite gen_range_cons by lia. cbn [bind]. unfold usub.
    destruct (Nat.leb_spec 1 (vertex_count (erc_graph e))); [|lia]. cbn [bind].
    rewrite gen_range_cons by lia. cbn [bind]. destruct (_ <? _); eauto. }
  destruct (draw_two_spec Ed) as (Ha & Hb & N). rewrite Ed. cbn [bind].
  unfold gen_f64, draw. cbn [bind]. exists a, b.
  assert (Eb : forall t : bool, (adj (erc_graph e) a b <-> t = true) -> adjb (erc_graph e) a b = t).
  { intros t Ht. apply eq_true_iff_eq. rewrite adjb_adj. auto. }
  destruct (Qle_bool (unit_float z) (erc_prob e)).
  - destruct (adj_dec (erc_graph e) a b) as [H'|H'].
    + rewrite (Eb true) by tauto. rewrite add_edge_present by auto. cbn [bind].
      do 2 eexists. split; [reflexivity|]. split; [reflexivity|]. split; [reflexivity|].
      cbn. intros i j. split; auto. intros [K|[[-> ->]|[-> ->]]]; auto. apply (sg_sym W); auto.
    + rewrite (Eb false) by (split; [tauto|discriminate]).
      destruct (@add_edge_absent _ _ _ _ p (erc_graph e) a b) as (g' & Eg & _); try tauto.
      rewrite Eg. cbn [bind]. do 2 eexists. split; [reflexivity|]. split; [reflexivity|]. split; [reflexivity|].
      cbn [erc_graph]. apply (add_edge_ok W Eg).
  - destruct (adj_dec (erc_graph e) a b) as [H'|H'].
    + rewrite (Eb true) by tauto.
      destruct (@remove_edge_present _ _ _ _ p (erc_graph e) a b W H') as (g' & Eg & _).
      rewrite Eg. cbn [bind]. do 2 eexists. split; [reflexivity|]. split; [reflexivity|]. split; [reflexivity|].
      cbn [erc_graph]. apply (remove_edge_ok W Eg).
    + rewrite (Eb false) by (split; [tauto|discriminate]).
      rewrite remove_edge_absent by tauto. cbn [bind].
      do 2 eexists. split; [reflexivity|]. split; [reflexivity|]. split; [reflexivity|].
      cbn. intros i j. split; [|tauto]. intros K. split; auto.
      intros [[-> ->]|[-> ->]]; auto. apply H', (sg_sym W); auto.
Qed.

(** Undoing a step that need not be the last one. *)
Lemma erc_undo_cases p e a b :
  simple_graph (erc_graph e) -> a < vertex_count (erc_graph e) -> b < vertex_count (erc_graph e) -> a <> b ->
  (if adjb (erc_graph e) a b
   then (exists e', erc_undo_step p e (ErC_AddedEdge (a, b)) = Done (ErC_RemovedEdge (a, b), e') /\
           erc_undo_step_quiet p e (ErC_AddedEdge (a, b)) = Done e') /\
        erc_undo_step p e (ErC_RemovedEdge (a, b)) = Done (ErC_GError EdgeExists, e) /\
        erc_undo_step_quiet p e (ErC_RemovedEdge (a, b)) = Panic
   else (exists e', erc_undo_step p e (ErC_RemovedEdge (a, b)) = Done (ErC_AddedEdge (a, b), e') /\
           erc_undo_step_quiet p e (ErC_RemovedEdge (a, b)) = Done e') /\
        erc_undo_step p e (ErC_AddedEdge (a, b)) = Done (ErC_GError EdgeDoesNotExist, e) /\
        erc_undo_step_quiet p e (ErC_AddedEdge (a, b)) = Panic).
Proof.
  intros W Ha Hb N. destruct e as [g pr c]. cbn [erc_graph] in *. unfold erc_undo_step, erc_undo_step_quiet.
  cbn [erc_graph erc_prob erc_c_target].
  destruct (adjb g a b) eqn:Eb; [apply adjb_adj in Eb|apply adjb_not_adj in Eb].
  - destruct (remove_edge_present p W Eb) as (g' & -> & _). rewrite add_edge_present by auto. cbn [bind]. eauto 10.
  - destruct (add_edge_absent p W Ha Hb N Eb) as (g' & -> & _). rewrite remove_edge_absent by auto. cbn [bind]. eauto 10.
Qed.

End Facts.
