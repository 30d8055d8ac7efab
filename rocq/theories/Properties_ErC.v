(** Theorems about [ErEnsembleC]. *)
From Verif Require Import Base BaseFacts Containers ContainerSpec ContainerFacts Graph GraphSpec GraphFacts GraphOps TraversalSpec Components Rng RngFacts Markov EnsembleFacts ErC ErCSpec ErCFacts Properties_Graph.
From Coq Require Import QArith.
Local Open Scope nat_scope.

(** ** C34: [randomize] draws once for each pair and joins exactly the accepted ones.
    The list of pairs depends on the number of vertices only. *)

Theorem C34_randomize {T : Type} : forall n, exists pairs,
  NoDup pairs /\ (forall i j, In (i, j) pairs <-> i < j /\ j < n) /\
  forall (e : er_c T) rs,
  simple_graph (erc_graph e) -> vertex_count (erc_graph e) = n ->
  length pairs <= length rs ->
  exists e', erc_randomize e rs = Done (e', skipn (length pairs) rs) /\
    simple_graph (erc_graph e') /\ vertex_count (erc_graph e') = n /\
    payloads (erc_graph e') = payloads (erc_graph e) /\
    erc_prob e' = erc_prob e /\ erc_c_target e' = erc_c_target e /\
    edge_count (erc_graph e') =
      count (fun r => Qle_bool (unit_float r) (erc_prob e)) (firstn (length pairs) rs) /\
    (forall k i j r, nth_error pairs k = Some (i, j) -> nth_error rs k = Some r ->
       (adj (erc_graph e') i j <-> (unit_float r <= erc_prob e)%Q)).
Proof.
  intros n. exists (er_pairs n). splits.
  - apply er_pairs_NoDup.
  - intros i j. apply er_pairs_In.
  - intros e rs W <-. apply erc_randomize_spec; auto.
Qed.
Print Assumptions C34_randomize.

(** [new] is [randomize] on an edgeless graph; only [n = 0] in a debug build panics. *)
Theorem C34_new {T : Type} : forall p (mk : nat -> T) n c rs,
  (n = 0 -> erc_new Debug mk n c rs = Panic) /\
  (1 <= n -> erc_new p mk n c rs =
     erc_randomize (mk_erc (graph_new mk n) (c / inject_Z (Z.of_nat (n - 1)))%Q c) rs).
Proof.
  intros p mk n c rs. unfold erc_new, erc_probability, usub. split.
  - intros ->. reflexivity.
  - intros H. destruct (Nat.leb_spec 1 n); [|lia]. reflexivity.
Qed.
Print Assumptions C34_new.

(** A new target sets the probability that is used from now on, and nothing else. *)
Theorem C34_set_target {T : Type} : forall p (e : er_c T) c,
  2 <= vertex_count (erc_graph e) ->
  exists e', erc_set_target_connectivity p e c = Done e' /\
    erc_graph e' = erc_graph e /\ erc_c_target e' = c /\
    (erc_prob e' * inject_Z (Z.of_nat (vertex_count (erc_graph e) - 1)) == c)%Q.
Proof.
  intros p e c H. unfold erc_set_target_connectivity, erc_probability, usub.
  destruct (Nat.leb_spec 1 (vertex_count (erc_graph e))) as [L|L]; [|lia].
  cbn [bind]. eexists. split; [reflexivity|]. cbn [erc_graph erc_c_target erc_prob].
  split; [reflexivity|split; [reflexivity|]].
  rewrite Qmult_comm. apply Qmult_div_r.
  intros K. unfold Qeq in K. cbn in K. lia.
Qed.
Print Assumptions C34_set_target.

Definition ex_erc : er_c nat := mk_erc ex_graph (1 # 2) (2 # 1).

Example C34_case :
  simple_graph (erc_graph ex_erc) /\
  match erc_randomize ex_erc [0; 1; 2; 3; 4; 5; 6; 7; 8; 9; 10; 11] with
  | Done (e', rs) => edge_count (erc_graph e') = 10 /\ rs = [10; 11]
  | _ => False
  end.
Proof. split; [apply ex_graph_simple|]. vm_compute. auto. Qed.

(** ** C35: any number of steps, undone in reverse order. *)

Theorem C35_undo {T : Type} : forall p k (e : er_c T) rs steps e' rs',
  simple_graph (erc_graph e) ->
  m_steps (erc_m_step p) k e rs = Done (steps, e', rs') ->
  simple_graph (erc_graph e') /\ length steps = k /\
  exists us h, undo_steps (erc_undo_step p) e' steps = Done (us, h) /\
    Forall2 erc_inverse (rev steps) us /\ simple_graph (erc_graph h) /\ erc_like e h.
Proof.
  intros p k e rs steps e' rs' W E.
  assert (SI : forall (s : er_c T) rs r s' rs', simple_graph (erc_graph s) ->
    erc_m_step p s rs = Done (r, s', rs') -> simple_graph (erc_graph s'))
    by (intros; eapply erc_m_step_simple; eauto).
  destruct (m_steps_inv (inv := fun s : er_c T => simple_graph (erc_graph s)) SI W E) as [W' Len].
  splits; auto.
  apply (@undo_chain _ _ _ (erc_m_step p) (erc_undo_step p)
    (fun s : er_c T => simple_graph (erc_graph s)) (@erc_like T) erc_inverse SI) with (h := e') in E; auto.
  - intros s rs0 r s' rs0' Ws Es h Wh Hh. eapply erc_step_undo; eauto.
  - unfold erc_like; splits; auto. apply same_topology_refl.
Qed.
Print Assumptions C35_undo.

Theorem C35_undo_quiet {T : Type} : forall p k (e : er_c T) rs steps e' rs',
  simple_graph (erc_graph e) ->
  m_steps (erc_m_step p) k e rs = Done (steps, e', rs') ->
  exists h, undo_steps_quiet (erc_undo_step_quiet p) e' steps = Done h /\
    simple_graph (erc_graph h) /\ erc_like e h.
Proof.
  intros p k e rs steps e' rs' W E.
  assert (SI : forall (s : er_c T) rs r s' rs', simple_graph (erc_graph s) ->
    erc_m_step p s rs = Done (r, s', rs') -> simple_graph (erc_graph s'))
    by (intros; eapply erc_m_step_simple; eauto).
  destruct (m_steps_inv (inv := fun s : er_c T => simple_graph (erc_graph s)) SI W E) as [W' Len].
  apply (@undo_quiet_chain _ _ (erc_m_step p) (erc_undo_step_quiet p)
    (fun s : er_c T => simple_graph (erc_graph s)) (@erc_like T) SI) with (h := e') in E; auto.
  - intros s rs0 r s' rs0' Ws Es h Wh Hh. eapply erc_step_undo_quiet; eauto.
  - unfold erc_like; splits; auto. apply same_topology_refl.
Qed.
Print Assumptions C35_undo_quiet.

(** With two or more vertices a step always returns, after three draws. *)
Theorem C35_step_returns {T : Type} : forall p (e : er_c T) x y z rs,
  simple_graph (erc_graph e) -> 2 <= vertex_count (erc_graph e) ->
  exists r e', erc_m_step p e (x :: y :: z :: rs) = Done (r, e', rs).
Proof. intros p e x y z rs. apply erc_m_step_total. Qed.
Print Assumptions C35_step_returns.

Example C35_case :
  match m_steps (erc_m_step Debug) 3 ex_erc
          (flat_map (fun r => r) [[0; 2; 0]; [3; 3; 0]; [0; 0; Nat.pow 2 3]]) with
  | Done (steps, e', _) =>
      steps = [ErC_AddedEdge (0, 3); ErC_AddedEdge (3, 4); ErC_Nothing] /\
      edge_count (erc_graph e') = 6
  | _ => False
  end.
Proof. vm_compute. auto. Qed.

(** ** C36 *)

Theorem C36_make_connected {T : Type} : forall p (e : er_c T),
  simple_graph (erc_graph e) -> 0 < vertex_count (erc_graph e) ->
  exists e' sizes, erc_make_connected p e = Done e' /\
    connected_components (erc_graph e) = Done sizes /\
    simple_graph (erc_graph e') /\ connected (erc_graph e') /\
    vertex_count (erc_graph e') = vertex_count (erc_graph e) /\
    payloads (erc_graph e') = payloads (erc_graph e) /\
    erc_prob e' = erc_prob e /\ erc_c_target e' = erc_c_target e /\
    edge_count (erc_graph e') + 1 = edge_count (erc_graph e) + length sizes /\
    (forall x y, adj (erc_graph e) x y -> adj (erc_graph e') x y).
Proof. intros p e. apply erc_make_connected_spec. Qed.
Print Assumptions C36_make_connected.

Theorem C36_empty {T : Type} : forall p (e : er_c T),
  vertex_count (erc_graph e) = 0 -> erc_make_connected p e = Panic.
Proof.
  intros p e H. unfold erc_make_connected, suggest_connections. rewrite H. reflexivity.
Qed.
Print Assumptions C36_empty.

Example C36_case :
  simple_graph (erc_graph ex_erc) /\
  match erc_make_connected Debug ex_erc with
  | Done e' => edge_count (erc_graph e') = 5 /\ adj (erc_graph e') 0 4
  | _ => False
  end.
Proof. split; [apply ex_graph_simple|]. vm_compute. auto 10. Qed.

(** ** C37: the map from draws to pairs is a bijection. *)

Theorem C37_draw_two : forall p n rs,
  (forall x y, x < n -> y < n - 1 ->
     exists a b, draw_two_from_range p n (x :: y :: rs) = Done (a, b, rs) /\
       a < n /\ b < n /\ a <> b) /\
  (forall a b, a < n -> b < n -> a <> b ->
     exists x y, x < n /\ y < n - 1 /\
       draw_two_from_range p n (x :: y :: rs) = Done (a, b, rs) /\
       forall x' y', x' < n -> y' < n - 1 ->
         draw_two_from_range p n (x' :: y' :: rs) = Done (a, b, rs) -> x' = x /\ y' = y).
Proof.
  intros p n rs. split.
  - intros x y Hx Hy. rewrite draw_two_cons by auto. do 2 eexists. split; [reflexivity|].
    destruct (Nat.ltb_spec y x); lia.
  - intros a b Ha Hb N. exists a, (if b <? a then b else b - 1).
    assert (Hy : (if b <? a then b else b - 1) < n - 1) by (destruct (Nat.ltb_spec b a); lia).
    splits; auto.
    + rewrite draw_two_cons by auto. do 3 f_equal.
      destruct (Nat.ltb_spec b a); [destruct (Nat.ltb_spec b a); lia|].
      destruct (Nat.ltb_spec (b - 1) a); lia.
    + intros x' y' Hx' Hy' E. rewrite draw_two_cons in E by auto. injection E as -> E.
      destruct (Nat.ltb_spec y' a), (Nat.ltb_spec b a); lia.
Qed.
Print Assumptions C37_draw_two.

(** Whatever numbers the generator gives, the pair is valid. *)
Theorem C37_valid : forall p n rs a b rs',
  draw_two_from_range p n rs = Done (a, b, rs') -> a < n /\ b < n /\ a <> b.
Proof. intros p n rs a b rs'. apply draw_two_spec. Qed.
Print Assumptions C37_valid.

Theorem C37_small : forall p r rs,
  draw_two_from_range p 0 rs = Panic /\ draw_two_from_range p 1 (r :: rs) = Panic.
Proof. intros p r rs. split; reflexivity. Qed.
Print Assumptions C37_small.

Example C37_case : draw_two_from_range Debug 5 [2; 2; 9] = Done (2, 3, [9]).
Proof. reflexivity. Qed.

(** ** C61: with probability zero a draw of exactly zero is accepted. *)

Theorem C61_zero_probability_refuted :
  exists e' : er_c nat * list nat, erc_new Debug (fun i => i) 2 0%Q [0] = Done e' /\
    edge_count (erc_graph (fst e')) = 1 /\ adj (erc_graph (fst e')) 0 1.
Proof. eexists. split; [vm_compute; reflexivity|]. vm_compute. auto. Qed.
Print Assumptions C61_zero_probability_refuted.

(** A draw is accepted at probability zero exactly if it is zero, one of the 2^53
    values of the generator. *)
Theorem C61_zero_accepted : forall r,
  (unit_float r <= 0)%Q <-> Z.modulo (Z.of_nat r) 9007199254740992 = 0%Z.
Proof.
  intros r. unfold unit_float, Qle. cbn [Qnum Qden].
  pose proof (Z.mod_pos_bound (Z.of_nat r) 9007199254740992). lia.
Qed.
Print Assumptions C61_zero_accepted.

(** ** C76: a Markov step of [ErEnsembleC] resamples one pair *)

(** The pair drawn is joined afterwards exactly if the third draw is at most the
    probability, whether it was joined before or not; nothing else changes, and the
    step says what has been changed. *)
Theorem C76_step {T : Type} : forall p (e : er_c T) x y z rs,
  simple_graph (erc_graph e) -> 2 <= vertex_count (erc_graph e) ->
  exists a b r e', draw_two_from_range p (vertex_count (erc_graph e)) (x :: y :: z :: rs) = Done (a, b, z :: rs) /\
    erc_m_step p e (x :: y :: z :: rs) = Done (r, e', rs) /\
    simple_graph (erc_graph e') /\ payloads (erc_graph e') = payloads (erc_graph e) /\
    erc_prob e' = erc_prob e /\ erc_c_target e' = erc_c_target e /\
    (adj (erc_graph e') a b <-> (unit_float z <= erc_prob e)%Q) /\
    (forall i j, ~ (i = a /\ j = b) -> ~ (i = b /\ j = a) ->
       (adj (erc_graph e') i j <-> adj (erc_graph e) i j)) /\
    match r with
    | ErC_AddedEdge ab => ab = (a, b) /\ ~ adj (erc_graph e) a b /\ adj (erc_graph e') a b
    | ErC_RemovedEdge ab => ab = (a, b) /\ adj (erc_graph e) a b /\ ~ adj (erc_graph e') a b
    | ErC_Nothing => e' = e
    | ErC_GError _ => False
    end.
Proof.
  intros p e x y z rs W Hn. destruct (erc_step_effect p x y z rs W Hn) as (a & b & r & e' & E1 & E2 & Er & Ad).
  exists a, b, r, e'. destruct (erc_m_step_cases W E2) as (C1 & C2 & C3).
  split; [exact E1|]. split; [exact E2|]. split; [apply (erc_m_step_simple W E2)|].
  split.
  { destruct r as [|[u v]|[u v]|]; try tauto; [congruence|..].
    - apply (add_edge_ok W C3).
    - apply (remove_edge_ok W C3). }
  split; [auto|]. split; [auto|]. rewrite <- Qle_bool_iff.
  split; [|split].
  - rewrite Ad. unfold is_pair. destruct (Qle_bool (unit_float z) (erc_prob e)); intuition discriminate.
  - intros i j N1 N2. rewrite Ad. unfold is_pair. destruct (Qle_bool (unit_float z) (erc_prob e)); tauto.
  - pose proof (Ad a b) as Aab. unfold is_pair in Aab.
    destruct (Qle_bool (unit_float z) (erc_prob e)); destruct (adjb (erc_graph e) a b) eqn:Eb; subst r;
      (apply adjb_adj in Eb || apply adjb_not_adj in Eb); auto; split; auto; split; auto; rewrite Aab; tauto.
Qed.
Print Assumptions C76_step.

(** The step forgets the old state of the pair: two ensembles that differ in nothing but
    this pair have the same edges after the same draws. *)
Theorem C76_forgets {T : Type} : forall p (e h : er_c T) rs a b rs1 r r' e' h' rs' rs'',
  simple_graph (erc_graph e) -> simple_graph (erc_graph h) ->
  vertex_count (erc_graph h) = vertex_count (erc_graph e) -> erc_prob h = erc_prob e ->
  draw_two_from_range p (vertex_count (erc_graph e)) rs = Done (a, b, rs1) ->
  (forall i j, ~ (i = a /\ j = b) -> ~ (i = b /\ j = a) ->
     (adj (erc_graph e) i j <-> adj (erc_graph h) i j)) ->
  erc_m_step p e rs = Done (r, e', rs') -> erc_m_step p h rs = Done (r', h', rs'') ->
  rs'' = rs' /\ forall i j, adj (erc_graph e') i j <-> adj (erc_graph h') i j.
Proof.
  intros p e h rs a b rs1 r r' e' h' rs' rs'' W W' En Ep Ed Hd E E'.
  pose proof (draw_two_spec Ed) as (Ha & Hb & N).
  assert (Hn : 2 <= vertex_count (erc_graph e)) by lia.
  assert (exists x y z rs0, rs = x :: y :: z :: rs0) as (x & y & z & rs0 & ->).
  { unfold erc_m_step in E. rewrite Ed in E. cbn [bind] in E.
    destruct rs1 as [|z rs1]; [discriminate|].
    unfold draw_two_from_range in Ed. destruct rs as [|x rs].
    { unfold gen_range in Ed. destruct (vertex_count (erc_graph e) =? 0); discriminate. }
    rewrite gen_range_cons in Ed by lia. cbn [bind] in Ed. unfold usub in Ed.
    destruct (Nat.leb_spec 1 (vertex_count (erc_graph e))); [|lia]. cbn [bind] in Ed. destruct rs as [|y rs].
    { unfold gen_range in Ed. destruct (vertex_count (erc_graph e) - 1 =? 0); discriminate. }
    rewrite gen_range_cons in Ed by lia. cbn [bind] in Ed. exists x, y, z, rs1.
    destruct (_ <? _); injection Ed as _ _ ->; auto. }
  destruct (erc_step_effect p x y z rs0 W Hn) as (a1 & b1 & r1 & e1 & D1 & E1 & _ & A1).
  destruct (erc_step_effect p x y z rs0 W') as (a2 & b2 & r2 & e2 & D2 & E2 & _ & A2); [lia|].
  rewrite En in D2. rewrite D1 in D2, Ed. injection D2 as <- <-. injection Ed as -> -> _.
  rewrite E1 in E. rewrite E2 in E'. injection E as _ <- <-. injection E' as _ <- <-.
  split; auto. intros i j. rewrite A1, A2, Ep. specialize (Hd i j). unfold is_pair.
  destruct (Qle_bool (unit_float z) (erc_prob e)).
  - destruct (Nat.eq_dec i a), (Nat.eq_dec j b), (Nat.eq_dec i b), (Nat.eq_dec j a); tauto.
  - destruct (Nat.eq_dec i a), (Nat.eq_dec j b), (Nat.eq_dec i b), (Nat.eq_dec j a); tauto.
Qed.
Print Assumptions C76_forgets.

(** Undoing a step that is not the last one: an edge to be removed that is missing, or an
    edge to be added that is there, is reported and changes nothing; the quiet version
    panics. *)
Theorem C76_undo_any {T : Type} : forall p (e : er_c T) a b,
  simple_graph (erc_graph e) -> a < vertex_count (erc_graph e) -> b < vertex_count (erc_graph e) -> a <> b ->
  (adj (erc_graph e) a b ->
     (exists e', erc_undo_step p e (ErC_AddedEdge (a, b)) = Done (ErC_RemovedEdge (a, b), e') /\
        erc_undo_step_quiet p e (ErC_AddedEdge (a, b)) = Done e') /\
     erc_undo_step p e (ErC_RemovedEdge (a, b)) = Done (ErC_GError EdgeExists, e) /\
     erc_undo_step_quiet p e (ErC_RemovedEdge (a, b)) = Panic) /\
  (~ adj (erc_graph e) a b ->
     (exists e', erc_undo_step p e (ErC_RemovedEdge (a, b)) = Done (ErC_AddedEdge (a, b), e') /\
        erc_undo_step_quiet p e (ErC_RemovedEdge (a, b)) = Done e') /\
     erc_undo_step p e (ErC_AddedEdge (a, b)) = Done (ErC_GError EdgeDoesNotExist, e) /\
     erc_undo_step_quiet p e (ErC_AddedEdge (a, b)) = Panic) /\
  erc_undo_step p e ErC_Nothing = Done (ErC_Nothing, e) /\ erc_undo_step_quiet p e ErC_Nothing = Done e /\
  (forall x, erc_undo_step p e (ErC_GError x) = Done (ErC_GError x, e) /\
     erc_undo_step_quiet p e (ErC_GError x) = Panic).
Proof.
  intros p e a b W Ha Hb N. pose proof (erc_undo_cases p W Ha Hb N) as H.
  split; [|split; [|auto 6]]; intros K.
  - apply adjb_adj in K. rewrite K in H. auto.
  - apply adjb_not_adj in K. rewrite K in H. auto.
Qed.
Print Assumptions C76_undo_any.

(** [ex_graph] has an edge between 0 and 1: it stays if the probability is one half and
    the number drawn is 0, and goes if the probability is 0 and the number is not. *)
Example C76_case :
  simple_graph (erc_graph ex_erc) /\ adj (erc_graph ex_erc) 0 1 /\
  erc_m_step Debug ex_erc [0; 0; 0; 7] = Done (ErC_Nothing, ex_erc, [7]) /\
  match erc_m_step Debug (mk_erc ex_graph 0 0) [0; 0; 1; 7] with
  | Done (r, e', rs) => r = ErC_RemovedEdge (0, 1) /\ nbrs (erc_graph e') 0 = [2] /\ rs = [7]
  | _ => False
  end.
Proof.
  split; [exact ex_graph_simple|]. split; [apply adjb_adj; reflexivity|].
  vm_compute. auto 6.
Qed.
