(** Proofs about the small-world ensemble: randomising, steps and undoing. *)
From Verif Require Import Base BaseFacts Sums Containers ContainerSpec ContainerFacts Graph GraphSpec GraphFacts GraphOps GraphBuild Rng RngFacts Markov EnsembleFacts Sw SwSpec SwFacts.
From Coq Require Import QArith.
Set Implicit Arguments.
Unset Strict Implicit.
Local Open Scope nat_scope.

Section Chain.
Context {T : Type}.
Implicit Types g : graph (sw_container T).
Implicit Types e : sw_ensemble T.

(** What handling the edge rooted at [i0] and going to [i1] can do. *)
Definition changed n g (i0 i1 : nat) (s : sw_state) g' : Prop :=
  (s = Sw_Nothing \/ s = Sw_BlockedByExistingEdge) /\ g' = g \/
  exists i2 o, (s = Sw_Rewire i0 i1 i2 \/ s = Sw_Reset i0 i1 i2) /\
    i0 <> i1 /\ i0 <> i2 /\ i1 <> i2 /\ i0 < n /\ i1 < n /\ i2 < n /\ ~ adj g i0 i2 /\
    rooted_from g i0 i1 o /\ moved g i0 i1 i2 o g'.

Lemma changed_inv n d g i0 i1 s g' : sw_inv n d g -> changed n g i0 i1 s g' ->
  sw_inv n d g' /\ payloads g' = payloads g.
Proof.
  intros I [[_ ->]|(i2 & o & _ & N1 & N2 & N3 & H0 & H1 & H2 & A & _ & M)]; auto.
  split; [apply (moved_inv I N1 N2 N3 H0 H1 H2 A M)|]. apply M.
Qed.

Lemma changed_valid n g i0 i1 s g' : changed n g i0 i1 s g' -> sw_is_valid s = true.
Proof. intros [[[->| ->] _]|(i2 & o & [->| ->] & _)]; reflexivity. Qed.

Lemma changed_rooted n d g i0 i1 s g' x y : sw_inv n d g -> changed n g i0 i1 s g' ->
  rooted g x y -> y <> i1 -> rooted g' x y.
Proof.
  intros I [[_ ->]|(i2 & o & _ & N1 & N2 & N3 & H0 & H1 & H2 & A & _ & M)] R N; auto.
  apply (moved_rooted (proj1 I) N1 N2 N3 M). left. split; auto. intros [_ E]. auto.
Qed.

Lemma reset_spec p n d g i0 i1 : sw_inv n d g -> rooted g i0 i1 ->
  exists s g', sw_reset_edge p g i0 i1 = Done (s, g') /\ changed n g i0 i1 s g' /\
    forall a b c, s <> Sw_Rewire a b c.
Proof.
  intros I [o R]. pose proof I as (W & V & _ & _ & P). destruct (root_end W P R) as (N1 & H0 & H1 & _).
  destruct (rooted_from_range I R) as [Ho No]. rewrite V in *.
  destruct (Nat.eq_dec o i1) as [->|N].
  - exists Sw_Nothing, g. rewrite (reset_nothing p I R). splits; auto; [left; auto|discriminate].
  - destruct (adj_dec g i0 o) as [A|A].
    + exists Sw_BlockedByExistingEdge, g. rewrite (reset_blocked p I R N A). splits; auto; [left; auto|discriminate].
    + destruct (reset_ok p I R N ltac:(auto) Ho A) as (g' & E & M).
      exists (Sw_Reset i0 i1 o), g'. splits; auto; [|discriminate].
      right. exists o, o. splits; auto.
Qed.

Lemma rewire_spec p n d g i0 i1 i2 : sw_inv n d g -> rooted g i0 i1 -> i2 < n -> i2 <> i0 ->
  exists s g', sw_rewire_edge p g i0 i1 i2 = Done (s, g') /\ changed n g i0 i1 s g' /\
    (s = Sw_Nothing /\ i1 = i2 \/ s = Sw_BlockedByExistingEdge /\ adj g i0 i2 \/
     s = Sw_Rewire i0 i1 i2 /\ ~ adj g i0 i2).
Proof.
  intros I [o R] H2 N2. pose proof I as (W & V & _ & _ & P).
  destruct (root_end W P R) as (N1 & H0 & H1 & _). rewrite V in *.
  destruct (Nat.eq_dec i1 i2) as [->|N].
  - exists Sw_Nothing, g. unfold sw_rewire_edge. rewrite Nat.eqb_refl. splits; auto. left; auto.
  - destruct (adj_dec g i0 i2) as [A|A].
    + exists Sw_BlockedByExistingEdge, g. rewrite (rewire_blocked p I R N ltac:(auto) A).
      splits; auto. left; auto.
    + destruct (rewire_ok p I R N ltac:(auto) H2 A) as (g' & E & M).
      exists (Sw_Rewire i0 i1 i2), g'. splits; auto.
      right. exists i2, o. splits; auto.
Qed.

Lemma draw_remaining_cons i h r rs : 0 < h ->
  draw_remaining i h (r :: rs) = Done (if Nat.modulo r h <? i then Nat.modulo r h else Nat.modulo r h + 1, rs).
Proof.
  intros H. unfold draw_remaining. rewrite gen_range_cons by lia. reflexivity.
Qed.

Lemma remaining_range i n r : i < n -> 1 < n ->
  let x := if Nat.modulo r (n - 1) <? i then Nat.modulo r (n - 1) else Nat.modulo r (n - 1) + 1 in
  x < n /\ x <> i.
Proof.
  intros Hi Hn. cbv zeta. pose proof (Nat.mod_upper_bound r (n - 1) ltac:(lia)).
  destruct (Nat.ltb_spec (r mod (n - 1)) i); lia.
Qed.

Lemma randomize_edge_spec p n d e i0 i1 rs :
  sw_inv n d (sw_graph e) -> rooted (sw_graph e) i0 i1 ->
  match sw_randomize_edge p e i0 i1 rs with
  | Done (s, e', rs') => changed n (sw_graph e) i0 i1 s (sw_graph e') /\
      sw_r_prob e' = sw_r_prob e /\ length rs <= 2 + length rs'
  | NoFuel => length rs < 2
  | _ => False
  end.
Proof.
  intros I R. pose proof I as (W & V & _ & _ & P). pose proof R as [o Ro].
  destruct (root_end W P Ro) as (N1 & H0 & H1 & _). rewrite V in *.
  unfold sw_randomize_edge, gen_f64. destruct rs as [|x rs]; [cbn; lia|]. cbn [draw bind].
  destruct (Qle_bool _ _).
  - rewrite V. unfold usub. destruct (Nat.leb_spec 1 n); [|lia]. cbn [bind].
    destruct rs as [|r rs].
    + unfold draw_remaining, gen_range. destruct (n - 1) eqn:Z; [lia|]. cbn. lia.
    + rewrite draw_remaining_cons by lia. cbn [bind].
      destruct (@remaining_range i0 n r H0 ltac:(lia)) as [K1 K2].
      destruct (rewire_spec p I R K1 K2) as (s & g' & -> & C & _). cbn [bind sw_set sw_graph sw_r_prob].
      splits; auto; simpl; lia.
  - destruct (reset_spec p I R) as (s & g' & -> & C & _). cbn [bind sw_set sw_graph sw_r_prob].
    splits; auto; simpl; lia.
Qed.

Lemma roots_two n d g i : sw_inv n d g -> i < n -> 2 <= d ->
  exists a b l, map se_to (filter se_is_root (entries g i)) = a :: b :: l /\ length l = d - 2.
Proof.
  intros I Hi Hd. pose proof (roots_length I Hi) as L.
  destruct (filter se_is_root (entries g i)) as [|a [|b l]]; cbn [length] in L; try lia.
  exists (se_to a), (se_to b), (map se_to l). split; auto. rewrite map_length. lia.
Qed.

Lemma randomize_vertex_spec p n d e rs i :
  sw_inv n d (sw_graph e) -> i < n -> 2 <= d -> p = Release \/ d = 2 ->
  match sw_randomize_vertex p (e, rs) i with
  | Done (e', rs') => sw_inv n d (sw_graph e') /\ payloads (sw_graph e') = payloads (sw_graph e) /\
      sw_r_prob e' = sw_r_prob e /\ length rs <= 4 + length rs'
  | NoFuel => length rs < 4
  | _ => False
  end.
Proof.
  intros I Hi Hd Hp. pose proof I as (W & V & _).
  assert (Hv : i < vertex_count (sw_graph e)) by (rewrite V; auto).
  destruct (container_entries W Hv) as (c & Ec & _ & Ac).
  destruct (roots_two I Hi Hd) as (a & b & l & El & Ll).
  unfold sw_randomize_vertex, vget. rewrite Ec. cbn [bind]. cbv zeta. rewrite Ac, El.
  cbn [nth_error expect bind].
  assert (Da : debug_assert p (length (a :: b :: l) <=? 2) = Done tt).
  { destruct Hp as [->| ->]; [reflexivity|]. cbn [length]. rewrite Ll. destruct p; reflexivity. }
  rewrite Da. cbn [bind].
  pose proof (@roots_NoDup T (sw_graph e) i W) as ND. rewrite El in ND.
  apply NoDup_cons_iff in ND as [ND _].
  assert (Ra : rooted (sw_graph e) i a) by (apply rooted_filter; rewrite El; simpl; auto).
  assert (Rb : rooted (sw_graph e) i b) by (apply rooted_filter; rewrite El; simpl; auto).
  assert (Nb : b <> a) by (intros ->; apply ND; simpl; auto).
  pose proof (@randomize_edge_spec p n d e i a rs I Ra) as S1.
  destruct (sw_randomize_edge p e i a rs) as [[[s1 e1] rs1]| | |]; cbn [bind]; try tauto; try lia.
  destruct S1 as (C1 & Q1 & L1).
  assert (Ck : forall s, sw_is_valid s = true -> debug_error_check p s = Done tt)
    by (intros []; cbn; try discriminate; destruct p; reflexivity).
  rewrite (Ck _ (changed_valid C1)). cbn [bind].
  destruct (changed_inv I C1) as [I1 P1].
  pose proof (changed_rooted I C1 Rb Nb) as Rb1.
  pose proof (@randomize_edge_spec p n d e1 i b rs1 I1 Rb1) as S2.
  destruct (sw_randomize_edge p e1 i b rs1) as [[[s2 e2] rs2]| | |]; cbn [bind]; try tauto; try lia.
  destruct S2 as (C2 & Q2 & L2). rewrite (Ck _ (changed_valid C2)). cbn [bind].
  destruct (changed_inv I1 C2) as [I2 P2]. splits; auto; try congruence. lia.
Qed.

Lemma randomize_list_spec p n d l : forall e rs,
  sw_inv n d (sw_graph e) -> Forall (fun i => i < n) l -> 2 <= d -> p = Release \/ d = 2 ->
  match foldM (sw_randomize_vertex p) (e, rs) l with
  | Done (e', rs') => sw_inv n d (sw_graph e') /\ payloads (sw_graph e') = payloads (sw_graph e) /\
      sw_r_prob e' = sw_r_prob e /\ length rs <= 4 * length l + length rs'
  | NoFuel => length rs < 4 * length l
  | _ => False
  end.
Proof.
  induction l as [|i l IH]; intros e rs I F Hd Hp; cbn [foldM].
  - splits; auto.
  - apply Forall_cons_iff in F as [Hi F].
    pose proof (@randomize_vertex_spec p n d e rs i I Hi Hd Hp) as S.
    destruct (sw_randomize_vertex p (e, rs) i) as [[e1 rs1]| | |]; cbn [bind]; try tauto;
      [|simpl; lia].
    destruct S as (I1 & P1 & Q1 & L1). specialize (IH e1 rs1 I1 F Hd Hp).
    destruct (foldM (sw_randomize_vertex p) (e1, rs1) l) as [[e2 rs2]| | |]; try tauto.
    + destruct IH as (I2 & P2 & Q2 & L2). splits; auto; try congruence. simpl; lia.
    + simpl; lia.
Qed.

Lemma randomize_spec p n d e rs :
  sw_inv n d (sw_graph e) -> 2 <= d -> p = Release \/ d = 2 ->
  match sw_randomize p e rs with
  | Done (e', rs') => sw_inv n d (sw_graph e') /\ payloads (sw_graph e') = payloads (sw_graph e) /\
      sw_r_prob e' = sw_r_prob e
  | NoFuel => length rs < 4 * n
  | _ => False
  end.
Proof.
  intros I Hd Hp. unfold sw_randomize. rewrite (proj1 (proj2 I)).
  assert (F : Forall (fun i => i < n) (seq 0 n))
    by (apply Forall_forall; intros i Hi; apply in_seq in Hi; lia).
  pose proof (@randomize_list_spec p n d _ e rs I F Hd Hp) as S. rewrite seq_length in S.
  destruct (foldM _ _ _) as [[e' rs']| | |]; tauto.
Qed.

Lemma sw_new_spec p (mk : nat -> T) n q rs : 5 <= n ->
  match sw_new p mk n q rs with
  | Done (e, rs') => sw_inv n 2 (sw_graph e) /\ payloads (sw_graph e) = map mk (seq 0 n) /\
      sw_r_prob e = q
  | NoFuel => length rs < 4 * n
  | _ => False
  end.
Proof.
  intros Hn. destruct (@graph_new_spec T (sw_container T) _ _ mk n) as (W & V & _ & P & _).
  destruct (@sw_ring T p (graph_new mk n) 2 W) as (g & E & I & Pg); [rewrite V; lia|].
  unfold sw_new, sw_init_ring_2. rewrite E. cbn [bind unwrap].
  rewrite V in I. pose proof (@randomize_spec p n 2 (mk_swe g q) rs I (le_n 2) (or_intror eq_refl)) as S.
  destruct (sw_randomize p (mk_swe g q) rs) as [[e rs']| | |]; try tauto.
  destruct S as (I' & P' & Q'). cbn [sw_graph sw_r_prob] in *. splits; auto. congruence.
Qed.

(** ** Steps *)

Lemma draw_edge_spec n e r rs : sw_inv n 2 (sw_graph e) -> 0 < n ->
  exists j, sw_draw_edge e (r :: rs) = Done (Nat.div (Nat.modulo r (n * 2)) 2, j, rs) /\
    rooted (sw_graph e) (Nat.div (Nat.modulo r (n * 2)) 2) j /\
    nth_error (map se_to (filter se_is_root (entries (sw_graph e) (Nat.div (Nat.modulo r (n * 2)) 2))))
      (Nat.modulo (Nat.modulo r (n * 2)) 2) = Some j.
Proof.
  intros I Hn. pose proof I as (W & V & E & _).
  unfold sw_draw_edge. rewrite E, gen_range_cons by lia. cbn [bind]. cbv zeta.
  set (x := r mod (n * 2)). assert (Hx : x < n * 2) by (apply Nat.mod_upper_bound; lia).
  assert (Hd : x / 2 < n) by (apply Nat.div_lt_upper_bound; lia).
  assert (Hv : x / 2 < vertex_count (sw_graph e)) by (rewrite V; auto).
  destruct (container_entries W Hv) as (c & Ec & _ & Ac).
  unfold container, vget. rewrite Ec. cbn [bind]. rewrite Ac.
  destruct (nth_error (filter se_is_root (entries (sw_graph e) (x / 2))) (x mod 2)) as [y|] eqn:Y.
  2:{ apply nth_error_None in Y. rewrite (roots_length I Hd) in Y.
      pose proof (Nat.mod_upper_bound x 2 ltac:(lia)). lia. }
  exists (se_to y). cbn [expect bind]. splits; auto.
  - apply rooted_filter, in_map. eapply nth_error_In; eauto.
  - rewrite nth_error_map, Y. reflexivity.
Qed.

Lemma m_step_spec p n e rs : sw_inv n 2 (sw_graph e) -> 0 < n ->
  match sw_m_step p e rs with
  | Done (s, e', rs') => exists i0 i1, rooted (sw_graph e) i0 i1 /\
      changed n (sw_graph e) i0 i1 s (sw_graph e') /\ sw_r_prob e' = sw_r_prob e
  | NoFuel => length rs < 3
  | _ => False
  end.
Proof.
  intros I Hn. unfold sw_m_step. destruct rs as [|r rs].
  - unfold sw_draw_edge. rewrite (proj1 (proj2 (proj2 I))). unfold gen_range.
    destruct (n * 2) eqn:K; [lia|]. cbn. lia.
  - destruct (@draw_edge_spec n e r rs I Hn) as (j & -> & R & _). cbn [bind].
    set (i := r mod (n * 2) / 2) in *.
    pose proof (@randomize_edge_spec p n 2 e i j rs I R) as S.
    destruct (sw_randomize_edge p e i j rs) as [[[s e'] rs']| | |]; try tauto.
    + exists i, j. tauto.
    + simpl; lia.
Qed.

Lemma m_step_pos p n e rs r : sw_inv n 2 (sw_graph e) -> sw_m_step p e rs = Done r -> 0 < n.
Proof.
  intros (_ & _ & E & _) H. unfold sw_m_step, sw_draw_edge in H. rewrite E in H.
  destruct n; [|lia]. destruct rs; discriminate.
Qed.

(** Undoing on a graph that only differs in the order of the stored edges. *)
Lemma undo_changed p n d e i0 i1 s e' h :
  sw_inv n d (sw_graph e) -> changed n (sw_graph e) i0 i1 s (sw_graph e') ->
  sw_r_prob e' = sw_r_prob e -> sw_inv n d (sw_graph h) -> sw_like e' h ->
  exists u h', sw_undo_step p h s = Done (u, h') /\ sw_inverse s u /\
    sw_inv n d (sw_graph h') /\ sw_like e h' /\ sw_undo_step_quiet p h s = Done h' /\
    sw_undoable p (sw_graph h) s.
Proof.
  intros I C Q Ih [Ah Qh].
  destruct C as [[Hs Eg]|(i2 & o & Hs & N1 & N2 & N3 & H0 & H1 & H2 & A & R & M)].
  - exists s, h. destruct Hs as [->| ->]; cbn [sw_undo_step sw_undo_step_quiet sw_inverse sw_undoable];
      splits; auto; (split; [rewrite Eg in Ah; auto|congruence]).
  - assert (Rh : rooted (sw_graph h) i0 i2).
    { apply (alike_rooted i0 i2 Ah). apply (moved_rooted (proj1 I) N1 N2 N3 M). auto. }
    assert (Oh : rooted_from (sw_graph h) i0 i2 o).
    { unfold rooted_from. destruct Ah as (_ & _ & _ & Ph). rewrite <- Ph.
      apply (moved_In (proj1 I) N1 N2 N3 M). auto. }
    assert (Nh : ~ adj (sw_graph h) i0 i1).
    { rewrite <- (alike_adj i0 i1 Ah). intros X. apply adj_entries in X as (x & Hx & Ex).
      apply (moved_In (proj1 I) N1 N2 N3 M) in Hx as [(Hx & Hx1 & _)|[[_ ->]|[? _]]]; cbn in Ex; try congruence.
      apply Hx1. split; auto. apply (entry_unique (proj1 I) Hx R). auto. }
    destruct (rewire_ok p Ih Oh (not_eq_sym N3) N1 H1 Nh) as (h1 & E1 & M1).
    pose proof (moved_inv Ih N2 N1 (not_eq_sym N3) H0 H2 H1 Nh M1) as I1.
    pose proof (moved_back N1 N2 N3 M Ah M1) as L1.
    exists (Sw_Rewire i0 i2 i1), (sw_set h h1).
    destruct Hs as [->| ->]; cbn [sw_undo_step sw_undo_step_quiet sw_inverse sw_undoable]; rewrite E1;
      cbn [bind sw_is_valid]; splits; auto; (split; [exact L1|cbn; congruence]).
Qed.

Lemma undo_any p n d e s u e' : sw_inv n d (sw_graph e) -> sw_undoable p (sw_graph e) s ->
  sw_undo_step p e s = Done (u, e') ->
  sw_inv n d (sw_graph e') /\ payloads (sw_graph e') = payloads (sw_graph e).
Proof.
  intros I U E.
  destruct s as [| | |r a b|r a b|ge]; cbn [sw_undo_step sw_undoable] in *; try (injection E as _ <-; auto; fail);
    (apply bind_done in E as ([u' g'] & E & E'); injection E' as _ <-; cbn [sw_set sw_graph];
     eapply rewire_any; eauto).
Qed.

End Chain.
