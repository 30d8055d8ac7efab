(** A state of [SwEnsemble] and draws for which [randomize] takes quadratic time: nearly all
    vertices are joined to vertex 0, and half of them are taken away again, one after the
    other. *)
From Verif Require Import Base BaseFacts Containers ContainerSpec ContainerFacts Graph GraphSpec GraphFacts.
From Verif Require Import GraphOps GraphBuild Rng RngFacts Sw SwSpec SwFacts SwChain Cost CostFacts CostLoad CostSw.
From Coq Require Import QArith.
Set Implicit Arguments.
Unset Strict Implicit.
Local Open Scope nat_scope.

Lemma fold_cost_app {A S} (f : S -> A -> counted S) l1 l2 : forall s s1,
  fst (cfoldM f s l1) = Done s1 ->
  fst (cfoldM f s (l1 ++ l2)) = fst (cfoldM f s1 l2) /\
  snd (cfoldM f s (l1 ++ l2)) + 1 = snd (cfoldM f s l1) + snd (cfoldM f s1 l2).
Proof.
  induction l1 as [|x l1 IH]; intros s s1 E; cbn [cfoldM app] in *.
  - injection E as <-. rewrite snd_paid. split; auto. lia.
  - rewrite fst_charge, fst_cbind in E. rewrite !fst_charge, !fst_cbind, !snd_charge, !snd_cbind.
    apply bind_done in E as (s' & E1 & E). rewrite E1. cbn [bind].
    destruct (IH _ _ E) as [H1 H2]. split; auto. lia.
Qed.

Section Hub.
Context {T : Type}.
Implicit Types (g : graph (sw_container T)) (e : sw_ensemble T).

(** One edge moved, with the order of the entries. *)
Lemma rewire_lists p n d g i f k o :
  sw_inv n d g -> rooted_from g i f o -> f <> k -> i <> k -> k < n -> ~ adj g i k ->
  exists g' t, sw_rewire_edge p g i f k = Done (Sw_Rewire i f k, g') /\ moved g i f k o g' /\
    entries g' k = entries g k ++ [mk_se i None] /\
    nth_error (entries g f) t = Some (mk_se i None) /\
    swap_remove (entries g f) t = Done (entries g' f) /\
    t < snd (sw_rewire_edge_c p g i f k).
Proof.
  intros I H N3 N2 H2 A. pose proof I as (W & V & _ & _ & P).
  destruct (rewire_ok p I H N3 N2 H2 A) as (g' & E & M). exists g'.
  destruct (root_end W P H) as (N1 & H0 & H1 & Hl). rewrite <- V in H2.
  destruct (container_entries W H0) as (c0 & E0 & D0 & A0).
  destruct (container_entries W H1) as (c1 & E1 & D1 & A1).
  destruct (container_entries W H2) as (c2 & E2 & D2 & A2).
  destruct (sc_position_entry W E0 H) as (k0 & Ek & Nk). cbn [se_to] in Ek.
  destruct (sc_position_entry W E1 Hl) as (k1 & Ek1 & Nk1). cbn [se_to] in Ek1.
  exists k1. pose proof E as E'. unfold sw_rewire_edge in E'. unfold sw_rewire_edge_c.
  destruct (Nat.eqb_spec f k); [congruence|].
  rewrite (@get_3_mut_ok _ p g i f k c0 c1 c2) in * by auto. cbn [bind] in E'.
  rewrite snd_cbind, snd_paid, fst_paid, snd_cbind.
  apply bind_done in E' as ([s [[a b] c]] & Er & E').
  unfold sc_rewire in Er. rewrite D0, D1, D2, Ek, Ek1 in Er.
  destruct (sc_is_adjacent c0 k) eqn:Ad; [apply (sc_adjacent_adj k E0) in Ad; tauto|].
  unfold vget in Er. rewrite Nk in Er. cbn [bind] in Er.
  replace (debug_assert p (se_is_root (mk_se f (Some o)))) with (Done tt) in Er by (destruct p; reflexivity).
  cbn [bind expect] in Er. destruct (swap_remove_spec _ _ Nk1) as (l1 & El1 & _). rewrite El1 in Er.
  cbn [bind] in Er. injection Er as <- <- <- <-. injection E' as E'.
  assert (Lt : forall i c, nth_error (vertices g) i = Some c -> i < length (vertices g)).
  { intros. eapply nth_error_lt; eauto. }
  splits; auto.
  - rewrite <- E'. unfold entries at 1. cbn [with_vertices vertices]. rewrite nth_error_upd, Nat.eqb_refl.
    rewrite !upd_length. destruct (Nat.ltb_spec k (length (vertices g))) as [|Z]; [|pose proof (Lt _ _ E2); lia].
    cbn. rewrite A2. auto.
  - rewrite <- A1. auto.
  - rewrite <- A1, El1. f_equal. rewrite <- E'. unfold entries. cbn [with_vertices vertices].
    rewrite nth_error_upd. destruct (Nat.eqb_spec k f); [congruence|]. cbn [andb].
    rewrite nth_error_upd, Nat.eqb_refl, !upd_length.
    destruct (Nat.ltb_spec f (length (vertices g))) as [|Z]; [|pose proof (Lt _ _ E1); lia]. reflexivity.
  - assert (Q : k1 < snd (sc_rewire_c p c0 c1 c2)).
    { unfold sc_rewire_c, sc_adj_position_c, sc_is_adjacent_c. rewrite D0, D1, D2, Ek, Ek1, Ad.
      rewrite snd_cbind, fst_paid, snd_paid, snd_cbind, fst_paid, snd_paid, snd_cbind, fst_paid, snd_paid.
      unfold vget. rewrite Nk. rewrite snd_cbind, fst_paid, snd_paid.
      replace (debug_assert p (se_is_root (mk_se f (Some o)))) with (Done tt) by (destruct p; reflexivity).
      rewrite snd_cbind, snd_paid. unfold looked at 3. unfold sc_adj_position in Ek1. rewrite Ek1. lia. }
    lia.
Qed.

(** The draws that make [randomize_edge] choose [k]. *)
Definition choose (i k : nat) : list nat := [0; if k <? i then k else k - 1].

Lemma edge_choice p g i f k rs n : vertex_count g = n -> i < n -> k < n -> i <> k ->
  let e := mk_swe g 1%Q in
  fst (sw_randomize_edge_c p e i f (choose i k ++ rs)) =
    (do ' (s, g') <- sw_rewire_edge p g i f k; Done (s, mk_swe g' 1%Q, rs)) /\
  snd (sw_rewire_edge_c p g i f k) <= snd (sw_randomize_edge_c p e i f (choose i k ++ rs)).
Proof.
  intros V Hi Hk N e.
  assert (D : draw_remaining i (n - 1) ((if k <? i then k else k - 1) :: rs) = Done (k, rs)).
  { rewrite draw_remaining_cons by lia. rewrite Nat.mod_small by (destruct (Nat.ltb_spec k i); lia).
    destruct (Nat.ltb_spec k i); [destruct (Nat.ltb_spec k i)|destruct (Nat.ltb_spec (k - 1) i)]; repeat f_equal; lia. }
  assert (U : usub p n 1 = Done (n - 1)).
  { unfold usub. destruct (Nat.leb_spec 1 n); [auto|lia]. }
  unfold sw_randomize_edge_c. change (gen_f64 (choose i k ++ rs)) with
    (Done (unit_float 0, (if k <? i then k else k - 1) :: rs)).
  rewrite fst_cbind, snd_cbind, !fst_paid, snd_paid. cbn [bind].
  change (Qle_bool (unit_float 0) (sw_r_prob e)) with true. cbn [sw_graph e].
  change (sw_graph e) with g. rewrite V, U.
  rewrite fst_cbind, snd_cbind, !fst_paid, snd_paid. cbn [bind]. rewrite D.
  rewrite fst_cbind, snd_cbind, !fst_paid, snd_paid. cbn [bind].
  rewrite fst_cbind, snd_cbind, sw_rewire_edge_same. split; [|lia].
  apply bind_ext. intros [s g']. reflexivity.
Qed.

(** Both edges of a vertex. *)
Lemma vertex_choice p n g i a b k1 k2 s1 g1 s2 g2 rs : sw_inv n 2 g -> i < n ->
  map se_to (filter se_is_root (entries g i)) = [a; b] ->
  k1 < n -> i <> k1 -> k2 < n -> i <> k2 ->
  sw_rewire_edge p g i a k1 = Done (s1, g1) -> sw_is_valid s1 = true -> vertex_count g1 = n ->
  sw_rewire_edge p g1 i b k2 = Done (s2, g2) -> sw_is_valid s2 = true ->
  fst (sw_randomize_vertex_c p (mk_swe g 1%Q, choose i k1 ++ choose i k2 ++ rs) i) = Done (mk_swe g2 1%Q, rs) /\
  snd (sw_rewire_edge_c p g i a k1) + snd (sw_rewire_edge_c p g1 i b k2) <=
    snd (sw_randomize_vertex_c p (mk_swe g 1%Q, choose i k1 ++ choose i k2 ++ rs) i).
Proof.
  intros I Hi El H1 N1 H2 N2 E1 V1 Vg E2 V2. pose proof I as (W & V & _).
  assert (Hv : i < vertex_count g) by lia.
  destruct (container_entries W Hv) as (c & Ec & _ & Ac).
  unfold sw_randomize_vertex_c. cbn [sw_graph]. unfold vget. rewrite Ec.
  rewrite fst_cbind, snd_cbind, !fst_paid, snd_paid. cbn [bind]. cbv zeta.
  rewrite Ac, El, fst_charge, snd_charge. cbn [nth_error expect].
  replace (debug_assert p (length [a; b] <=? 2)) with (Done tt) by (destruct p; reflexivity).
  rewrite fst_cbind, snd_cbind, !fst_paid, snd_paid. cbn [bind].
  rewrite fst_cbind, snd_cbind, !fst_paid, snd_paid. cbn [bind].
  rewrite fst_cbind, snd_cbind, !fst_paid, snd_paid. cbn [bind].
  destruct (edge_choice p a (choose i k2 ++ rs) V Hi H1 N1) as [F1 C1].
  rewrite E1 in F1. cbn [bind] in F1.
  rewrite fst_cbind, snd_cbind, F1. cbn [bind].
  assert (K1 : debug_error_check p s1 = Done tt) by (destruct p, s1; cbn in V1; congruence || reflexivity).
  assert (K2 : debug_error_check p s2 = Done tt) by (destruct p, s2; cbn in V2; congruence || reflexivity).
  rewrite fst_cbind, snd_cbind, !fst_paid, snd_paid, K1. cbn [bind].
  destruct (edge_choice p b rs Vg Hi H2 N2) as [F2 C2]. rewrite E2 in F2. cbn [bind] in F2.
  rewrite fst_cbind, snd_cbind, F2. cbn [bind].
  rewrite fst_cbind, snd_cbind, !fst_paid, snd_paid, K2. cbn [bind]. split; [reflexivity|]. lia.
Qed.

(** Some draws take the graph from [g] to [g'] in more than [k] steps. *)
Definition goes p g l k g' : Prop :=
  exists ws, forall rs,
    fst (cfoldM (sw_randomize_vertex_c p) (mk_swe g 1%Q, ws ++ rs) l) = Done (mk_swe g' 1%Q, rs) /\
    k < snd (cfoldM (sw_randomize_vertex_c p) (mk_swe g 1%Q, ws ++ rs) l).

Lemma goes_nil p g : goes p g [] 0 g.
Proof. exists []. intros rs. cbn. split; auto. Qed.

Lemma goes_app p g l1 k1 g1 l2 k2 g2 :
  goes p g l1 k1 g1 -> goes p g1 l2 k2 g2 -> goes p g (l1 ++ l2) (k1 + k2) g2.
Proof.
  intros [ws H1] [vs H2]. exists (ws ++ vs). intros rs. rewrite <- app_assoc.
  destruct (H1 (vs ++ rs)) as [F1 C1], (H2 rs) as [F2 C2].
  destruct (fold_cost_app l2 F1) as [F C]. rewrite F. split; auto. lia.
Qed.

Lemma goes_one p g i k g' ws :
  (forall rs, fst (sw_randomize_vertex_c p (mk_swe g 1%Q, ws ++ rs) i) = Done (mk_swe g' 1%Q, rs) /\
    k <= snd (sw_randomize_vertex_c p (mk_swe g 1%Q, ws ++ rs) i)) ->
  goes p g [i] k g'.
Proof.
  intros H. exists ws. intros rs. destruct (H rs) as [F C]. cbn [cfoldM].
  rewrite fst_charge, fst_cbind, snd_charge, snd_cbind, F. cbn [bind cfoldM]. rewrite fst_paid, snd_paid. split; auto. lia.
Qed.

Lemma roots_pair n g i : sw_inv n 2 g -> i < n ->
  exists a b, map se_to (filter se_is_root (entries g i)) = [a; b].
Proof.
  intros I Hi. destruct (roots_two I Hi (le_n 2)) as (a & b & l & E & L). destruct l; [|discriminate].
  eauto.
Qed.

Lemma rewire_same p g i a : sw_rewire_edge p g i a a = Done (Sw_Nothing, g).
Proof. unfold sw_rewire_edge. rewrite Nat.eqb_refl. auto. Qed.

Lemma rooted_range n g i a : sw_inv n 2 g -> rooted g i a -> a < n /\ i <> a.
Proof.
  intros (W & V & _ & _ & P) [o R]. destruct (root_end W P R) as (N & _ & H & _). rewrite V in H. auto.
Qed.

(** The edges of a vertex can be left where they are. *)
Lemma goes_idle p n g i : sw_inv n 2 g -> i < n -> goes p g [i] 0 g.
Proof.
  intros I Hi. destruct (roots_pair I Hi) as (a & b & E).
  assert (Ra : rooted g i a) by (apply rooted_filter; rewrite E; simpl; auto).
  assert (Rb : rooted g i b) by (apply rooted_filter; rewrite E; simpl; auto).
  destruct (rooted_range I Ra), (rooted_range I Rb). pose proof I as (_ & V & _).
  apply goes_one with (ws := choose i a ++ choose i b). intros rs. rewrite <- app_assoc.
  destruct (@vertex_choice p n g i a b a b Sw_Nothing g Sw_Nothing g rs) as [F C]; auto using rewire_same.
  split; auto. lia.
Qed.

Lemma goes_idles p n g l : sw_inv n 2 g -> Forall (fun i => i < n) l -> goes p g l 0 g.
Proof.
  intros I. induction l as [|i l IH]; intros F; [apply goes_nil|].
  apply Forall_cons_iff in F as [Hi F]. change (i :: l) with ([i] ++ l). change 0 with (0 + 0).
  eapply goes_app; [apply (goes_idle p I Hi)|auto].
Qed.

(** One edge of a vertex can be moved alone. *)
Lemma goes_move p n g i f k : sw_inv n 2 g -> rooted g i f -> f <> k -> i <> k -> k < n -> ~ adj g i k ->
  exists g' t, goes p g [i] t g' /\ sw_inv n 2 g' /\
    entries g' k = entries g k ++ [mk_se i None] /\
    nth_error (entries g f) t = Some (mk_se i None) /\
    swap_remove (entries g f) t = Done (entries g' f) /\
    (forall x, x <> i -> x <> f -> x <> k -> entries g' x = entries g x).
Proof.
  intros I R N3 N2 Hk A. pose proof I as (W & V & _ & _ & P). pose proof R as [o Ro].
  destruct (rewire_lists p I Ro N3 N2 Hk A) as (g' & t & E & M & L1 & L2 & L3 & C).
  destruct (root_end W P Ro) as (N1 & Hi & Hf & _). rewrite V in Hi, Hf.
  assert (I' : sw_inv n 2 g') by exact (moved_inv I N1 N2 N3 Hi Hf Hk A M).
  exists g', t. splits; auto; [|apply M].
  destruct (roots_pair I Hi) as (a & b & El).
  assert (Ra : rooted g i a) by (apply rooted_filter; rewrite El; simpl; auto).
  assert (Rb : rooted g i b) by (apply rooted_filter; rewrite El; simpl; auto).
  destruct (rooted_range I Ra), (rooted_range I Rb). pose proof I' as (_ & V' & _).
  pose proof (proj1 (rooted_filter _ _ _) R) as Rf. rewrite El in Rf. destruct Rf as [<-|[<-|[]]].
  - apply goes_one with (ws := choose i k ++ choose i b). intros rs. rewrite <- app_assoc.
    destruct (@vertex_choice p n g i a b k b (Sw_Rewire i a k) g' Sw_Nothing g' rs I Hi El) as [F C']; auto using rewire_same.
    split; auto. lia.
  - apply goes_one with (ws := choose i a ++ choose i k). intros rs. rewrite <- app_assoc.
    destruct (@vertex_choice p n g i a b a k Sw_Nothing g (Sw_Rewire i b k) g' rs I Hi El) as [F C']; auto using rewire_same.
    split; auto. lia.
Qed.

Definition loose (i : nat) : sw_edge := mk_se i None.

Lemma goes_move_at p n g i f k A B : sw_inv n 2 g ->
  entries g f = A ++ loose i :: B -> f <> k -> i <> k -> k < n -> ~ adj g i k ->
  exists g', goes p g [i] (length A) g' /\ sw_inv n 2 g' /\
    entries g' k = entries g k ++ [loose i] /\
    swap_remove (entries g f) (length A) = Done (entries g' f) /\
    (forall x, x <> i -> x <> f -> x <> k -> entries g' x = entries g x).
Proof.
  intros I Ef N3 N2 Hk Na. pose proof I as (W & _ & _ & _ & P).
  assert (R : rooted g i f).
  { apply P. rewrite Ef. apply in_or_app. simpl; auto. }
  destruct (goes_move p I R N3 N2 Hk Na) as (g' & t & G & I' & E1 & E2 & E3 & E4).
  exists g'. assert (t = length A); [|subst t; splits; auto].
  pose proof (proj1 (NoDup_nth_error _) (entries_NoDup f W)) as D.
  apply D; [apply (nth_error_lt _ _ E2)|]. rewrite E2, Ef, nth_error_app2, Nat.sub_diag by lia. reflexivity.
Qed.

Section Two.
Variables (p : profile) (m : nat).
Notation n := (m + 6).
Notation outside x := (x < 4 \/ m + 4 <= x).
Notation ring_like H g := (Forall (fun x => outside (se_to x)) H /\ forall j, adj g 1 j -> outside j).

(** The ring. *)
Lemma ring_start (mk : nat -> T) : exists g H,
  sw_init_ring_2 p (graph_new mk n) = Done g /\ sw_inv n 2 g /\ entries g 0 = H /\ ring_like H g.
Proof.
  destruct (@graph_new_spec T (sw_container T) _ _ mk n) as (W & V & _ & _ & _).
  destruct (@sw_ring T p (graph_new mk n) 2 W) as (g & E & I & _); [rewrite V; lia|].
  destruct (@init_ring_ok T (sw_container T) _ _ p (graph_new mk n) 2 W) as (g' & E' & _ & _ & _ & _ & Ad & _); [rewrite V; lia|].
  rewrite E in E'. injection E' as <-. rewrite V in *.
  exists g, (entries g 0). splits; auto.
  - unfold sw_init_ring_2. rewrite E. reflexivity.
  - apply Forall_forall. intros x Hx. apply entry_adj, Ad in Hx as (_ & Hj & Hd).
    unfold cyclic_distance in Hd. rewrite !steps_round_eq in Hd by lia.
    destruct (Nat.leb_spec 0 (se_to x)), (Nat.leb_spec (se_to x) 0); lia.
  - intros j A. apply Ad in A as (_ & Hj & Hd).
    unfold cyclic_distance in Hd. rewrite !steps_round_eq in Hd by lia.
    destruct (Nat.leb_spec 1 j), (Nat.leb_spec j 1); lia.
Qed.

(** All vertices but a few get an edge to vertex 0. *)
Lemma gather H : forall t g, t <= m -> sw_inv n 2 g -> entries g 0 = H -> ring_like H g ->
  exists c g', goes p g (seq 4 t) c g' /\ sw_inv n 2 g' /\
    entries g' 0 = H ++ map loose (seq 4 t) /\ forall j, adj g' 1 j -> outside j.
Proof.
  induction t as [|t IH]; intros g Ht I E [FH F1].
  - exists 0, g. splits; auto; [apply goes_nil|]. cbn. rewrite app_nil_r. auto.
  - destruct (IH g) as (c & g1 & G & I1 & E1 & O1); auto; [lia|].
    set (i := 4 + t). assert (Hi : i < n) by (unfold i; lia).
    pose proof I1 as (W1 & _).
    destruct (roots_pair I1 Hi) as (a & b & El).
    assert (Ra : rooted g1 i a) by (apply rooted_filter; rewrite El; simpl; auto).
    pose proof (rooted_adj Ra) as Aa. destruct (rooted_range I1 Ra) as [La Na].
    assert (Z : ~ adj g1 i 0).
    { intros A. apply (sg_sym W1) in A. apply adj_entries in A as (x & Hx & Ex). rewrite E1 in Hx.
      apply in_app_or in Hx as [Hx|Hx].
      - apply (proj1 (Forall_forall _ _) FH) in Hx. unfold i in Ex. lia.
      - apply in_map_iff in Hx as (y & <- & Hy). apply in_seq in Hy. cbn in Ex. unfold i in Ex. lia. }
    assert (N0 : a <> 0) by (intros ->; auto).
    assert (N1 : a <> 1).
    { intros ->. apply (sg_sym W1) in Aa. apply O1 in Aa. unfold i in Aa. lia. }
    destruct (@goes_move p n g1 i a 0 I1 Ra) as (g2 & t' & G2 & I2 & E2 & _ & _ & X2); auto; try (unfold i; lia).
    exists (c + t'), g2. splits; auto.
    + rewrite seq_S. eapply goes_app; eauto.
    + rewrite E2, E1, seq_S, map_app, app_assoc. reflexivity.
    + intros j A. apply O1. apply adj_entries. apply adj_entries in A as (x & Hx & Ex). exists x. split; auto.
      rewrite <- X2; auto. unfold i; lia.
Qed.

Lemma swap_first (A : list sw_edge) x B y :
  swap_remove (A ++ x :: B ++ [y]) (length A) = Done (A ++ y :: B).
Proof.
  replace (A ++ x :: B ++ [y]) with ((A ++ x :: B) ++ [y]) by (rewrite <- app_assoc; reflexivity).
  rewrite swap_remove_snoc by (rewrite app_length; cbn; lia). rewrite app_length. cbn [length].
  destruct (Nat.eqb_spec (length A) (length A + S (length B))); [lia|].
  rewrite upd_app_r, Nat.sub_diag by lia. reflexivity.
Qed.

(** Half of them leave again, for vertex 1. *)
Lemma leave H : forall t g, 2 * t <= m -> sw_inv n 2 g -> entries g 0 = H ++ map loose (seq 4 m) ->
  (forall j, adj g 1 j -> outside j) ->
  exists c g', t * (t - 1) <= 2 * c /\ goes p g (seq 4 t) c g' /\ sw_inv n 2 g' /\
    entries g' 0 = H ++ map loose (rev (seq (4 + m - t) t)) ++ map loose (seq (4 + t) (m - 2 * t)) /\
    forall j, adj g' 1 j -> outside j \/ 4 <= j < 4 + t.
Proof.
  induction t as [|t IH]; intros g Ht I E F1.
  - exists 0, g. splits; auto; [apply goes_nil|]. cbn [seq rev map app Nat.mul]. rewrite Nat.sub_0_r. auto.
  - destruct (IH g) as (c & g1 & C & G & I1 & E1 & O1); auto; [lia|].
    set (i := 4 + t). pose proof I1 as (W1 & _).
    set (A := H ++ map loose (rev (seq (4 + m - t) t))).
    set (B := map loose (seq (5 + t) (m - 2 * S t))).
    assert (L : entries g1 0 = A ++ loose i :: B ++ [loose (3 + m - t)]).
    { rewrite E1. unfold A, B, i. rewrite <- app_assoc. do 2 f_equal.
      replace (m - 2 * t) with (S (S (m - 2 * S t))) by lia.
      change (seq (4 + t) (S (S (m - 2 * S t)))) with ((4 + t) :: seq (5 + t) (S (m - 2 * S t))). cbn [map]. f_equal.
      rewrite seq_S, map_app. cbn [map]. do 3 f_equal. lia. }
    assert (Z : ~ adj g1 i 1).
    { intros X. apply (sg_sym W1) in X. apply O1 in X. unfold i in X. lia. }
    destruct (@goes_move_at p n g1 i 0 1 A (B ++ [loose (3 + m - t)]) I1 L) as (g2 & G2 & I2 & E2 & S2 & X2); auto; try (unfold i; lia).
    exists (c + length A), g2. splits; auto.
    + unfold A. rewrite app_length, map_length, rev_length, seq_length. nia.
    + rewrite seq_S. eapply goes_app; eauto.
    + rewrite L, swap_first in S2. injection S2 as S2. rewrite <- S2. unfold A, B.
      rewrite <- app_assoc. f_equal.
      replace (seq (4 + m - S t) (S t)) with ((3 + m - t) :: seq (4 + m - t) t).
      * cbn [rev]. rewrite map_app, <- app_assoc. reflexivity.
      * replace (4 + m - S t) with (3 + m - t) by lia. cbn [seq]. do 2 f_equal. lia.
    + intros j Aj. apply adj_entries in Aj as (x & Hx & Ex). rewrite E2 in Hx.
      apply in_app_or in Hx as [Hx|[<-|[]]].
      * destruct (O1 j) as [?|?]; [apply adj_entries; eauto|auto|]. right. lia.
      * cbn in Ex. unfold i in Ex. right. lia.
Qed.

(** Both passes. *)
Lemma hub_run (mk : nat -> T) h : 2 * h <= m ->
  exists ws e vs, sw_new p mk n 1%Q ws = Done (e, []) /\
    (exists e', sw_randomize p e vs = Done (e', [])) /\
    h * (h - 1) <= 2 * snd (sw_randomize_c p e vs).
Proof.
  intros Hh. destruct (ring_start mk) as (g0 & H & E0 & I0 & L0 & R0).
  destruct (gather (le_n m) I0 L0 R0) as (c1 & g1 & G1 & I1 & L1 & O1).
  destruct (leave Hh I1 L1 O1) as (c2 & g2 & C2 & G2 & I2 & _).
  assert (S1 : seq 0 n = seq 0 4 ++ seq 4 m ++ seq (4 + m) 2).
  { rewrite <- !seq_app. f_equal. lia. }
  assert (S2 : seq 0 n = seq 0 4 ++ seq 4 h ++ seq (4 + h) (m + 2 - h)).
  { rewrite <- !seq_app. f_equal. lia. }
  assert (F : forall a b, a + b <= n -> Forall (fun i => i < n) (seq a b)).
  { intros a b L. apply Forall_forall. intros x Hx. apply in_seq in Hx. lia. }
  assert (P1 : goes p g0 (seq 0 n) (0 + (c1 + 0)) g1).
  { rewrite S1. eapply goes_app; [apply (goes_idles p I0)|eapply goes_app; [exact G1|apply (goes_idles p I1)]];
      apply F; lia. }
  assert (P2 : goes p g1 (seq 0 n) (0 + (c2 + 0)) g2).
  { rewrite S2. eapply goes_app; [apply (goes_idles p I1)|eapply goes_app; [exact G2|apply (goes_idles p I2)]];
      apply F; lia. }
  destruct P1 as [ws P1], P2 as [vs P2]. specialize (P1 []). specialize (P2 []). rewrite app_nil_r in *.
  destruct I0 as (_ & V0 & _), I1 as (_ & V1 & _).
  assert (Q1 : fst (sw_randomize_c p (mk_swe g0 1%Q) ws) = Done (mk_swe g1 1%Q, [])).
  { unfold sw_randomize_c. cbn [sw_graph]. rewrite V0. apply P1. }
  assert (Q2 : fst (sw_randomize_c p (mk_swe g1 1%Q) vs) = Done (mk_swe g2 1%Q, [])).
  { unfold sw_randomize_c. cbn [sw_graph]. rewrite V1. apply P2. }
  exists ws, (mk_swe g1 1%Q), vs. splits.
  - unfold sw_new. rewrite E0. cbn [bind]. rewrite <- sw_randomize_same. exact Q1.
  - exists (mk_swe g2 1%Q). rewrite <- sw_randomize_same. exact Q2.
  - assert (c2 < snd (sw_randomize_c p (mk_swe g1 1%Q) vs)); [|lia].
    unfold sw_randomize_c. cbn [sw_graph]. rewrite V1. destruct P2. lia.
Qed.

End Two.

(** No multiple of the number of vertices bounds the time. *)
Lemma sw_randomize_not_linear p (mk : nat -> T) K :
  exists n ws e vs, sw_new p mk n 1%Q ws = Done (e, []) /\
    (exists e', sw_randomize p e vs = Done (e', [])) /\
    K * (n + 1) < snd (sw_randomize_c p e vs).
Proof.
  set (h := 6 * K + 20).
  destruct (@hub_run p (2 * h) mk h (le_n _)) as (ws & e & vs & E & R & C).
  exists (2 * h + 6), ws, e, vs. splits; auto. unfold h in *. nia.
Qed.

End Hub.
