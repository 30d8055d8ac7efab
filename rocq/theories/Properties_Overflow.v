(** Integers of limited size: what the code computes on 64-bit targets. *)
From Verif Require Import Base BaseFacts Sums Containers ContainerSpec ContainerFacts Graph GraphSpec GraphFacts Traversal Components ComponentSpec ComponentFacts Transitivity TransitivityFacts
  Properties_Graph FloatGraph Rng ErM Ws Config ConfigSpec ConfigFacts Overflow OverflowFacts.
From Coq Require Import ZArith QArith.
Set Implicit Arguments.
Local Open Scope nat_scope.

(** With at most [2^32] vertices the number of edges and twice the number fit. *)
Theorem C95_edges {T A : Type} {C : AdjContainer T A} {L : AdjLaws C} : forall p (g : graph A) i j d,
  simple_graph g -> (Z.of_nat (vertex_count g) <= 2 ^ 32)%Z ->
  add_edge_usize p g i j = add_edge p g i j /\
  average_degree_usize p g = Done (2 * edge_count g, vertex_count g) /\
  ((Z.of_nat d <= 2 ^ 63)%Z -> init_ring_usize p g d = init_ring p g d).
Proof.
  intros p g i j d W H. split; [apply add_edge_fits; auto|]. split.
  - unfold average_degree_usize, umul. rewrite ufit_ok; auto. pose proof (edge_fits W H). lia.
  - intros D. apply init_ring_fits; auto. lia.
Qed.
Print Assumptions C95_edges.

(** The counter of the paths is the largest number in [transitivity]. *)
Theorem C95_transitivity {T A : Type} {C : AdjContainer T A} {L : AdjLaws C} : forall (g : graph A),
  simple_graph g ->
  let closed := count (closed_path g) (triples (vertex_count g)) in
  let paths := count (two_path g) (triples (vertex_count g)) in
  ((Z.of_nat paths < 2 ^ 64)%Z -> forall p, transitivity_usize p g = Done (closed, paths)) /\
  ((2 ^ 64 <= Z.of_nat paths)%Z -> transitivity_usize Debug g = Panic /\
     exists c' p', transitivity_usize Release g = Done (c', p') /\
       Z.of_nat c' = (Z.of_nat closed mod 2 ^ 64)%Z /\ Z.of_nat p' = (Z.of_nat paths mod 2 ^ 64)%Z) /\
  ((Z.of_nat (vertex_count g) <= 2642245)%Z -> (Z.of_nat paths < 2 ^ 64)%Z).
Proof.
  intros g W closed paths.
  assert (Le : closed <= paths).
  { unfold closed, paths. apply closed_two. }
  pose proof (fun p => transitivity_mirror p (transitivity_spec W)) as M. fold closed paths in M.
  split; [|split].
  - intros H p. rewrite M. revert H Le. pose proof modulus_value as V. revert V. unfold wrap2. cbn [fst snd].
    generalize (usize_modulus tt) closed paths. clear. intros m c q V H Le. destruct p.
    + destruct (Nat.ltb_spec q m); auto. lia.
    + rewrite !Nat.mod_small by lia. auto.
  - intros H. rewrite !M. revert H Le. pose proof modulus_value as V. revert V. unfold wrap2. cbn [fst snd].
    generalize (usize_modulus tt) closed paths. clear. intros m c q V H Le. split.
    + destruct (Nat.ltb_spec q m); auto. lia.
    + exists (Nat.modulo c m), (Nat.modulo q m). rewrite !Nat2Z.inj_mod, V. auto.
  - intros H. assert (K : paths <= vertex_count g * (vertex_count g * vertex_count g)).
    { rewrite <- triples_length. apply count_length_le. }
    apply Nat2Z.inj_le in K. rewrite !Nat2Z.inj_mul in K.
    assert (K2 : (Z.of_nat (vertex_count g) * (Z.of_nat (vertex_count g) * Z.of_nat (vertex_count g)) <= 2642245 * (2642245 * 2642245))%Z).
    { apply Z.mul_le_mono_nonneg; try lia. apply Z.mul_le_mono_nonneg; lia. }
    lia.
Qed.
Print Assumptions C95_transitivity.

(** The sums of the distances in [closeness_centrality]. *)
Theorem C95_closeness {T A : Type} {C : AdjContainer T A} {L : AdjLaws C} : forall p (g : graph A),
  simple_graph g -> (Z.of_nat (vertex_count g) <= 2 ^ 32)%Z ->
  closeness_usize p g = closeness_centrality p g.
Proof. intros p g W H. apply closeness_fits; auto. Qed.
Print Assumptions C95_closeness.

(** [suggest_connections] numbers the components with an [i32]: in [Debug] it panics exactly
    if there are [2^31] components or more, in [Release] the numbers wrap around and the
    suggestions are still right. *)
Theorem C95_suggest {T A : Type} {C : AdjContainer T A} {L : AdjLaws C} : forall (g : graph A),
  simple_graph g -> exists l, suggest_connections g = Done l /\
  ((Z.of_nat (length l) < 2 ^ 32)%Z ->
   suggest_connections_i32 Release g = Done l /\
   ((Z.of_nat (length l) < 2 ^ 31)%Z -> suggest_connections_i32 Debug g = Done l) /\
   ((2 ^ 31 <= Z.of_nat (length l))%Z -> suggest_connections_i32 Debug g = Panic)).
Proof.
  intros g W. destruct (components_run W) as (l & ids & cur & E & _ & _). exists l. split; auto.
  intros H. split; [|split].
  - apply (suggest_fits Release W E H).
  - intros K. rewrite (suggest_fits Debug W E H). destruct (Z.ltb_spec (Z.of_nat (length l)) (2 ^ 31)); auto. lia.
  - intros K. rewrite (suggest_fits Debug W E H). destruct (Z.ltb_spec (Z.of_nat (length l)) (2 ^ 31)); auto. lia.
Qed.
Print Assumptions C95_suggest.

(** [connected_components_ids] with an [isize]. *)
Theorem C95_ids {T A : Type} {C : AdjContainer T A} {L : AdjLaws C} : forall p (g : graph A),
  simple_graph g -> (Z.of_nat (vertex_count g) < 2 ^ 63)%Z ->
  exists num ids, connected_components_ids g = Done (num, ids) /\
    connected_components_ids_isize p g =
      Done (num, map (fun o => match o with None => (-1)%Z | Some k => Z.of_nat k end) ids).
Proof.
  intros p g W H. destruct (components_run W) as (l & ids & cur & _ & E & _). exists cur, ids. split; auto.
  apply ids_fits; auto.
Qed.
Print Assumptions C95_ids.

(** [SmallWorldWS::new]; its argument [n] is a [u32]. *)
Theorem C95_ws_new {T : Type} : forall (mk : nat -> T) n d q rs, (Z.of_nat n < 2 ^ 32)%Z ->
  ((Z.of_nat d < 2 ^ 63)%Z -> forall p, ws_new_usize p mk n d q rs = ws_new p mk n d q rs) /\
  ((2 ^ 63 <= Z.of_nat d < 2 ^ 64)%Z ->
     ws_new_usize Debug mk n d q rs = Panic /\
     ((Z.of_nat n < 1 + 2 * (Z.of_nat d - 2 ^ 63))%Z -> ws_new_usize Release mk n d q rs = Done (Err ImpossibleRingRequest)) /\
     ((1 + 2 * (Z.of_nat d - 2 ^ 63) <= Z.of_nat n)%Z -> ws_new_usize Release mk n d q rs = UB)).
Proof.
  intros mk n d q rs H. split.
  - intros D p. apply ws_new_fits; auto. lia.
  - intros D. rewrite !ws_new_over by (auto; lia). split; auto.
    split; intros K; destruct (Z.ltb_spec (Z.of_nat n) (1 + 2 * (Z.of_nat d - 2 ^ 63))); auto; lia.
Qed.
Print Assumptions C95_ws_new.

(** So a ring with too few vertices is not always reported as an error. *)
Theorem C95_ws_distance_refuted {T : Type} : exists n d, n < 1 + 2 * d /\ (Z.of_nat n < 2 ^ 32)%Z /\ (Z.of_nat d < 2 ^ 64)%Z /\
  forall (mk : nat -> T) q rs,
    ws_new_usize Release mk n d q rs = UB /\ ws_new_usize Debug mk n d q rs = Panic.
Proof.
  exists 10, (Z.to_nat (2 ^ 63)). assert (E : Z.of_nat (Z.to_nat (2 ^ 63)) = (2 ^ 63)%Z) by (apply Z2Nat.id; discriminate).
  revert E. generalize (Z.to_nat (2 ^ 63)). intros d E. split; [lia|]. split; [lia|]. split; [lia|].
  intros mk q rs. destruct (@C95_ws_new T mk 10 d q rs) as [_ K]; [lia|]. destruct K as (K1 & _ & K2); [lia|].
  split; auto. apply K2. lia.
Qed.
Print Assumptions C95_ws_distance_refuted.

(** The number of possible edges in [ErEnsembleM::new]. *)
Theorem C95_er_m {T : Type} : forall p (mk : nat -> T) n m rs,
  (1 <= n -> (Z.of_nat n <= 2 ^ 32)%Z -> erm_new_usize p mk n m rs = erm_new p mk n m rs) /\
  ((2 ^ 32 < Z.of_nat n)%Z -> erm_new_usize Debug mk n m rs = Panic).
Proof.
  intros p mk n m rs. split.
  - intros H1 H. apply erm_new_fits; auto.
  - intros H. apply erm_new_over; auto. discriminate.
Qed.
Print Assumptions C95_er_m.

(** Above [2^32] vertices a possible number of edges is refused. *)
Theorem C95_er_m_refuted {T : Type} : exists n m, 2 * m <= n * (n - 1) /\ (Z.of_nat n < 2 ^ 64)%Z /\
  forall p (mk : nat -> T) rs, erm_new_usize p mk n m rs = Panic.
Proof.
  exists (Z.to_nat (2 ^ 32 + 1)), (Z.to_nat (2 ^ 31 + 1)).
  assert (E1 : Z.of_nat (Z.to_nat (2 ^ 32 + 1)) = (2 ^ 32 + 1)%Z) by (apply Z2Nat.id; discriminate).
  assert (E2 : Z.of_nat (Z.to_nat (2 ^ 31 + 1)) = (2 ^ 31 + 1)%Z) by (apply Z2Nat.id; discriminate).
  revert E1 E2. generalize (Z.to_nat (2 ^ 32 + 1)) (Z.to_nat (2 ^ 31 + 1)). intros n m E1 E2.
  assert (En : Z.of_nat (n * (n - 1)) = ((2 ^ 32 + 1) * 2 ^ 32)%Z) by (rewrite Nat2Z.inj_mul, Nat2Z.inj_sub, E1 by lia; reflexivity).
  split; [lia|]. split; [lia|]. intros p mk rs. apply erm_new_over; [lia|]. intros _.
  rewrite Nat2Z.inj_div, En, E1, E2. reflexivity.
Qed.
Print Assumptions C95_er_m_refuted.

(** The degrees of the configuration model: the parity of their sum survives the wrapping. *)
Theorem C95_config : forall v,
  degree_vec_is_valid_usize Release v = Done (degree_vec_is_valid v) /\
  (degree_vec_is_valid_usize Debug v = Panic <->
     1 < length v /\ (forall d, In d v -> d <= length v - 2) /\ (2 ^ 64 <= Z.of_nat (list_sum v))%Z) /\
  (degree_vec_is_valid_usize Debug v <> Panic -> degree_vec_is_valid_usize Debug v = Done (degree_vec_is_valid v)) /\
  ((Z.of_nat (length v) <= 2 ^ 32)%Z -> degree_vec_is_valid_usize Debug v = Done (degree_vec_is_valid v)).
Proof.
  intros v. rewrite !degree_vec_fits. split; auto.
  assert (Iff : (1 <? length v) && forallb (fun d => d <? length v - 1) v && (2 ^ 64 <=? Z.of_nat (list_sum v))%Z = true <->
     1 < length v /\ (forall d, In d v -> d <= length v - 2) /\ (2 ^ 64 <= Z.of_nat (list_sum v))%Z).
  { rewrite !andb_true_iff, Nat.ltb_lt, Z.leb_le, forallb_forall. split.
    - intros [[H1 H2] H3]. split; [auto|]. split; [|auto]. intros d Hd. specialize (H2 d Hd). apply Nat.ltb_lt in H2. lia.
    - intros (H1 & H2 & H3). split; [split|]; auto. intros d Hd. specialize (H2 d Hd). apply Nat.ltb_lt. lia. }
  destruct ((1 <? length v) && _ && _) eqn:E.
  - split; [split; auto; intros _; apply Iff; auto|]. split; [intros K; exfalso; apply K; auto|].
    intros Hl. exfalso. destruct (proj1 Iff eq_refl) as (H1 & H2 & H3).
    assert (K : list_sum v <= length v * (length v - 2)).
    { revert H2. generalize (length v - 2) as k. clear. induction v as [|x v IH]; intros k H; cbn; [lia|].
      pose proof (H x (or_introl eq_refl)). specialize (IH k (fun d Hd => H d (or_intror Hd))). unfold list_sum in IH. lia. }
    apply Nat2Z.inj_le in K. rewrite Nat2Z.inj_mul, Nat2Z.inj_sub in K by lia. nia.
  - split; [|auto]. split; [discriminate|]. intros H. apply Iff in H. discriminate.
Qed.
Print Assumptions C95_config.

(** [from_vec] and [from_const] with such integers. *)
Theorem C95_config_new {T : Type} : forall p (mk : nat -> T) v c n rs,
  (p = Release \/ (Z.of_nat (length v) <= 2 ^ 32)%Z -> cm_from_vec_usize p mk v rs = cm_from_vec p mk v rs) /\
  (1 <= n -> p = Release \/ (Z.of_nat (n * c) < 2 ^ 64)%Z -> cm_from_const_usize p mk c n rs = cm_from_const p mk c n rs) /\
  (c + 2 <= n -> (2 ^ 64 <= Z.of_nat (n * c))%Z -> cm_from_const_usize Debug mk c n rs = Panic).
Proof.
  intros p mk v c n rs. split; [|split].
  - intros H. unfold cm_from_vec_usize, cm_from_vec. destruct (C95_config v) as (R & _ & _ & D).
    destruct p; [destruct H as [H|H]; [discriminate|rewrite (D H)]|rewrite R]; reflexivity.
  - intros Hn H. rewrite from_const_fits by auto. destruct p; auto. destruct H as [H|H]; [discriminate|].
    destruct (Z.leb_spec (2 ^ 64) (Z.of_nat (n * c))); [lia|]. rewrite andb_false_r. auto.
  - intros Hn H. rewrite from_const_fits by lia. destruct (Nat.ltb_spec c (n - 1)); [|lia].
    destruct (Z.leb_spec (2 ^ 64) (Z.of_nat (n * c))); [auto|lia].
Qed.
Print Assumptions C95_config_new.

Example C95_case : simple_graph ex_graph /\ (Z.of_nat (vertex_count ex_graph) <= 2642245)%Z /\
  forall p (mk : nat -> nat) rs,
  transitivity_usize p ex_graph = Done (6, 10) /\
  suggest_connections_i32 p ex_graph = suggest_connections ex_graph /\
  isucc 31 Debug (2 ^ 31 - 1) = Panic /\ isucc 31 Release (2 ^ 31 - 1) = Done (- 2 ^ 31)%Z /\
  cm_from_const_usize p mk 1 4 rs = cm_from_const p mk 1 4 rs /\
  erm_new_usize p mk 4 7 rs = Panic.
Proof.
  assert (V : (Z.of_nat (vertex_count ex_graph) <= 2642245)%Z) by (vm_compute; discriminate).
  split; [exact ex_graph_simple|]. split; [exact V|]. intros p mk rs. splits; [| |reflexivity|reflexivity| |].
  - destruct (C95_transitivity ex_graph_simple) as (K & _ & B). rewrite (K (B V) p). vm_compute. reflexivity.
  - destruct (C95_suggest ex_graph_simple) as (l & E & K). rewrite E. vm_compute in E. injection E as <-.
    destruct K as (K1 & K2 & _); [vm_compute; reflexivity|]. destruct p; auto.
  - destruct (@C95_config_new nat p mk [] 1 4 rs) as (_ & K & _). apply K; [lia|]. right. vm_compute. reflexivity.
  - destruct (@C95_er_m nat p mk 4 7 rs) as [K _]. rewrite K; [|lia|vm_compute; discriminate]. vm_compute. reflexivity.
Qed.
