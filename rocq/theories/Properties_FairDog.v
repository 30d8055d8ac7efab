(** Theorems about the further edges of a special vertex of [DogEnsemble]. *)
From Verif Require Import Base BaseFacts Containers ContainerSpec ContainerFacts Graph GraphSpec Sums GraphFacts GraphOps
  GraphBuild Rng RngFacts Runs Spacial SpacialSpec SpacialFacts Dog DogSpec DogFacts UniformSpec SurelySpec SurelyFacts
  FairSpec FairFacts FairDog.
From Verif Require Properties_Dog.
From Coq Require Import QArith.
Local Open Scope nat_scope.

(** ** C97 *)

(** The [m] further edges of a special vertex are made with probability one, after finitely many
    draws on average, if there are [m] vertices they can lead to; otherwise whatever is drawn the
    loop does not end. *)
Theorem C97_dog {T : Type} : forall p (g : sgraph T) node m h,
  simple_graph g -> node < vertex_count g -> vertex_count g <= h ->
  let f := fun ds => dog_node p ((g, 2 * edge_count g), m :: ds) node in
  ((exists l, NoDup l /\ m <= length l /\ forall k, In k l -> dog_target g node k) ->
   ends_surely h f /\ exists c, mean_draws_at_most c h f) /\
  (~ (exists l, NoDup l /\ m <= length l /\ forall k, In k l -> dog_target g node k) -> never_ends f).
Proof.
  intros p g node m h W Hn Hh f. split.
  - intros Ex. pose proof (edges_swift p W Hn Hh Ex) as S. split.
    + eapply (swift_surely (h := h)); [lia|exact S].
    + eexists. eapply (mean_bound (h := h)); [lia|exact S].
  - intros Nx ds. apply (Properties_Dog.C68_node p g node m W Hn); auto.
Qed.
Print Assumptions C97_dog.

(** ** C98 *)

(** The next edge of a special vertex goes to each vertex that it can lead to with a probability
    proportional to the number of random numbers that are less than the share that the degree of that
    vertex has of all degrees. *)
Theorem C98_dog_edge {T : Type} : forall p (g : sgraph T) node j M,
  simple_graph g -> node < vertex_count g -> dog_target g node j ->
  Z.of_nat M = (2 ^ 53)%Z ->
  let s := list_sum (map (fun k => length (nbrs g k)) (seq 0 (vertex_count g))) in
  let share := fun k => floats_below M (length (nbrs g k)) s in
  probability (share j)
    (list_sum (map share (filter (fun k => negb (k =? node) && negb (adjb g node k)) (seq 0 (vertex_count g)))))
    (M * vertex_count g)
    (fun ds => dog_edge p node ((g, s), ds)) (fun st => adjb (fst st) node j).
Proof.
  intros p g node j M W Hn Tj HM.
  assert (Es : list_sum (map (fun k => length (nbrs g k)) (seq 0 (vertex_count g))) = 2 * edge_count g)
    by exact (simple_degsum W).
  rewrite Es. intros s share.
  replace (list_sum _) with
    (sum_over (fun k => if (k =? node) || adjb g node k then 0 else share k) (seq 0 (vertex_count g))).
  - apply (dog_probability p W Hn HM Tj).
  - clear Es. induction (seq 0 (vertex_count g)) as [|k l IH]; auto. rewrite sum_over_cons, IH. cbn [filter].
    destruct (k =? node), (adjb g node k); reflexivity.
Qed.
Print Assumptions C98_dog_edge.

(** This number is the share of the degree up to rounding. *)
Theorem C98_dog_share : forall M d s, 0 < s ->
  M * d <= floats_below M d s * s < M * d + s.
Proof.
  intros M d s Hs. unfold floats_below.
  pose proof (Nat.div_mod (M * d + (s - 1)) s ltac:(lia)) as E.
  pose proof (Nat.mod_upper_bound (M * d + (s - 1)) s ltac:(lia)) as B.
  set (q := (M * d + (s - 1)) / s) in *. set (r := Nat.modulo (M * d + (s - 1)) s) in *. clearbody q r. nia.
Qed.
Print Assumptions C98_dog_share.

(** Each edge that is made for a special vertex is made like this: after the first [done] of them
    the graph is simple, the second component of the state is the sum of the degrees, and the vertices
    that further edges can lead to are those that they could lead to at first, without the new neighbours. *)
Theorem C98_dog_edges {T : Type} : forall p (g : sgraph T) node m rs,
  simple_graph g -> node < vertex_count g ->
  dog_node p ((g, 2 * edge_count g), m :: rs) node =
    foldM (fun st _ => dog_edge p node st) ((g, 2 * edge_count g), rs) (seq 0 m) /\
  forall done g' s' rs', 
    foldM (fun st _ => dog_edge p node st) ((g, 2 * edge_count g), rs) (seq 0 done) = Done ((g', s'), rs') ->
    simple_graph g' /\ vertex_count g' = vertex_count g /\
    s' = list_sum (map (fun k => length (nbrs g' k)) (seq 0 (vertex_count g'))) /\
    exists new, length new = done /\ NoDup new /\
      forall k, dog_target g' node k <-> dog_target g node k /\ ~ In k new.
Proof.
  intros p g node m rs W Hn. split; [reflexivity|]. intros done g' s' rs' E.
  destruct (runs_done (@dog_edges_runs T p node g _ done W Hn eq_refl) E) as (Es & new & L & G). cbn [fst snd] in *.
  split; [apply G|]. split; [apply G|]. split.
  - rewrite Es. symmetry. exact (simple_degsum (dg_simple G)).
  - exists new. split; [auto|]. split; [apply G|]. intros k. apply dog_grown_target; auto.
Qed.
Print Assumptions C98_dog_edges.

(** The path 0 - 1 - 2 and the isolated vertex 3: an edge of 3 goes to 1 about twice as often as to 0. *)
Definition C98_path : sgraph nat :=
  mk_graph 4 2 [mk_spc 0 [1] 0 None; mk_spc 1 [0; 2] 1 None; mk_spc 2 [1] 2 None; mk_spc 3 [] 3 None].

Lemma C98_path_simple : simple_graph C98_path.
Proof.
  assert (E : add_edges_try Debug (graph_new (A := spacial_container pos nat) (fun i => i) 4) [(0, 1); (1, 2)] = Done (Ok tt, C98_path))
    by (vm_compute; reflexivity).
  exact (proj1 (add_edges_simple (proj1 (graph_new_spec (A := spacial_container pos nat) (fun i => i) 4)) E)).
Qed.

Lemma probability_scale {X} c num den h (f : rng -> outcome (X * rng)) P : 0 < c ->
  probability (num * c) (den * c) h f P -> probability num den h f P.
Proof.
  intros Hc [Hd H]. split; [nia|]. intros N. destruct (H N) as (k0 & K). exists k0. intros k Hk.
  specialize (K k Hk). unfold distance in *.
  set (S := successes h f P k) in *. set (L := length (rolls (repeat h k))) in *. clearbody S L.
  replace (den * c * S) with (c * (den * S)) in K by lia. replace (num * c * L) with (c * (num * L)) in K by lia.
  rewrite <- !Nat.mul_sub_distr_l in K.
  set (a := den * S - num * L) in *. set (b := num * L - den * S) in *. set (q := den * L) in *.
  replace (den * c * L) with (c * q) in K by (unfold q; lia). clearbody a b q. clear H Hd Hk.
  apply (Nat.mul_le_mono_pos_l _ _ c Hc). nia.
Qed.

Example C98_dog_case : forall M, Z.of_nat M = (2 ^ 53)%Z ->
  probability 1 2 (M * 4) (fun ds => dog_edge Debug 3 ((C98_path, 4), ds)) (fun st => adjb (fst st) 3 1).
Proof.
  intros M HM.
  assert (Q : exists q, M = 4 * q /\ 0 < q).
  { exists (Z.to_nat (2 ^ 51)). change (2 ^ 53)%Z with (4 * 2 ^ 51)%Z in HM. lia. }
  destruct Q as (q & EM & Hq).
  assert (Tj : dog_target C98_path 3 1).
  { unfold dog_target. cbn. repeat split; try lia; try discriminate. }
  pose proof (C98_dog_edge Debug C98_path 3 1 M C98_path_simple ltac:(cbn; lia) Tj HM) as H.
  cbn [C98_path vertices vertex_count length seq map nbrs Nat.add list_sum fold_right] in H.
  apply (probability_scale (2 * q)); [lia|].
  assert (F1 : floats_below M 1 4 = q).
  { unfold floats_below. symmetry. apply (Nat.div_unique _ _ _ 3); lia. }
  assert (F2 : floats_below M 2 4 = 2 * q).
  { unfold floats_below. symmetry. apply (Nat.div_unique _ _ _ 3); lia. }
  change (probability (floats_below M 2 4) (floats_below M 1 4 + (floats_below M 2 4 + (floats_below M 1 4 + 0))) (M * 4)
    (fun ds => dog_edge Debug 3 ((C98_path, 4), ds)) (fun st => adjb (fst st) 3 1)) in H.
  rewrite F1, F2 in H. replace (1 * (2 * q)) with (2 * q) by lia. replace (2 * (2 * q)) with (q + (2 * q + (q + 0))) by lia.
  exact H.
Qed.

(** Vertex 3 can get three further edges, but not four. *)
Example C97_dog_case :
  ends_surely 4 (fun ds => dog_node Debug ((C98_path, 4), 3 :: ds) 3) /\
  never_ends (fun ds => dog_node Debug ((C98_path, 4), 4 :: ds) 3).
Proof.
  assert (F : forall k, dog_target C98_path 3 k <-> k < 3).
  { intros k. unfold dog_target. split.
    - intros (A & B & _). cbn in A. lia.
    - intros H. cbn. repeat split; try lia. destruct k as [|[|[|]]]; try discriminate. lia. }
  split.
  - apply (C97_dog Debug C98_path 3 3 4 C98_path_simple); try (cbn; lia).
    exists [0; 1; 2]. split; [repeat constructor; cbn; lia|]. split; [cbn; lia|].
    intros k Hk. apply F. cbn in Hk. lia.
  - apply (C97_dog Debug C98_path 3 4 4 C98_path_simple); try (cbn; lia).
    intros (l & ND & L & H). assert (I : incl l (seq 0 3)).
    { intros k Hk. apply in_seq. apply H, F in Hk. lia. }
    apply (NoDup_incl_length ND) in I. rewrite seq_length in I. lia.
Qed.
