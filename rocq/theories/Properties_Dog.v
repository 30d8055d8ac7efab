(** Theorems about [LatinHypercubeSampling2D] and [DogEnsemble]. *)
From Verif Require Import Base BaseFacts Containers ContainerSpec ContainerFacts Graph GraphSpec GraphFacts GraphOps
  Rng RngFacts Runs Spacial SpacialSpec SpacialFacts Dog DogSpec DogFacts.
From Coq Require Import QArith.
Local Open Scope nat_scope.

(** ** C56 *)

(** [k] calls of [next] give a point each until [n] points have been given, and [None]
    afterwards.  The coordinates used and those left make up [0..n]; [len] is the number of
    points left.  Two draws are taken per point. *)
Theorem C56_points : forall n k rs,
  (length rs < 2 * Nat.min k n -> lhs_take k (lhs_new n) rs = NoFuel) /\
  (2 * Nat.min k n <= length rs ->
   exists pts l, lhs_take k (lhs_new n) rs =
       Done (map Some pts ++ repeat None (k - n), l, skipn (2 * Nat.min k n) rs) /\
     length pts = Nat.min k n /\ lhs_len l = n - length pts /\
     Permutation (map fst pts ++ lhs_x l) (seq 0 n) /\
     Permutation (map snd pts ++ lhs_y l) (seq 0 n)).
Proof.
  intros n k rs.
  assert (Lx : length (lhs_x (lhs_new n)) = n) by apply seq_length.
  assert (Ly : length (lhs_y (lhs_new n)) = length (lhs_x (lhs_new n))) by reflexivity.
  split; intros H.
  - apply lhs_take_short; auto. rewrite Lx. auto.
  - destruct (@lhs_take_spec k (lhs_new n) rs Ly) as (pts & l & E & L & Px & Py & El); [rewrite Lx; auto|].
    rewrite Lx in E, L. exists pts, l. split; [auto|]. split; [auto|]. split; [|split; symmetry; auto].
    apply Permutation_length in Px. rewrite app_length, map_length in Px. rewrite Lx in Px. unfold lhs_len. lia.
Qed.
Print Assumptions C56_points.

(** Every column and every row is used exactly once. *)
Theorem C56_latin : forall n rs os l rs',
  lhs_take n (lhs_new n) rs = Done (os, l, rs') ->
  exists pts, os = map Some pts /\ length pts = n /\
    Permutation (map fst pts) (seq 0 n) /\ Permutation (map snd pts) (seq 0 n) /\
    (* the iterator is fused *)
    forall k rs2, lhs_take k l rs2 = Done (repeat None k, l, rs2).
Proof.
  intros n rs os l rs' E. destruct (C56_points n n rs) as [Sh Sp]. rewrite Nat.min_id in *.
  destruct (Nat.lt_ge_cases (length rs) (2 * n)) as [H|H]; [rewrite Sh in E by auto; discriminate|].
  destruct (Sp H) as (pts & l2 & E2 & L & Len & Px & Py). rewrite E2 in E. injection E as <- <- <-.
  rewrite Nat.sub_diag. cbn [repeat]. rewrite app_nil_r. exists pts.
  assert (X : lhs_x l2 = []) by (unfold lhs_len in Len; destruct (lhs_x l2); auto; cbn in Len; lia).
  assert (Y : lhs_y l2 = []).
  { apply Permutation_length in Py. rewrite app_length, map_length, seq_length in Py.
    destruct (lhs_y l2); auto; cbn in Py; lia. }
  rewrite X, Y, app_nil_r in *. split; [auto|]. split; [auto|]. split; [auto|]. split; [auto|].
  induction k as [|k IH]; intros rs2; auto. cbn [lhs_take repeat]. unfold lhs_next. rewrite X. cbn [bind].
  rewrite IH. reflexivity.
Qed.
Print Assumptions C56_latin.

(** Every pair of orders of the columns and rows is the result of exactly one sequence of
    draws in range, so uniform draws make all of them equally likely. *)
Theorem C56_uniform : forall pts,
  Permutation (map fst pts) (seq 0 (length pts)) -> Permutation (map snd pts) (seq 0 (length pts)) ->
  exists ds, lhs_draws (length pts) (length pts) ds /\
    (forall rest, exists l, lhs_take (length pts) (lhs_new (length pts)) (ds ++ rest) = Done (map Some pts, l, rest)) /\
    (forall ds' l rs, lhs_draws (length pts) (length pts) ds' ->
       lhs_take (length pts) (lhs_new (length pts)) ds' = Done (map Some pts, l, rs) -> ds' = ds).
Proof.
  intros pts Px Py. set (n := length pts) in *.
  destruct (@lhs_take_reach pts (lhs_new n)) as (ds & D & H); [reflexivity|symmetry; auto|symmetry; auto|].
  exists ds. split; [auto|]. split; [auto|]. intros ds' l rs D' E'.
  destruct (H []) as (l2 & E). rewrite app_nil_r in E.
  assert (Lx : length (lhs_x (lhs_new n)) = n) by apply seq_length.
  eapply (@lhs_take_inj n (lhs_new n) ds' ds); [reflexivity|apply seq_NoDup|apply seq_NoDup|..]; rewrite ?Lx; eauto.
Qed.
Print Assumptions C56_uniform.

Example C56_case :
  lhs_take 4 (lhs_new 3) [0; 2; 1; 0; 7; 8; 9] =
    Done ([Some (0, 2); Some (1, 0); Some (2, 1); None], mk_lhs [] [], [9]) /\
  lhs_draws 3 3 [0; 2; 1; 0; 0; 0].
Proof. split; [reflexivity|]. cbn. lia. Qed.

(** ** C69 *)

(** [ExactSizeIterator] asks that [size_hint] gives [len] as both bounds.  It does not, for
    any state of the iterator. *)
Theorem C69_exact_size_refuted : exists l : lhs,
  lhs_size_hint l <> (lhs_len l, Some (lhs_len l)).
Proof. exists (lhs_new 3). discriminate. Qed.
Print Assumptions C69_exact_size_refuted.

Theorem C69_never_exact : forall l, lhs_size_hint l <> (lhs_len l, Some (lhs_len l)).
Proof. intros l. discriminate. Qed.
Print Assumptions C69_never_exact.

(** The hint is still a valid one: at no time does it promise more points than will come. *)
Theorem C69_hint_valid : forall n k rs os l rs',
  lhs_take k (lhs_new n) rs = Done (os, l, rs') ->
  snd (lhs_size_hint l) = None /\
  forall m rs2 os2 l2 rs2', lhs_take m l rs2 = Done (os2, l2, rs2') -> n - Nat.min k n <= m ->
  exists pts, os2 = map Some pts ++ repeat None (m - (n - Nat.min k n)) /\ fst (lhs_size_hint l) <= length pts.
Proof.
  intros n k rs os l rs' E. split; [reflexivity|]. intros m rs2 os2 l2 rs2' E2 Hm.
  destruct (C56_points n k rs) as [Sh Sp].
  destruct (Nat.lt_ge_cases (length rs) (2 * Nat.min k n)) as [H|H]; [rewrite Sh in E by auto; discriminate|].
  destruct (Sp H) as (pts & l' & E' & L & Len & Px & Py). rewrite E' in E. injection E as _ <- _.
  unfold lhs_len in Len.
  assert (Ly : length (lhs_y l') = length (lhs_x l')).
  { apply Permutation_length in Px, Py. rewrite app_length, map_length, seq_length in Px, Py. lia. }
  rewrite L in Len.
  destruct (Nat.lt_ge_cases (length rs2) (2 * Nat.min m (length (lhs_x l')))) as [H2|H2].
  - rewrite (@lhs_take_short m l' rs2 Ly H2) in E2. discriminate.
  - destruct (@lhs_take_spec m l' rs2 Ly H2) as (pts2 & l3 & E3 & _). rewrite E3 in E2. injection E2 as <- _ _.
    exists pts2. rewrite Len. split; [reflexivity|]. cbn. lia.
Qed.
Print Assumptions C69_hint_valid.

(** ** C55 *)

(** [randomize]: what holds when it returns, and when it panics.  [pairs] are the pairs of
    vertices in the order in which they are visited; pair number [k] is decided by draw
    number [k], except that pairs with a special vertex can be joined later. *)
Theorem C55_randomize {T : Type} : forall n, exists pairs,
  NoDup pairs /\ (forall i j, In (i, j) pairs <-> j < i /\ i < n) /\
  forall p (e : dog T) rs,
  simple_graph (dog_graph e) -> vertex_count (dog_graph e) = n ->
  match dog_randomize p e rs with
  | Done (e', _) =>
      simple_graph (dog_graph e') /\ vertex_count (dog_graph e') = n /\
      payloads (dog_graph e') = payloads (dog_graph e) /\
      positions (dog_graph e') = positions (dog_graph e) /\
      dog_accept e' = dog_accept e /\ dog_tau e' = dog_tau e /\ dog_lambda e' = dog_lambda e /\
      exists special, NoDup special /\ length special = dog_special n (dog_tau e) /\
        (forall x, In x special -> x < n) /\
        forall k i j r, nth_error pairs k = Some (i, j) -> nth_error rs k = Some r ->
          (dog_accepts e i j r = true -> adj (dog_graph e') i j) /\
          (adj (dog_graph e') i j -> dog_accepts e i j r = true \/ In i special \/ In j special)
  | Panic => n = 0 \/ dog_lambda e = 0 \/ n < dog_special n (dog_tau e)
  | UB => False
  | NoFuel => True
  end.
Proof.
  intros n. exists (dog_pairs n). split; [apply dog_pairs_NoDup|]. split; [intros; apply dog_pairs_In|].
  intros p e rs W <-. pose proof (dog_randomize_cases p rs W) as R.
  destruct (dog_randomize p e rs) as [[e' rs']| | |]; auto.
  - destruct R as (_ & W' & P' & Q' & V' & A' & T' & L' & S'). auto 10.
  - unfold dog_good in R. lia.
Qed.
Print Assumptions C55_randomize.

(** The panics do happen. *)
Theorem C55_panics {T : Type} : forall n, exists k, forall p (e : dog T) rs,
  simple_graph (dog_graph e) -> vertex_count (dog_graph e) = n ->
  n = 0 \/ dog_lambda e = 0 \/ n < dog_special n (dog_tau e) ->
  k <= length rs -> dog_randomize p e rs = Panic.
Proof.
  intros n. exists (length (dog_pairs n) + n). intros p e rs W <- H Len.
  apply dog_randomize_panics; auto. unfold dog_good. lia.
Qed.
Print Assumptions C55_panics.

(** The number of special vertices is in range if [tau] is not negative; there are none if
    [tau] is at least 1. *)
Theorem C55_special : forall n tau,
  ((0 <= tau)%Q -> dog_special n tau <= n) /\ ((1 <= tau)%Q -> dog_special n tau = 0).
Proof.
  intros n tau. unfold dog_special. set (q := inject_Z (Z.of_nat n)).
  assert (Hq : (0 <= q)%Q) by (unfold q, Qle; cbn; lia).
  split; intros H.
  - assert (K : (q * (1 - tau) + (1 # 2) < inject_Z (Z.of_nat n + 1))%Q).
    { assert (U : (0 <= q * tau)%Q) by (apply Qmult_le_0_compat; auto).
      rewrite inject_Z_plus. fold q. change (inject_Z 1) with 1%Q. Lqa.lra. }
    pose proof (Qround.Qfloor_le (q * (1 - tau) + (1 # 2))) as F.
    pose proof (Qle_lt_trans _ _ _ F K) as L. rewrite <- Zlt_Qlt in L. lia.
  - assert (K : (q * (1 - tau) + (1 # 2) < inject_Z 1)%Q).
    { assert (U : (0 <= q * (tau - 1))%Q) by (apply Qmult_le_0_compat; auto; Lqa.lra).
      change (inject_Z 1) with 1%Q. Lqa.lra. }
    pose proof (Qround.Qfloor_le (q * (1 - tau) + (1 # 2))) as F.
    pose proof (Qle_lt_trans _ _ _ F K) as L. rewrite <- Zlt_Qlt in L. lia.
Qed.
Print Assumptions C55_special.

(** [new]: the positions form a Latin hypercube with one point in each column and each row
    of cells. *)
Theorem C55_new {T : Type} : forall p (mk : nat -> T) n accept tau lambda rs,
  match dog_new p mk n accept tau lambda rs with
  | Done (e, _) =>
      simple_graph (dog_graph e) /\ vertex_count (dog_graph e) = n /\
      payloads (dog_graph e) = map mk (seq 0 n) /\ latin n (positions (dog_graph e)) /\
      dog_accept e = accept /\ dog_tau e = tau /\ dog_lambda e = lambda
  | Panic => n = 0 \/ lambda = 0 \/ n < dog_special n tau
  | UB => False
  | NoFuel => True
  end.
Proof.
  intros p mk n accept tau lambda rs. pose proof (dog_new_cases p mk n accept tau lambda rs) as R.
  destruct (dog_new p mk n accept tau lambda rs) as [[e rs']| | |]; auto; [intuition|lia].
Qed.
Print Assumptions C55_new.

(** The further edges of one special vertex for which the number [m] was drawn. *)
Theorem C55_node {T : Type} : forall p (g : sgraph T) node m rs g' sum' rs',
  simple_graph g -> node < vertex_count g ->
  dog_node p ((g, 2 * edge_count g), m :: rs) node = Done ((g', sum'), rs') ->
  sum' = 2 * edge_count g' /\ exists new, length new = m /\ dog_grown g node new g'.
Proof.
  intros p g node m rs g' sum' rs' W Hn E. unfold dog_node in E. cbn [draw bind] in E.
  apply (runs_done (@dog_edges_runs T p node g _ m W Hn eq_refl) E).
Qed.
Print Assumptions C55_node.

(** A concrete ensemble: three vertices, all pairs joined whose draw is below 1/2. *)
Definition dog_ex : dog nat :=
  mk_dog (graph_new (fun i => i) 3) (fun _ _ u => negb (Qle_bool (1 # 2) u)) (1 # 3) 1.

Example C55_case :
  simple_graph (dog_graph dog_ex) /\ dog_special 3 (1 # 3) = 2 /\
  match dog_randomize Debug dog_ex [0; 0; 0; 0; 0; 0; 0; 5] with
  | Done (e, rs) => rs = [5] /\ edge_count (dog_graph e) = 3
  | _ => False
  end /\
  match dog_new Debug (fun i : nat => i) 2 (fun _ _ _ => true) 1 1 [0; 1; 0; 0; 3; 3; 3; 3; 0; 0] with
  | Done (e, _) => edge_count (dog_graph e) = 1
  | _ => False
  end.
Proof.
  split; [apply (@graph_new_spec nat (spacial_container pos nat))|].
  split; [reflexivity|]. split; vm_compute; auto.
Qed.

(** ** C68 *)

(** The edges of one special vertex can be made exactly if there are enough vertices that
    are neither the vertex itself nor joined to it and have a neighbour: then every
    unfinished run can be finished; otherwise no sequence of draws lets the loop end. *)
Theorem C68_node {T : Type} : forall p (g : sgraph T) node m,
  simple_graph g -> node < vertex_count g ->
  ((exists l, NoDup l /\ m <= length l /\ forall k, In k l -> dog_target g node k) ->
   forall rs, dog_node p ((g, 2 * edge_count g), m :: rs) node = NoFuel ->
     exists more s, forall rest, dog_node p ((g, 2 * edge_count g), m :: rs ++ more ++ rest) node = Done (s, rest)) /\
  (~ (exists l, NoDup l /\ m <= length l /\ forall k, In k l -> dog_target g node k) ->
   forall rs, dog_node p ((g, 2 * edge_count g), m :: rs) node = NoFuel).
Proof.
  intros p g node m W Hn. split.
  - intros Ex rs E. pose proof (@dog_edges_runs T p node g _ m W Hn eq_refl rs) as R.
    unfold dog_node in *. cbn [draw bind] in *. cbv beta in R. rewrite E in R.
    destruct (R Ex) as (more & s & H & _). exists more, s. exact H.
  - intros Nx rs. apply dog_node_stuck; auto. intros l ND F.
    destruct (Nat.lt_ge_cases (length l) m); auto. exfalso. apply Nx. eauto.
Qed.
Print Assumptions C68_node.

(** Every accepted set of arguments with a special vertex can get stuck for every outcome
    of the first phase: a sample of at least [n] further edges has positive probability. *)
Theorem C68_stuck {T : Type} : forall p (e : dog T), let n := vertex_count (dog_graph e) in
  simple_graph (dog_graph e) -> 0 < n -> 0 < dog_lambda e ->
  0 < dog_special n (dog_tau e) <= n ->
  exists k, forall ds, length ds = k ->
    exists pre, forall more, dog_randomize p e (ds ++ pre ++ more) = NoFuel.
Proof.
  intros p e n W Hn Hl Hs. exists (length (dog_pairs n)). intros ds Len.
  apply dog_randomize_stuck; auto; [|fold n; lia]. unfold dog_good. fold n. lia.
Qed.
Print Assumptions C68_stuck.

(** If the first phase makes no edge, a single further edge is too much. *)
Theorem C68_edgeless {T : Type} : forall p (e : dog T), let n := vertex_count (dog_graph e) in
  simple_graph (dog_graph e) -> 0 < n -> 0 < dog_lambda e ->
  0 < dog_special n (dog_tau e) <= n ->
  exists k, forall ds, length ds = k ->
    (forall a b r, In r ds -> dog_accept e a b (unit_float r) = false) ->
    exists sh, forall m more, 0 < m -> dog_randomize p e (ds ++ sh ++ m :: more) = NoFuel.
Proof.
  intros p e n W Hn Hl Hs. exists (length (dog_pairs n)). intros ds Len Rej.
  apply dog_randomize_edgeless; auto; [|fold n; lia]. unfold dog_good. fold n. lia.
Qed.
Print Assumptions C68_edgeless.

(** On the other hand [randomize] can return after every outcome of the first phase. *)
Theorem C68_returns {T : Type} : forall p (e : dog T), let n := vertex_count (dog_graph e) in
  simple_graph (dog_graph e) -> 0 < n -> 0 < dog_lambda e -> dog_special n (dog_tau e) <= n ->
  exists k, forall ds, length ds = k ->
    exists more e', forall rest, dog_randomize p e (ds ++ more ++ rest) = Done (e', rest).
Proof.
  intros p e n W Hn Hl Hs. exists (length (dog_pairs n)). intros ds Len.
  apply dog_randomize_returns; auto. unfold dog_good. fold n. lia.
Qed.
Print Assumptions C68_returns.

(** So it is not true that it returns, or can still return, from every state. *)
Theorem C68_terminates_refuted : exists e : dog nat,
  simple_graph (dog_graph e) /\ vertex_count (dog_graph e) = 3 /\ dog_tau e = (1 # 3)%Q /\ dog_lambda e = 1 /\
  forall p, exists pre, forall more, dog_randomize p e (pre ++ more) = NoFuel.
Proof.
  exists dog_ex.
  assert (W : simple_graph (dog_graph dog_ex)) by apply (@graph_new_spec nat (spacial_container pos nat)).
  split; [exact W|]. split; [reflexivity|]. split; [reflexivity|]. split; [reflexivity|]. intros p.
  destruct (C68_stuck p dog_ex W) as (k & H).
  - change (0 < 3). lia.
  - change (0 < 1). lia.
  - change (0 < 2 <= 3). lia.
  - destruct (H (repeat 0 k) (repeat_length _ _)) as (pre & K). exists (repeat 0 k ++ pre). intros more.
    rewrite <- app_assoc. apply K.
Qed.
Print Assumptions C68_terminates_refuted.

Example C68_case :
  (* vertex 0 is isolated, vertices 1 and 2 are joined: both are targets *)
  let g := dog_graph dog_ex in
  match add_edge Debug g 1 2 with
  | Done (Ok _, g1) => dog_target g1 0 1 /\ dog_target g1 0 2
  | _ => False
  end.
Proof.
  cbn. unfold dog_target. cbn. repeat split; try lia; try discriminate; intros [].
Qed.
