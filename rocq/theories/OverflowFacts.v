(** Integers of limited size. *)
From Verif Require Import Base BaseFacts Sums Containers ContainerSpec ContainerFacts Graph GraphSpec GraphFacts GraphOps GraphBuild Traversal Components Transitivity TraversalSpec Search TraversalFacts ComponentFacts ComponentSpec ClosenessFacts BetweenFacts Rng RngFacts
  ErC ErM Ws Config ConfigFacts Overflow.
From Coq Require Import ZArith QArith.
Set Implicit Arguments.
Unset Strict Implicit.
Local Open Scope nat_scope.

Lemma modulus_value : Z.of_nat (usize_modulus tt) = (2 ^ 64)%Z.
Proof. Transparent usize_modulus. unfold usize_modulus. rewrite N_nat_Z. reflexivity. Qed.
Global Opaque usize_modulus.

Lemma ufit_ok p x : (Z.of_nat x < 2 ^ 64)%Z -> ufit p x = Done x.
Proof.
  intros H. unfold ufit. destruct (Nat.ltb_spec x (usize_modulus tt)) as [|K]; auto.
  apply Nat2Z.inj_le in K. rewrite modulus_value in K. lia.
Qed.

Lemma ufit_over x : (2 ^ 64 <= Z.of_nat x)%Z -> ufit Debug x = Panic /\ ufit Release x = Done (Nat.modulo x (usize_modulus tt)).
Proof.
  intros H. unfold ufit. destruct (Nat.ltb_spec x (usize_modulus tt)) as [K|]; auto.
  apply Nat2Z.inj_lt in K. rewrite modulus_value in K. lia.
Qed.

Lemma modulus_nonzero : usize_modulus tt <> 0.
Proof. intros H. pose proof modulus_value as M. rewrite H in M. discriminate M. Qed.

Lemma ufit_release x : ufit Release x = Done (Nat.modulo x (usize_modulus tt)).
Proof.
  unfold ufit. destruct (Nat.ltb_spec x (usize_modulus tt)) as [K|]; auto. rewrite Nat.mod_small; auto.
Qed.

(** ** Folds *)

(** If every step on the limited integers [w s] mirrors the step on [s], so does the loop,
    as long as [B] holds. *)
Lemma mirror_foldM {S M X} (w : S -> outcome M) (f : S -> X -> outcome S) (h : M -> X -> outcome M) (I B : S -> Prop) l :
  (forall s x s', I s -> In x l -> f s x = Done s' -> I s' /\ (B s' -> B s /\ bind (w s) (fun m => h m x) = w s')) ->
  forall s s', I s -> foldM f s l = Done s' -> I s' /\ (B s' -> B s /\ bind (w s) (fun m => foldM h m l) = w s').
Proof.
  induction l as [|x l IH]; intros H s s' Hs E; cbn in E |- *.
  - injection E as <-. split; auto. intros Hb. split; auto. destruct (w s); auto.
  - destruct (f s x) as [s1| | |] eqn:E1; try discriminate. cbn in E.
    destruct (H s x s1 Hs (or_introl eq_refl) E1) as [I1 H1].
    assert (H' : forall s x s', I s -> In x l -> f s x = Done s' -> I s' /\ (B s' -> B s /\ bind (w s) (fun m => h m x) = w s')).
    { intros a b c Ia Hb. apply H; auto. right; auto. }
    destruct (IH H' s1 s' I1 E) as [I2 H2]. split; auto.
    intros Hb. destruct (H2 Hb) as [B1 K2]. destruct (H1 B1) as [B0 K1]. split; auto.
    rewrite <- K2, <- K1. destruct (w s); auto.
Qed.

Section Generic.
Context {T A : Type} {C : AdjContainer T A} {L : AdjLaws C}.
Implicit Types g : graph A.

(** ** Edges *)

Lemma nbrs_bound g i : simple_graph g -> length (nbrs g i) <= vertex_count g - 1.
Proof.
  intros W. destruct (Nat.lt_ge_cases i (vertex_count g)) as [H|H].
  - assert (K : length (i :: nbrs g i) <= length (seq 0 (vertex_count g))).
    { apply NoDup_incl_length.
      - constructor; [apply (sg_irrefl W)|apply (sg_nodup W)].
      - intros x [<-|Hx]; apply in_seq; [lia|]. pose proof (sg_range W i x Hx). lia. }
    cbn [length] in K. rewrite seq_length in K. lia.
  - rewrite nbrs_out; [cbn; lia|]. rewrite (sg_len W). auto.
Qed.

Lemma edge_bound g : simple_graph g -> 2 * edge_count g <= vertex_count g * (vertex_count g - 1).
Proof.
  intros W. rewrite <- (simple_degsum W). unfold degsum.
  assert (K : forall l : list nat, sum_over (fun i => length (nbrs g i)) l <= length l * (vertex_count g - 1)).
  { induction l as [|x l IH]; [unfold sum_over; cbn; lia|]. rewrite sum_over_cons. cbn [length]. pose proof (nbrs_bound x W). lia. }
  specialize (K (seq 0 (vertex_count g))). rewrite seq_length in K. exact K.
Qed.

Lemma edge_fits g : simple_graph g -> (Z.of_nat (vertex_count g) <= 2 ^ 32)%Z -> (Z.of_nat (2 * edge_count g) <= 2 ^ 64 - 2 ^ 32)%Z.
Proof.
  intros W H. pose proof (edge_bound W) as B. apply Nat2Z.inj_le in B.
  destruct (Nat.eq_dec (vertex_count g) 0) as [E|E].
  - rewrite E in B. cbn [Nat.mul] in B. lia.
  - rewrite (Nat2Z.inj_mul (vertex_count g)), Nat2Z.inj_sub in B by lia. nia.
Qed.

Lemma add_edge_fits p g i j : simple_graph g -> (Z.of_nat (vertex_count g) <= 2 ^ 32)%Z ->
  add_edge_usize p g i j = add_edge p g i j.
Proof.
  intros W H. pose proof (edge_fits W H) as B. unfold add_edge_usize, add_edge.
  destruct (get_2_mut p g i j) as [[r1 r2]| | |]; cbn [bind]; auto.
  destruct (ac_push r1 r2) as [[[a b]|]| | |]; cbn [bind]; auto.
  unfold uadd. rewrite ufit_ok by lia. reflexivity.
Qed.

(** ** The ring *)

Lemma ring_steps_pairs n d : ring_pairs n d =
  map (fun s => (fst s, if n <=? fst s + snd s then fst s + snd s - n else fst s + snd s)) (ring_steps n d).
Proof.
  unfold ring_pairs, ring_steps. induction (seq 0 n) as [|i l IH]; cbn [flat_map map]; auto.
  rewrite map_app, map_map, <- IH. reflexivity.
Qed.

Lemma ring_try_fits p n l : forall g, simple_graph g -> (Z.of_nat (vertex_count g) <= 2 ^ 32)%Z ->
  (forall s, In s l -> (Z.of_nat (fst s + snd s) < 2 ^ 64)%Z) ->
  ring_try p n g l =
  add_edges_try p g (map (fun s => (fst s, if n <=? fst s + snd s then fst s + snd s - n else fst s + snd s)) l).
Proof.
  induction l as [|[i a] l IH]; intros g W H F; cbn [ring_try add_edges_try map fst snd]; auto.
  unfold uadd at 1. rewrite ufit_ok by (apply (F (i, a)); left; auto). cbn [bind].
  rewrite add_edge_fits by auto. set (j := if n <=? i + a then i + a - n else i + a).
  destruct (add_edge p g i j) as [[[u|e] g']| | |] eqn:E; cbn [bind]; auto.
  destruct (add_edge_simple W E) as (W' & V' & _).
  apply IH; auto; [rewrite V'; auto|]. intros s Hs. apply F. right; auto.
Qed.

Lemma init_ring_fits p g d : simple_graph g -> (Z.of_nat (vertex_count g) <= 2 ^ 32)%Z ->
  (Z.of_nat d + 2 ^ 32 <= 2 ^ 64)%Z -> init_ring_usize p g d = init_ring p g d.
Proof.
  intros W H D. unfold init_ring_usize, init_ring. destruct (clear_edges_spec W) as (W0 & V0 & _).
  rewrite V0, ring_steps_pairs. apply ring_try_fits; auto; [rewrite V0; auto|].
  intros [i a] Hs. unfold ring_steps in Hs. apply in_flat_map in Hs as (k & Hk & Ha).
  apply in_map_iff in Ha as (b & [= <- <-] & Hb). apply in_seq in Hk, Hb. cbn. lia.
Qed.


(** A distance that is too large: the first vertex is to be joined with itself. *)
Lemma ring_try_ub p n l1 l2 : forall g, ring_try p n g l1 = UB -> ring_try p n g (l1 ++ l2) = UB.
Proof.
  induction l1 as [|[i a] l1 IH]; intros g; cbn [ring_try app]; [discriminate|].
  destruct (uadd p i a) as [sum| | |]; cbn [bind]; auto.
  destruct (add_edge_usize p g i _) as [[[u|e] g']| | |]; cbn [bind]; auto.
Qed.

Lemma first_row_ub g : simple_graph g -> 1 <= vertex_count g ->
  add_edges_try Release (clear_edges g) (map (fun a => (0, a)) (seq 1 (vertex_count g - 1)) ++ [(0, 0)]) = UB.
Proof.
  intros W Hd. destruct (clear_edges_spec W) as (W0 & V0 & C0 & P0 & N0).
  set (n := vertex_count g) in *.
  destruct (@add_edges_spec T A C L Release (map (fun a => (0, a)) (seq 1 (n - 1))) (clear_edges g) W0)
    as (r & g' & E & W' & V' & P' & D).
  { rewrite V0. apply Forall_forall. intros e He. apply in_map_iff in He as (a & <- & Ha).
    apply in_seq in Ha. cbn. lia. }
  destruct D as [(-> & F & C' & A')|(-> & F)].
  - rewrite (add_edges_app [(0, 0)] E). cbn [add_edges_try].
    unfold add_edge. rewrite get_2_mut_bad_release; auto. intros (? & ? & ?); lia.
  - exfalso. apply F. split.
    + apply Forall_forall. intros e He. unfold adj. rewrite N0. auto.
    + apply ForallOrdPairs_intro.
      * apply NoDup_map_in; [|apply seq_NoDup]. intros a b _ _ Eab. injection Eab; auto.
      * intros a b Ha Hb Nab K. apply in_map_iff in Ha as (x & <- & Hx).
        apply in_map_iff in Hb as (y & <- & Hy). apply in_seq in Hx, Hy.
        unfold same_edge, is_pair in K. simpl in K. destruct K as [[_ ->]|[K1 K2]]; [auto|lia].
Qed.

Lemma init_ring_huge g d : simple_graph g -> (Z.of_nat (vertex_count g) <= 2 ^ 32)%Z -> 1 <= vertex_count g <= d ->
  init_ring_usize Release g d = UB.
Proof.
  intros W H Hd. unfold init_ring_usize. destruct (clear_edges_spec W) as (W0 & V0 & _). rewrite V0.
  set (n := vertex_count g) in *.
  assert (S : exists l, ring_steps n d = map (pair 0) (seq 1 n) ++ l).
  { unfold ring_steps. destruct n as [|n'] eqn:En; [lia|]. rewrite <- En in *.
    replace (seq 0 n) with (0 :: seq 1 n') by (rewrite En; auto). cbn [flat_map].
    replace (seq 1 d) with (seq 1 (n + (d - n))) by (f_equal; lia). rewrite seq_app, map_app, <- app_assoc. eauto. }
  destruct S as [l ->]. apply ring_try_ub.
  rewrite ring_try_fits; auto; [|rewrite V0; auto|].
  2:{ intros s Hs. apply in_map_iff in Hs as (a & <- & Ha). apply in_seq in Ha. cbn. lia. }
  rewrite <- (first_row_ub W (proj1 Hd)). fold n. f_equal. rewrite map_map.
  replace (seq 1 n) with (seq 1 ((n - 1) + 1)) by (f_equal; lia). rewrite seq_app, map_app. f_equal.
  - apply map_ext_in. intros a Ha. apply in_seq in Ha. cbn. destruct (Nat.leb_spec n a); [lia|auto].
  - cbn [seq map fst snd]. destruct (Nat.leb_spec n (0 + (1 + (n - 1)))); [|lia]. do 2 f_equal. lia.
Qed.

(** ** [transitivity] *)

Definition wrap2 (p : profile) (s : nat * nat) : outcome (nat * nat) :=
  match p with
  | Debug => if snd s <? usize_modulus tt then Done s else Panic
  | Release => Done (Nat.modulo (fst s) (usize_modulus tt), Nat.modulo (snd s) (usize_modulus tt))
  end.

Lemma wrap2_step p (adj : bool) c t : c <= t ->
  (do m <- wrap2 p (c, t);
   (let (closed, paths) := m in
    do closed' <- (if adj then uadd p closed 1 else Done closed);
    do paths' <- uadd p paths 1;
    Done (closed', paths'))) = wrap2 p (if adj then c + 1 else c, t + 1).
Proof.
  intros Le. unfold wrap2, uadd, ufit. cbn [fst snd]. pose proof modulus_nonzero as Mz. revert Mz.
  generalize (usize_modulus tt) as M. intros M Mz. destruct p.
  - destruct (Nat.ltb_spec t M) as [Ht|Ht]; cbn [bind].
    + destruct (Nat.ltb_spec (t + 1) M) as [Ht1|Ht1]; destruct adj; cbn [bind]; auto;
        destruct (Nat.ltb_spec (c + 1) M); auto; lia.
    + destruct (Nat.ltb_spec (t + 1) M); [lia|auto].
  - cbn [bind].
    assert (K : forall a, (if Nat.modulo a M + 1 <? M then Done (Nat.modulo a M + 1) else Done (Nat.modulo (Nat.modulo a M + 1) M))
      = Done (Nat.modulo (a + 1) M)).
    { intros a. rewrite <- (Nat.add_mod_idemp_l a 1 M) by auto.
      destruct (Nat.ltb_spec (Nat.modulo a M + 1) M); auto. f_equal. symmetry. apply Nat.mod_small; auto. }
    rewrite !K. destruct adj; cbn [bind]; auto.
Qed.

Lemma wrap2_zero p : wrap2 p (0, 0) = Done (0, 0).
Proof.
  unfold wrap2. cbn [fst snd]. pose proof modulus_nonzero as Mz. revert Mz. generalize (usize_modulus tt) as M. intros M Mz.
  destruct p; [|rewrite Nat.mod_0_l; auto]. destruct (Nat.ltb_spec 0 M); auto; lia.
Qed.

Lemma transitivity_mirror p g s : Transitivity.transitivity g = Done s -> transitivity_usize p g = wrap2 p s.
Proof.
  intros E.
  assert (Inner : forall source n2 a a', fst a <= snd a -> transitivity_inner g source a n2 = Done a' ->
     fst a' <= snd a' /\ (True -> True /\ bind (wrap2 p a) (fun m => transitivity_inner_usize p g source m n2) = wrap2 p a')).
  { intros source n2 [c t] [c' t'] I K. cbn [fst snd] in *. unfold transitivity_inner in K. unfold transitivity_inner_usize.
    destruct (container g n2) as [x| | |] eqn:Ex; try discriminate. cbn [bind] in K. injection K as <- <-. split; [destruct (ac_is_adjacent x source); lia|]. intros _; split; auto.
    apply wrap2_step; auto. }
  assert (Middle : forall source n1 a a', fst a <= snd a -> transitivity_middle g source a n1 = Done a' ->
     fst a' <= snd a' /\ (True -> True /\ bind (wrap2 p a) (fun m => transitivity_middle_usize p g source m n1) = wrap2 p a')).
  { intros source n1 a a' I K. unfold transitivity_middle in K. unfold transitivity_middle_usize.
    destruct (container g n1) as [x| | |] eqn:Ex; try discriminate. cbn [bind] in K |- *.
    revert K. apply (@mirror_foldM _ _ _ (wrap2 p) (transitivity_inner g source) (transitivity_inner_usize p g source) (fun s => fst s <= snd s) (fun _ => True)); auto. }
  unfold Transitivity.transitivity in E. unfold transitivity_usize.
  assert (G : fst s <= snd s /\ (True -> True /\ bind (wrap2 p (0, 0)) (fun m => foldM (fun (acc : nat * nat) (source : nat) =>
           do c <- container g source;
           foldM (transitivity_middle_usize p g source) acc (ac_neighbors c)) m (seq 0 (vertex_count g))) = wrap2 p s)).
  { revert E. apply (@mirror_foldM _ _ _ (wrap2 p) _ _ (fun s => fst s <= snd s) (fun _ => True)); auto.
    intros a source a' I _ K. destruct (container g source) as [x| | |] eqn:Ex; try discriminate. cbn [bind] in K |- *.
    revert K. apply (@mirror_foldM _ _ _ (wrap2 p) (transitivity_middle g source) (transitivity_middle_usize p g source) (fun s => fst s <= snd s) (fun _ => True)); auto. }
  destruct G as [_ G]. destruct (G Logic.I) as [_ K]. rewrite <- K.
  rewrite wrap2_zero. reflexivity.
Qed.

(** ** [closeness_centrality] *)

Definition wrapv {B} (p : profile) (s : list nat * B) : outcome (list nat * B) :=
  match p with
  | Debug => if forallb (fun x => x <? usize_modulus tt) (fst s) then Done s else Panic
  | Release => Done (map (fun x => Nat.modulo x (usize_modulus tt)) (fst s), snd s)
  end.
Definition wrapl (p : profile) (c : list nat) : outcome (list nat) :=
  match p with
  | Debug => if forallb (fun x => x <? usize_modulus tt) c then Done c else Panic
  | Release => Done (map (fun x => Nat.modulo x (usize_modulus tt)) c)
  end.

Lemma small_upd M c i old new : nth_error c i = Some old -> old <= new ->
  forallb (fun x => x <? M) (upd c i new) =
  forallb (fun x => x <? M) c && (new <? M).
Proof.
  intros H Le. apply eq_iff_eq_true. rewrite andb_true_iff, !forallb_forall. split.
  - intros K. split.
    + intros x Hx. apply In_nth_error in Hx as [j Hj]. destruct (Nat.eq_dec j i) as [->|N].
      * rewrite H in Hj. injection Hj as ->. assert (Kn := K new). 
        apply Nat.ltb_lt. apply (Nat.le_lt_trans _ _ _ Le). apply Nat.ltb_lt. apply Kn.
        apply (nth_error_In _ i). apply nth_error_upd_same. apply (nth_error_lt _ _ H).
      * apply K. apply (nth_error_In _ j). rewrite nth_error_upd_other; auto.
    + apply K. apply (nth_error_In _ i). apply nth_error_upd_same. apply (nth_error_lt _ _ H).
  - intros [K1 K2] x Hx. apply In_nth_error in Hx as [j Hj]. destruct (Nat.eq_dec j i) as [->|N].
    + rewrite nth_error_upd_same in Hj by apply (nth_error_lt _ _ H). injection Hj as <-. auto.
    + rewrite nth_error_upd_other in Hj by auto. apply K1. apply (nth_error_In _ j Hj).
Qed.

Lemma closeness_add_mirror p (c c' : list nat) (item : nat * T * nat) :
  (let '(index, _, depth) := item in do old <- vget c index; vset c index (old + depth)) = Done c' ->
  bind (wrapl p c) (fun m => closeness_add_usize p m item) = wrapl p c'.
Proof.
  destruct item as [[index t] depth]. unfold vget at 1. destruct (nth_error c index) as [old|] eqn:Eo; [|discriminate]. cbn [bind].
  pose proof (nth_error_lt _ _ Eo) as Li. rewrite vset_done by auto. intros [= <-].
  unfold wrapl, closeness_add_usize, uadd, ufit. pose proof modulus_nonzero as Mz. revert Mz.
  generalize (usize_modulus tt) as M. intros M Mz. destruct p.
  - rewrite (@small_upd M c index old (old + depth) Eo) by lia.
    destruct (forallb _ c) eqn:F; cbn [bind andb]; auto. rewrite (@vget_done _ _ _ _ Eo). cbn [bind].
    destruct (old + depth <? M); cbn [bind]; auto. apply vset_done; auto.
  - cbn [bind]. rewrite (@vget_done nat _ index (Nat.modulo old M)) by (rewrite nth_error_map, Eo; auto).
    cbn [bind].
    assert (K : (if Nat.modulo old M + depth <? M then Done (Nat.modulo old M + depth)
                 else Done (Nat.modulo (Nat.modulo old M + depth) M)) = Done (Nat.modulo (old + depth) M)).
    { rewrite <- (Nat.add_mod_idemp_l old depth M) by auto.
      destruct (Nat.ltb_spec (Nat.modulo old M + depth) M); auto. f_equal. symmetry. apply Nat.mod_small; auto. }
    rewrite K. cbn [bind]. rewrite vset_done by (rewrite map_length; auto). rewrite map_upd. auto.
Qed.

Lemma closeness_pass_mirror p g s s' i : closeness_pass g s i = Done s' ->
  bind (wrapv p s) (fun m => closeness_pass_usize p g m i) = wrapv p s'.
Proof.
  destruct s as [c b]. unfold closeness_pass, closeness_pass_usize.
  destruct (bfs_reuse g b i) as [b1| | |] eqn:E1; cbn [bind]; try discriminate.
  destruct (drain_by_ref (bfs_next g) (S (vertex_count g)) b1) as [[items b2]| | |] eqn:E2; cbn [bind]; try discriminate.
  destruct (foldM _ c items) as [c'| | |] eqn:E3; cbn [bind]; try discriminate. intros [= <-].
  assert (K : bind (wrapl p c) (fun m => foldM (closeness_add_usize p) m items) = wrapl p c').
  { refine (proj2 (proj2 (@mirror_foldM _ _ _ (wrapl p) _ (closeness_add_usize p) (fun _ => True) (fun _ => True) items _ c c' Logic.I E3) Logic.I)).
    intros a x a' _ _ Ea. split; auto. intros _. split; auto. apply closeness_add_mirror, Ea. }
  revert K. unfold wrapv, wrapl. cbn [fst snd]. destruct p.
  - destruct (forallb _ c) eqn:F; cbn [bind].
    + rewrite E1. cbn [bind]. rewrite E2. cbn [bind]. intros ->. destruct (forallb _ c'); auto.
    + destruct (forallb _ c') eqn:F'; auto. discriminate.
  - cbn [bind]. rewrite E1. cbn [bind]. rewrite E2. cbn [bind]. intros ->. auto.
Qed.

Lemma closeness_mirror p g l : closeness_centrality p g = Done l -> (forall x, In x l -> (Z.of_nat (snd x) < 2 ^ 64)%Z) ->
  closeness_usize p g = Done l.
Proof.
  unfold closeness_centrality, closeness_usize.
  destruct (foldM (closeness_pass g) _ _) as [[c b]| | |] eqn:E; cbn [bind]; try discriminate.
  destruct (usub p (vertex_count g) 1) as [val| | |] eqn:U; cbn [bind]; try discriminate. intros [= <-] F.
  assert (K : bind (wrapv p (repeat 0 (vertex_count g), bfs_new g 0)) (fun m => foldM (closeness_pass_usize p g) m (seq 0 (vertex_count g))) = wrapv p (c, b)).
  { refine (proj2 (proj2 (@mirror_foldM _ _ _ (wrapv p) _ (closeness_pass_usize p g) (fun _ => True) (fun _ => True) _ _ _ _ Logic.I E) Logic.I)).
    intros a x a' _ _ Ea. split; auto. intros _. split; auto. apply closeness_pass_mirror, Ea. }
  assert (Fc : forall x, In x c -> x < usize_modulus tt).
  { intros x Hx. assert (Hy : In (val, x) (map (fun c => (val, c)) c)) by (apply in_map; auto). apply F in Hy. cbn [snd] in Hy.
    apply Nat2Z.inj_lt. rewrite modulus_value. auto. }
  assert (K0 : wrapv p (repeat 0 (vertex_count g), bfs_new g 0) = Done (repeat 0 (vertex_count g), bfs_new g 0)).
  { clear. unfold wrapv. cbn [fst snd]. pose proof modulus_nonzero as Mz. revert Mz. generalize (usize_modulus tt) as M. intros M Mz. destruct p.
    - replace (forallb _ _) with true; auto. symmetry. apply forallb_forall. intros x Hx. apply repeat_spec in Hx as ->.
      apply Nat.ltb_lt. lia.
    - do 2 f_equal. induction (vertex_count g) as [|n IH]; cbn [repeat map]; auto. rewrite IH, Nat.mod_0_l; auto. }
  assert (K1 : wrapv p (c, b) = Done (c, b)).
  { revert Fc. clear. unfold wrapv. cbn [fst snd]. generalize (usize_modulus tt) as M. intros M Fc. destruct p.
    - replace (forallb _ _) with true; auto. symmetry. apply forallb_forall. intros x Hx. apply Nat.ltb_lt. auto.
    - do 2 f_equal. rewrite <- (map_id c) at 2. apply map_ext_in. intros x Hx. apply Nat.mod_small. auto. }
  rewrite K0, K1 in K. cbn [bind] in K. rewrite K. reflexivity.
Qed.


(** ** Signed ids *)

(** The number [k] as a wrapped signed integer. *)
Definition icode (w : Z) (k : nat) : Z := if (Z.of_nat k <? 2 ^ w)%Z then Z.of_nat k else (Z.of_nat k - 2 ^ (w + 1))%Z.
Definition ienc (w : Z) (o : option nat) : Z := match o with None => (-1)%Z | Some k => icode w k end.

Definition iok (w : Z) (p : profile) (cur : nat) : bool :=
  match p with Debug => (Z.of_nat cur <? 2 ^ w)%Z | Release => true end.

Lemma iok_pred w p cur : iok w p cur = false -> iok w p (S cur) = false.
Proof. unfold iok. destruct p; [rewrite !Z.ltb_ge; lia|discriminate]. Qed.

Lemma isucc_code w p cur : (0 < w)%Z -> (Z.of_nat (S cur) < 2 ^ (w + 1))%Z -> iok w p cur = true ->
  isucc w p (icode w cur) = if iok w p (S cur) then Done (icode w (S cur)) else Panic.
Proof.
  intros Hw H F. assert (P : (2 ^ (w + 1) = 2 * 2 ^ w)%Z) by (rewrite Z.pow_add_r by lia; lia).
  unfold iok, isucc, icode in *. rewrite P in *. destruct p.
  - rewrite F. apply Z.ltb_lt in F. destruct (Z.ltb_spec (Z.of_nat cur + 1) (2 ^ w)) as [K1|K1];
      destruct (Z.ltb_spec (Z.of_nat (S cur)) (2 ^ w)) as [K2|K2]; try lia; auto. f_equal. lia.
  - destruct (Z.ltb_spec (Z.of_nat cur) (2 ^ w)) as [K|K].
    + destruct (Z.ltb_spec (Z.of_nat cur + 1) (2 ^ w)) as [K1|K1];
        destruct (Z.ltb_spec (Z.of_nat (S cur)) (2 ^ w)) as [K2|K2]; try lia; f_equal; lia.
    + destruct (Z.ltb_spec (Z.of_nat cur - 2 * 2 ^ w + 1) (2 ^ w)) as [K1|K1]; [|lia].
      destruct (Z.ltb_spec (Z.of_nat (S cur)) (2 ^ w)) as [K2|K2]; try lia. f_equal. lia.
Qed.

Lemma label_mirror w z cur (items : list (nat * T)) : icode w cur = z -> forall ids ids',
  foldM (fun (c : list (option nat)) (jt : nat * T) => vset c (fst jt) (Some cur)) ids items = Done ids' ->
  foldM (fun (c : list Z) (jt : nat * T) => vset c (fst jt) z) (map (ienc w) ids) items = Done (map (ienc w) ids') /\
  (forall o, In o ids' -> In o ids \/ o = Some cur).
Proof.
  intros Hz. induction items as [|[j t] items IH]; intros ids ids' E; cbn [foldM fst] in E |- *.
  - injection E as <-. auto.
  - unfold vset in E at 1. destruct (Nat.ltb_spec j (length ids)) as [Hj|]; [|discriminate]. cbn [bind] in E.
    destruct (IH _ _ E) as [K1 K2]. rewrite vset_done by (rewrite map_length; auto). cbn [bind].
    rewrite map_upd in K1. cbn [ienc] in K1. rewrite Hz in K1. split; auto.
    intros o Ho. destruct (K2 o Ho) as [Hi|]; auto. apply In_nth_error in Hi as [i Hi].
    destruct (Nat.eq_dec j i) as [->|N].
    + rewrite nth_error_upd_same in Hi by auto. injection Hi as <-. auto.
    + rewrite nth_error_upd_other in Hi by auto. left. apply (nth_error_In _ i Hi).
Qed.

Lemma icode_label w k cur : (0 < w)%Z -> k < cur -> (Z.of_nat cur < 2 ^ (w + 1))%Z -> (icode w k =? -1)%Z = false.
Proof.
  intros Hw Hk H. apply Z.eqb_neq. unfold icode. destruct (Z.ltb_spec (Z.of_nat k) (2 ^ w)); lia.
Qed.

Definition below (ids : list (option nat)) (cur : nat) : Prop := forall k, In (Some k) ids -> k < cur.

Lemma label_int w g ids i cur ids' :
  label_component g ids i cur = Done ids' -> below ids cur ->
  below ids' (S cur) /\ label_component_int g (map (ienc w) ids) i (icode w cur) = Done (map (ienc w) ids').
Proof.
  unfold label_component, label_component_int. destruct (dfs_index_all g i) as [items| | |]; cbn [bind]; try discriminate.
  intros E B. destruct (@label_mirror w _ cur items eq_refl ids ids' E) as [K1 K2]. split; auto.
  intros k Hk. destruct (K2 _ Hk) as [Hi|[= ->]]; [apply B in Hi; lia|lia].
Qed.

Definition wsugg (w : Z) (p : profile) (s : list nat * list (option nat) * nat) : outcome (list nat * list Z * Z) :=
  let '(sugg, ids, cur) := s in if iok w p cur then Done (sugg, map (ienc w) ids, icode w cur) else Panic.
Definition wids (w : Z) (p : profile) (s : list (option nat) * nat) : outcome (list Z * Z) :=
  let '(ids, cur) := s in if iok w p cur then Done (map (ienc w) ids, icode w cur) else Panic.

Lemma ienc_get w ids i o cur : (0 < w)%Z -> (Z.of_nat cur < 2 ^ (w + 1))%Z -> below ids cur -> vget ids i = Done o ->
  vget (map (ienc w) ids) i = Done (ienc w o) /\ (ienc w o =? -1)%Z = match o with None => true | Some _ => false end.
Proof.
  intros Hw H B E. unfold vget in *. rewrite nth_error_map. destruct (nth_error ids i) as [o'|] eqn:Eo; [|discriminate].
  injection E as ->. split; auto. destruct o as [k|]; auto. apply (icode_label (cur := cur)); auto. apply B. apply (nth_error_In _ i Eo).
Qed.

Lemma suggest_step w p g s i s' : (0 < w)%Z -> below (snd (fst s)) (snd s) -> suggest_pass g s i = Done s' ->
  below (snd (fst s')) (snd s') /\
  ((Z.of_nat (snd s') < 2 ^ (w + 1))%Z -> (Z.of_nat (snd s) < 2 ^ (w + 1))%Z /\
   bind (wsugg w p s) (fun m => suggest_pass_int w p g m i) = wsugg w p s').
Proof.
  intros Hw B E. destruct s as [[sugg ids] cur]. cbn [fst snd] in *. unfold suggest_pass in E.
  destruct (vget ids i) as [o| | |] eqn:Eo; try discriminate. cbn [bind] in E. destruct o as [k|].
  - injection E as <-. cbn [fst snd]. split; auto. intros H. split; auto.
    destruct (ienc_get Hw H B Eo) as [G1 G2]. unfold wsugg. destruct (iok w p cur); auto. cbn [bind]. unfold suggest_pass_int.
    rewrite G1. cbn [bind]. rewrite G2. auto.
  - destruct (label_component g ids i cur) as [ids'| | |] eqn:El; try discriminate. cbn [bind] in E. injection E as <-. cbn [fst snd].
    destruct (label_int w El B) as [B' M]. split; auto. intros H. split; [lia|].
    assert (H0 : (Z.of_nat cur < 2 ^ (w + 1))%Z) by lia.
    destruct (ienc_get Hw H0 B Eo) as [G1 G2]. unfold wsugg. destruct (iok w p cur) eqn:K.
    + cbn [bind]. unfold suggest_pass_int. rewrite G1. cbn [bind]. rewrite G2, M. cbn [bind].
      rewrite isucc_code by auto. destruct (iok w p (S cur)); auto.
    + rewrite (iok_pred K). auto.
Qed.

Lemma ids_step w p g s i s' : (0 < w)%Z -> below (fst s) (snd s) -> ids_pass g s i = Done s' ->
  below (fst s') (snd s') /\
  ((Z.of_nat (snd s') < 2 ^ (w + 1))%Z -> (Z.of_nat (snd s) < 2 ^ (w + 1))%Z /\
   bind (wids w p s) (fun m => ids_pass_int w p g m i) = wids w p s').
Proof.
  intros Hw B E. destruct s as [ids cur]. cbn [fst snd] in *. unfold ids_pass in E.
  destruct (vget ids i) as [o| | |] eqn:Eo; try discriminate. cbn [bind] in E. destruct o as [k|].
  - injection E as <-. cbn [fst snd]. split; auto. intros H. split; auto.
    destruct (ienc_get Hw H B Eo) as [G1 G2]. unfold wids. destruct (iok w p cur); auto. cbn [bind]. unfold ids_pass_int.
    rewrite G1. cbn [bind]. rewrite G2. auto.
  - destruct (label_component g ids i cur) as [ids'| | |] eqn:El; try discriminate. cbn [bind] in E. injection E as <-. cbn [fst snd].
    destruct (label_int w El B) as [B' M]. split; auto. intros H. split; [lia|].
    assert (H0 : (Z.of_nat cur < 2 ^ (w + 1))%Z) by lia.
    destruct (ienc_get Hw H0 B Eo) as [G1 G2]. unfold wids. destruct (iok w p cur) eqn:K.
    + cbn [bind]. unfold ids_pass_int. rewrite G1. cbn [bind]. rewrite G2, M. cbn [bind].
      rewrite isucc_code by auto. destruct (iok w p (S cur)); auto.
    + rewrite (iok_pred K). auto.
Qed.

Lemma below_start n : below (repeat None n) 0.
Proof. intros k Hk. apply repeat_spec in Hk. discriminate. Qed.

Lemma enc_start w n : map (ienc w) (repeat None n) = repeat (-1)%Z n.
Proof. induction n as [|n IH]; cbn [repeat map]; auto. rewrite IH. auto. Qed.

Lemma iok_start w p : (0 < w)%Z -> iok w p 0 = true.
Proof. intros Hw. destruct p; auto. unfold iok. apply Z.ltb_lt. change (Z.of_nat 0) with 0%Z. apply Z.pow_pos_nonneg; lia. Qed.

Lemma icode_start w : (0 < w)%Z -> icode w 0 = 0%Z.
Proof. intros Hw. unfold icode. change (Z.of_nat 0) with 0%Z. destruct (Z.ltb_spec 0 (2 ^ w)); auto. assert (0 < 2 ^ w)%Z by (apply Z.pow_pos_nonneg; lia). lia. Qed.

Lemma suggest_fits p g l : simple_graph g -> suggest_connections g = Done l -> (Z.of_nat (length l) < 2 ^ 32)%Z ->
  suggest_connections_i32 p g = match p with Debug => if (Z.of_nat (length l) <? 2 ^ 31)%Z then Done l else Panic | Release => Done l end.
Proof.
  intros W E H.
  destruct (components_run W) as (sugg & ids & cur & E1 & _ & I). rewrite E in E1. injection E1 as <-.
  unfold suggest_connections in E.
  destruct (foldM (suggest_pass g) _ _) as [[[l' ids'] cur']| | |] eqn:F; try discriminate. cbn [bind] in E. injection E as ->.
  assert (Lc : length l = cur').
  { clear -F. revert F. assert (G : forall xs s s', length (fst (fst s)) = snd s -> foldM (suggest_pass g) s xs = Done s' -> length (fst (fst s')) = snd s').
    { induction xs as [|x xs IH]; intros s s' Hs E; cbn [foldM] in E; [injection E as <-; auto|].
      destruct (suggest_pass g s x) as [s1| | |] eqn:E1; try discriminate. cbn [bind] in E. refine (IH _ _ _ E).
      destruct s as [[a b] c]. cbn [fst snd] in *. unfold suggest_pass in E1. destruct (vget b x) as [[k|]| | |]; try discriminate; cbn [bind] in E1.
      - injection E1 as <-. auto.
      - destruct (label_component g b x c); try discriminate. cbn [bind] in E1. injection E1 as <-. cbn [fst snd]. rewrite app_length. cbn. lia. }
    intros F. apply (G _ _ _ (eq_refl : length (fst (fst ([], repeat (@None nat) (vertex_count g), 0))) = 0) F). }
  destruct (@mirror_foldM _ _ _ (wsugg 31 p) (suggest_pass g) (suggest_pass_int 31 p g) (fun s => below (snd (fst s)) (snd s))
     (fun s => (Z.of_nat (snd s) < 2 ^ (31 + 1))%Z) (seq 0 (vertex_count g))) with (s := ([] : list nat, repeat (@None nat) (vertex_count g), 0))
     (s' := (l, ids', cur')) as [_ K]; auto.
  { intros s x s' Hs _ Es. apply suggest_step; auto. lia. }
  { apply below_start. }
  destruct K as [_ K]; [cbn [snd]; lia|]. unfold suggest_connections_i32.
  unfold wsugg in K at 1. rewrite iok_start, icode_start, enc_start in K by lia. cbn [bind] in K. rewrite K.
  unfold wsugg, iok. rewrite Lc. destruct p; auto. destruct (Z.of_nat cur' <? 2 ^ 31)%Z; auto.
Qed.

Lemma ids_fits p g num ids : simple_graph g -> (Z.of_nat (vertex_count g) < 2 ^ 63)%Z -> connected_components_ids g = Done (num, ids) ->
  connected_components_ids_isize p g = Done (num, map (fun o => match o with None => (-1)%Z | Some k => Z.of_nat k end) ids).
Proof.
  intros W H E.
  destruct (components_run W) as (sugg & ids0 & cur & _ & E1 & I). rewrite E in E1. injection E1 as <- <-.
  assert (Hc : (Z.of_nat num < 2 ^ 63)%Z).
  { assert (Hl : length sugg <= length (seq 0 (vertex_count g))).
    { apply NoDup_incl_length.
      - apply NoDup_nth_error. intros i j Hi Eij. destruct (nth_error sugg i) as [s|] eqn:Es; [|apply nth_error_None in Es; lia].
        destruct (ci_sugg I Es) as [_ K1]. symmetry in Eij. destruct (ci_sugg I Eij) as [_ K2].
        specialize (K1 s (joined_refl _ _)). rewrite (K2 s (joined_refl _ _)) in K1. injection K1; auto.
      - intros s Hs. apply In_nth_error in Hs as [c Hs]. apply in_seq. destruct (ci_sugg I Hs). lia. }
    rewrite seq_length in Hl. pose proof (ci_cur I). lia. }
  unfold connected_components_ids in E.
  destruct (foldM (ids_pass g) _ _) as [[ids' cur']| | |] eqn:F; try discriminate. cbn [bind] in E. injection E as -> ->.
  destruct (@mirror_foldM _ _ _ (wids 63 p) (ids_pass g) (ids_pass_int 63 p g) (fun s => below (fst s) (snd s))
     (fun s => (Z.of_nat (snd s) < 2 ^ (63 + 1))%Z) (seq 0 (vertex_count g))) with (s := (repeat (@None nat) (vertex_count g), 0))
     (s' := (ids, num)) as [B K]; auto.
  { intros s x s' Hs _ Es. apply ids_step; auto. lia. }
  { apply below_start. }
  destruct K as [_ K]; [cbn [snd]; lia|]. unfold connected_components_ids_isize.
  unfold wids in K at 1. rewrite iok_start, icode_start, enc_start in K by lia. cbn [bind] in K. rewrite K.
  assert (Ok : iok 63 p num = true) by (unfold iok; destruct p; auto; apply Z.ltb_lt; auto).
  unfold wids. rewrite Ok. cbn [bind].
  assert (Cd : forall k, k <= num -> icode 63 k = Z.of_nat k).
  { intros k Hk. unfold icode. destruct (Z.ltb_spec (Z.of_nat k) (2 ^ 63)); lia. }
  rewrite Cd by auto. destruct (Z.ltb_spec (Z.of_nat num) 0); [lia|]. rewrite Nat2Z.id. do 2 f_equal.
  apply map_ext_in. intros [k|] Hk; auto. cbn [ienc]. apply Cd. apply B in Hk. cbn [snd] in Hk. lia.
Qed.


(** ** Sizes *)

Lemma closeness_fits p g : simple_graph g -> (Z.of_nat (vertex_count g) <= 2 ^ 32)%Z ->
  closeness_usize p g = closeness_centrality p g.
Proof.
  intros W H. destruct (Nat.eq_dec (vertex_count g) 0) as [E|E].
  - unfold closeness_usize, closeness_centrality. rewrite E. reflexivity.
  - destruct (@closeness_spec _ _ C L p g W) as (l & El & Ll & Hl); [lia|]. rewrite El. apply closeness_mirror; auto.
    intros x Hx. apply In_nth_error in Hx as [v Hv].
    assert (Lv : v < vertex_count g) by (rewrite <- Ll; apply (nth_error_lt _ _ Hv)).
    destruct (Hl v Lv) as (d & [D1 D2] & Ev). rewrite Hv in Ev. injection Ev as ->. cbn [snd].
    assert (K : forall xs, (forall i, In i xs -> i < vertex_count g) -> list_sum (map d xs) <= length xs * (vertex_count g - 1)).
    { induction xs as [|x xs IH]; intros R; cbn [map list_sum length fold_right]; [lia|].
      specialize (IH (fun i Hi => R i (or_intror Hi))). unfold list_sum in IH.
      assert (d x <= vertex_count g - 1); [|cbn; lia].
      assert (Lx : x < vertex_count g) by (apply R; left; auto).
      destruct (dfs_index_spec v W) as (is & _ & _ & Rr & _).
      destruct (in_dec Nat.eq_dec x (map fst is)) as [J|J]; rewrite Rr in J.
      - pose proof (dist_lt W Lv (D1 x Lx (proj2 J))). lia.
      - rewrite D2; auto; lia. }
    specialize (K (seq 0 (vertex_count g)) (fun i Hi => proj2 (proj1 (in_seq _ _ _) Hi))).
    rewrite seq_length in K. apply Nat2Z.inj_le in K. rewrite Nat2Z.inj_mul, Nat2Z.inj_sub in K by lia. nia.
Qed.

Lemma count_length_le {X} (f : X -> bool) l : count f l <= length l.
Proof. unfold count. induction l as [|x l IH]; cbn; auto. destruct (f x); cbn; lia. Qed.

Lemma triples_length n : length (triples n) = n * (n * n).
Proof.
  unfold triples. assert (K : forall (X : Type) (f : nat -> list X) k l, (forall a, length (f a) = k) -> length (flat_map f l) = length l * k).
  { intros X f k l H. induction l as [|x l IH]; cbn [flat_map length]; auto. rewrite app_length, IH, H. lia. }
  rewrite (K _ _ (n * n)); [rewrite seq_length; auto|]. intros a. rewrite (K _ _ n); [rewrite seq_length; auto|].
  intros b. rewrite map_length, seq_length. auto.
Qed.

End Generic.

(** ** Ensembles *)

Section Ensembles.
Context {T : Type}.

Lemma ws_randomize_fits p (e : ws_ensemble T) rs : simple_graph (ws_graph e) -> (Z.of_nat (vertex_count (ws_graph e)) <= 2 ^ 32)%Z ->
  (Z.of_nat (ws_distance e) + 2 ^ 32 <= 2 ^ 64)%Z -> ws_randomize_usize p e rs = ws_randomize p e rs.
Proof. intros W H D. unfold ws_randomize_usize, ws_randomize. rewrite (init_ring_fits p W H D). reflexivity. Qed.

Lemma ws_new_fits p (mk : nat -> T) n d q rs : (Z.of_nat n <= 2 ^ 32)%Z -> (Z.of_nat d < 2 ^ 63)%Z ->
  ws_new_usize p mk n d q rs = ws_new p mk n d q rs.
Proof.
  intros Hn Hd. unfold ws_new_usize, ws_new, umul, uadd. rewrite ufit_ok by lia. cbn [bind]. rewrite ufit_ok by lia. cbn [bind].
  destruct (Nat.ltb_spec n (1 + 2 * d)) as [|K]; auto.
  destruct (@graph_new_spec T (ws_container T) _ _ mk n) as (W & V & _).
  rewrite (init_ring_fits p W) by (rewrite ?V; lia).
  destruct (init_ring_ok p (d := d) W) as (g' & -> & W' & V' & _); [rewrite V; lia|]. cbn [bind].
  rewrite ws_randomize_fits; auto; cbn [ws_graph ws_distance]; rewrite ?V', ?V; lia.
Qed.

Lemma ws_new_over p (mk : nat -> T) n d q rs : (Z.of_nat n <= 2 ^ 32)%Z -> (2 ^ 63 <= Z.of_nat d < 2 ^ 64)%Z ->
  ws_new_usize p mk n d q rs =
  match p with
  | Debug => Panic
  | Release => if (Z.of_nat n <? 1 + 2 * (Z.of_nat d - 2 ^ 63))%Z then Done (Err ImpossibleRingRequest) else UB
  end.
Proof.
  intros Hn Hd. unfold ws_new_usize, umul. destruct (@ufit_over (2 * d)) as [E1 E2]; [lia|].
  destruct p; [rewrite E1; auto|]. rewrite E2. cbn [bind].
  assert (Md : (Z.of_nat (Nat.modulo (2 * d) (usize_modulus tt)) = 2 * (Z.of_nat d - 2 ^ 63))%Z).
  { rewrite Nat2Z.inj_mod, modulus_value. symmetry. apply (Z.mod_unique_pos _ _ 1); lia. }
  set (m := Nat.modulo (2 * d) (usize_modulus tt)) in *. clearbody m. unfold uadd. rewrite ufit_ok by lia. cbn [bind].
  destruct (Nat.ltb_spec n (1 + m)) as [K|K]; destruct (Z.ltb_spec (Z.of_nat n) (1 + 2 * (Z.of_nat d - 2 ^ 63))) as [K'|K']; try lia; auto.
  destruct (@graph_new_spec T (ws_container T) _ _ mk n) as (W & V & _).
  rewrite (init_ring_huge (d := d) W) by (rewrite ?V; lia). reflexivity.
Qed.

Lemma erm_new_fits p (mk : nat -> T) n m rs : (1 <= n) -> (Z.of_nat n <= 2 ^ 32)%Z -> erm_new_usize p mk n m rs = erm_new p mk n m rs.
Proof.
  intros H1 H. unfold erm_new_usize, erm_new, usub. destruct (Nat.leb_spec 1 n); [|lia]. cbn [bind].
  unfold umul. rewrite ufit_ok; [reflexivity|]. rewrite Nat2Z.inj_mul, Nat2Z.inj_sub by lia. nia.
Qed.

Lemma erm_new_over p (mk : nat -> T) n m rs : (2 ^ 32 < Z.of_nat n)%Z ->
  (p = Release -> Z.of_nat (Nat.div (n * (n - 1)) 2) < Z.of_nat m + 2 ^ 63 * ((Z.of_nat n * (Z.of_nat n - 1)) / 2 ^ 64))%Z ->
  erm_new_usize p mk n m rs = Panic.
Proof.
  intros H Hm. unfold erm_new_usize, usub. destruct (Nat.leb_spec 1 n); [|lia]. cbn [bind].
  assert (Big : (2 ^ 64 <= Z.of_nat (n * (n - 1)))%Z) by (rewrite Nat2Z.inj_mul, Nat2Z.inj_sub by lia; nia).
  destruct (ufit_over Big) as [E1 E2]. unfold umul. destruct p; [rewrite E1; auto|]. rewrite E2. cbn [bind].
  specialize (Hm eq_refl). destruct (Nat.leb_spec m (Nat.div (Nat.modulo (n * (n - 1)) (usize_modulus tt)) 2)) as [K|]; auto. exfalso.
  apply Nat2Z.inj_le in K. rewrite Nat2Z.inj_div, Nat2Z.inj_mod, modulus_value in K. rewrite Nat2Z.inj_div in Hm.
  rewrite Nat2Z.inj_mul, Nat2Z.inj_sub in * by lia. change (Z.of_nat 1) with 1%Z in *. change (Z.of_nat 2) with 2%Z in *.
  set (x := (Z.of_nat n * (Z.of_nat n - 1))%Z) in *. clearbody x. clear -K Hm.
  pose proof (Z.div_mod x (2 ^ 64) ltac:(discriminate)) as D. set (q := (x / 2 ^ 64)%Z) in *. set (r := (x mod 2 ^ 64)%Z) in *.
  assert (E : (x / 2 = q * 2 ^ 63 + r / 2)%Z).
  { rewrite D. replace (2 ^ 64 * q + r)%Z with (r + (q * 2 ^ 63) * 2)%Z by lia. rewrite Z.div_add by discriminate. lia. }
  lia.
Qed.

Lemma uadd_sum p v : forall a, foldM (uadd p) (match p with Debug => a | Release => Nat.modulo a (usize_modulus tt) end) v =
  match p with
  | Debug => if (match v with [] => true | _ => (Z.of_nat (a + list_sum v) <? 2 ^ 64)%Z end) then Done (a + list_sum v) else Panic
  | Release => Done (Nat.modulo (a + list_sum v) (usize_modulus tt))
  end.
Proof.
  induction v as [|x v IH]; intros a; cbn [foldM list_sum fold_right].
  - rewrite Nat.add_0_r. destruct p; auto.
  - destruct p.
    + unfold uadd at 1, ufit.
      destruct (Nat.ltb_spec (a + x) (usize_modulus tt)) as [K|K].
      * cbn [bind]. specialize (IH (a + x)). rewrite IH. unfold list_sum. rewrite Nat.add_assoc.
        destruct v as [|y v]; auto. cbn [fold_right]. rewrite Nat.add_0_r.
        destruct (Z.ltb_spec (Z.of_nat (a + x)) (2 ^ 64)); auto. apply Nat2Z.inj_lt in K. rewrite modulus_value in K. lia.
      * cbn [bind]. destruct (Z.ltb_spec (Z.of_nat (a + (x + fold_right Nat.add 0 v))) (2 ^ 64)) as [K'|]; auto.
        apply Nat2Z.inj_le in K. rewrite modulus_value in K. lia.
    + unfold uadd at 1. rewrite ufit_release. cbn [bind].
      rewrite Nat.add_mod_idemp_l by apply modulus_nonzero. rewrite IH. unfold list_sum. rewrite Nat.add_assoc. auto.
Qed.

Lemma even_mod_gen M x : M <> 0 -> Nat.even M = true -> Nat.even (Nat.modulo x M) = Nat.even x.
Proof.
  intros Mz E. rewrite (Nat.div_mod x M) at 2 by auto. rewrite Nat.even_add, Nat.even_mul, E. cbn [orb].
  destruct (Nat.even (Nat.modulo x M)); auto.
Qed.

Lemma modulus_half : exists h, usize_modulus tt = 2 * h.
Proof.
  exists (Z.to_nat (2 ^ 63)). apply Nat2Z.inj. rewrite modulus_value, Nat2Z.inj_mul, Z2Nat.id; [reflexivity|discriminate].
Qed.

Lemma even_mod x : Nat.even (Nat.modulo x (usize_modulus tt)) = Nat.even x.
Proof.
  apply even_mod_gen; [apply modulus_nonzero|]. destruct modulus_half as [h ->]. rewrite Nat.even_mul. reflexivity.
Qed.

Lemma degree_vec_fits p v :
  degree_vec_is_valid_usize p v =
  match p with
  | Debug => if (1 <? length v) && forallb (fun d => d <? length v - 1) v && (2 ^ 64 <=? Z.of_nat (list_sum v))%Z then Panic
             else Done (degree_vec_is_valid v)
  | Release => Done (degree_vec_is_valid v)
  end.
Proof.
  unfold degree_vec_is_valid_usize, degree_vec_is_valid. rewrite fold_add. cbn [Nat.add].
  destruct (Nat.leb_spec (length v) 1) as [K|K].
  - destruct (Nat.ltb_spec 1 (length v)); [lia|]. destruct p; auto.
  - destruct (Nat.ltb_spec 1 (length v)); [|lia]. destruct (forallb _ v) eqn:F; cbn [negb andb]; [|destruct p; auto].
    pose proof (uadd_sum p v 0) as S. destruct p.
    + rewrite S. destruct v as [|x v]; [cbn in K; lia|]. cbn [Nat.add].
      destruct (Z.ltb_spec (Z.of_nat (list_sum (x :: v))) (2 ^ 64)); destruct (Z.leb_spec (2 ^ 64) (Z.of_nat (list_sum (x :: v)))); try lia; auto.
    + rewrite Nat.mod_0_l in S by apply modulus_nonzero. rewrite S. cbn [bind Nat.add]. rewrite even_mod. auto.
Qed.

Lemma from_const_fits p (mk : nat -> T) c n rs : 1 <= n ->
  cm_from_const_usize p mk c n rs =
  match p with
  | Debug => if (c <? n - 1) && (2 ^ 64 <=? Z.of_nat (n * c))%Z then Panic else cm_from_const p mk c n rs
  | Release => cm_from_const p mk c n rs
  end.
Proof.
  intros Hn. unfold cm_from_const_usize, cm_from_const, usub. destruct (Nat.leb_spec 1 n); [|lia]. cbn [bind].
  destruct (Nat.leb_spec (n - 1) c) as [K|K]; cbn [orb].
  - destruct (Nat.ltb_spec c (n - 1)); [lia|]. destruct p; auto.
  - destruct (Nat.ltb_spec c (n - 1)); [|lia]. cbn [andb]. unfold umul. destruct p.
    + destruct (Z.leb_spec (2 ^ 64) (Z.of_nat (n * c))) as [B|B].
      * destruct (ufit_over B) as [-> _]. auto.
      * rewrite ufit_ok by auto. auto.
    + rewrite ufit_release. cbn [bind]. rewrite even_mod. auto.
Qed.

End Ensembles.
