(** Bounds for the running times of [clear_edges], the loops over all pairs and
    [vertex_load]. *)
From Verif Require Import Base BaseFacts Containers ContainerSpec ContainerFacts Graph GraphSpec GraphFacts.
From Verif Require Import GraphOps Search TraversalFacts Rng ErC Spacial Load LoadSpec LoadFacts ErMFacts Cost CostFacts.
From Coq Require Import QArith.
Set Implicit Arguments.
Unset Strict Implicit.
Local Open Scope nat_scope.

Lemma snd_cbind {X Y} (m : counted X) (k : X -> counted Y) :
  snd (cbind m k) = snd m + match fst m with Done x => snd (k x) | _ => 0 end.
Proof. destruct m as [[x| | |] n]; cbn; auto. Qed.

Lemma snd_charge {X} n (m : counted X) : snd (charge n m) = n + snd m.
Proof. reflexivity. Qed.

Lemma snd_paid {X} n (m : outcome X) : snd (paid n m) = n.
Proof. reflexivity. Qed.

Lemma cost_bind {X Y} (m : counted X) (k : X -> counted Y) a b :
  snd m <= a -> (forall x, fst m = Done x -> snd (k x) <= b) -> snd (cbind m k) <= a + b.
Proof. intros H K. rewrite snd_cbind. destruct (fst m); try lia. specialize (K _ eq_refl). lia. Qed.

Lemma free_after {X Y} (m : counted X) (k : X -> counted Y) :
  (forall x, snd (k x) = 0) -> snd (cbind m k) = snd m.
Proof. intros K. rewrite snd_cbind. destruct (fst m); rewrite ?K; lia. Qed.

Lemma fold_cost {A S} (f : S -> A -> counted S) k l :
  (forall s x, snd (f s x) <= k) -> forall s, snd (cfoldM f s l) <= (k + 1) * length l + 1.
Proof.
  intros H. induction l as [|x l IH]; intros s; cbn [cfoldM length]; [rewrite snd_paid; lia|].
  rewrite snd_charge, snd_cbind. specialize (H s x). destruct (fst (f s x)) as [s'| | |]; try nia.
  specialize (IH s'). nia.
Qed.

(** With an invariant of the states, for a loop that does not panic. *)
Lemma fold_cost_inv {A S} (f : S -> A -> counted S) (I : S -> Prop) (k : A -> nat) l :
  (forall s x, I s -> In x l -> snd (f s x) <= k x /\ forall s', fst (f s x) = Done s' -> I s') ->
  forall s, I s -> snd (cfoldM f s l) <= list_sum (map (fun x => k x + 1) l) + 1.
Proof.
  induction l as [|x l IH]; intros H s Hs; cbn [cfoldM map]; [rewrite snd_paid; lia|].
  rewrite snd_charge, snd_cbind. destruct (H s x Hs (or_introl eq_refl)) as [H1 H2]. cbn [list_sum fold_right].
  destruct (fst (f s x)) as [s'| | |]; try lia.
  pose proof (IH ltac:(intros; apply H; simpl; auto) s' (H2 _ eq_refl)). unfold list_sum in *. lia.
Qed.

Lemma fold_cost_least {A S} (f : S -> A -> counted S) l : forall s s',
  fst (cfoldM f s l) = Done s' -> length l < snd (cfoldM f s l).
Proof.
  induction l as [|x l IH]; intros s s'; cbn [cfoldM length]; [rewrite snd_paid; lia|].
  rewrite fst_charge, fst_cbind, snd_charge, snd_cbind. destruct (fst (f s x)) as [s1| | |]; try discriminate.
  cbn [bind]. intros E. specialize (IH _ _ E). lia.
Qed.

(** Goes through a body whose calls all take constant time. *)
Ltac steps :=
  cbv beta; repeat first
    [ rewrite snd_charge | rewrite snd_paid | rewrite fst_paid
    | rewrite snd_cbind
    | match goal with
      | |- context [match ?m with Done _ => _ | _ => _ end] => destruct m
      | |- context [let '(_, _) := ?x in _] => destruct x
      | |- context [snd (if ?b then _ else _)] => destruct b
      | |- context [snd (match ?x with Some _ => _ | None => _ end)] => destruct x
      end ]; try lia.

Section Generic.
Context {T A : Type} {C : AdjContainer T A} {L : AdjLaws C}.
Implicit Types g : graph A.

Lemma clear_edges_cost g : snd (clear_edges_c g) <= 2 * length (vertices g) + 3.
Proof.
  unfold clear_edges_c. destruct (edge_count g =? 0); [rewrite snd_paid; lia|].
  rewrite snd_cbind.
  pose proof (@fold_cost A (list A) (fun vs c => paid 1 (Done (vs ++ [ac_clear_edges c]))) 1 (vertices g)
                ltac:(intros; cbn; lia) []) as H.
  destruct (fst _); rewrite ?snd_paid; lia.
Qed.

Lemma load_neighbor_cost i d s x : snd (load_neighbor_c i d s x) <= 5.
Proof. unfold load_neighbor_c. destruct s as [[q1 dist] pred]. steps. Qed.

(** Every vertex taken from the queue pays for its neighbours. *)
Definition dues (f : nat -> nat) (l : list nat) : nat := list_sum (map f l).

Lemma dues_app f l l' : dues f (l ++ l') = dues f l + dues f l'.
Proof. unfold dues. rewrite map_app. apply list_sum_app. Qed.

Lemma dues_cons f x l : dues f (x :: l) = f x + dues f l.
Proof. reflexivity. Qed.

Lemma load_bfs_cost g fuel : simple_graph g -> forall d q0 q1 ord dist pred q0' q1' ord' dist' pred',
  fst (load_bfs_c g fuel d q0 q1 ord dist pred) = Done (q0', q1', ord', dist', pred') ->
  exists l, ord' = l ++ ord /\
    snd (load_bfs_c g fuel d q0 q1 ord dist pred) <= 1 + dues (fun v => 5 + 6 * length (nbrs g v)) l.
Proof.
  intros W. induction fuel as [|fu IH]; intros d q0 q1 ord dist pred q0' q1' ord' dist' pred' E;
    cbn [load_bfs_c] in *; [discriminate|].
  rewrite fst_charge in E. rewrite snd_charge. destruct q0 as [|x q0].
  - injection E as <- <- <- <- <-. exists []. rewrite snd_paid. split; auto.
  - rewrite fst_cbind, fst_paid in E. rewrite snd_cbind, snd_paid, fst_paid.
    unfold container in *. destruct (vget (vertices g) x) as [c| | |] eqn:Ec; try discriminate.
    cbn [bind] in E. rewrite fst_cbind in E. rewrite snd_cbind.
    pose proof (@fold_cost nat _ (load_neighbor_c x d) 5 (ac_neighbors c)
                  ltac:(intros; apply load_neighbor_cost) (q1, dist, pred)) as F.
    assert (Hn : length (ac_neighbors c) = length (nbrs g x)).
    { unfold vget in Ec. unfold nbrs. destruct (nth_error (vertices g) x); [|discriminate].
      injection Ec as ->. reflexivity. }
    destruct (fst (cfoldM (load_neighbor_c x d) (q1, dist, pred) (ac_neighbors c))) as [[[q2 d2] p2]| | |];
      try discriminate.
    cbn [bind] in E. rewrite fst_charge in E. rewrite snd_charge.
    destruct q0 as [|y q0]; destruct (IH _ _ _ _ _ _ _ _ _ _ _ E) as (l & -> & H);
      exists (l ++ [x]); rewrite dues_app, dues_cons, <- app_assoc; (split; [reflexivity|]);
      unfold dues at 2; cbn [map list_sum fold_right]; lia.
Qed.

Lemma load_accumulate_cost inc pred ord : forall b bk,
  snd (load_accumulate_c inc pred ord b bk) <= 1 + dues (fun v => 8 + 3 * length (nth v pred [])) ord.
Proof.
  induction ord as [|x ord IH]; intros b bk; [cbn; lia|].
  destruct ord as [|y r]; [cbn; lia|]. set (ord := y :: r) in *.
  change (snd (charge 1 (
      pay bi <- paid 1 (vget b x);
      pay bki <- paid 1 (vget bk x);
      pay b1 <- paid 1 (vset b x (bi + bki)%Q);
      pay b2 <- (if inc then paid 0 (Done b1)
                 else pay z <- paid 1 (vget b1 x); paid 1 (vset b1 x (z - 1)%Q));
      pay pi <- paid 1 (vget pred x);
      pay bk' <- cfoldM (fun (l : list Q) (p : nat) =>
                   pay z <- paid 1 (vget l p); paid 1 (vset l p (z + (bki / inject_Z (Z.of_nat (length pi))))%Q)) bk pi;
      load_accumulate_c inc pred ord b2 bk')) <= 1 + dues (fun v => 8 + 3 * length (nth v pred [])) (x :: ord)).
  rewrite dues_cons, snd_charge.
  set (R := dues _ ord) in *. set (P := length (nth x pred [])) in *.
  enough (snd (pay bi <- paid 1 (vget b x);
      pay bki <- paid 1 (vget bk x);
      pay b1 <- paid 1 (vset b x (bi + bki)%Q);
      pay b2 <- (if inc then paid 0 (Done b1)
                 else pay z <- paid 1 (vget b1 x); paid 1 (vset b1 x (z - 1)%Q));
      pay pi <- paid 1 (vget pred x);
      pay bk' <- cfoldM (fun (l : list Q) (p : nat) =>
                   pay z <- paid 1 (vget l p); paid 1 (vset l p (z + (bki / inject_Z (Z.of_nat (length pi))))%Q)) bk pi;
      load_accumulate_c inc pred ord b2 bk') <= 1 + (1 + (1 + (2 + (1 + (3 * P + 1 + (1 + R))))))) by lia.
  apply cost_bind; [rewrite snd_paid; lia|]. intros bi _.
  apply cost_bind; [rewrite snd_paid; lia|]. intros bki _.
  apply cost_bind; [rewrite snd_paid; lia|]. intros b1 _.
  apply cost_bind. { destruct inc; steps. } intros b2 _.
  apply cost_bind; [rewrite snd_paid; lia|]. intros pi Epi.
  apply cost_bind; [|intros; apply IH].
  rewrite fst_paid in Epi. unfold vget in Epi.
  assert (HP : P = length pi).
  { unfold P. f_equal. destruct (nth_error pred x) eqn:Ex; [|discriminate]. injection Epi as <-.
    apply nth_error_nth with (d := []) in Ex. auto. }
  rewrite HP.
  pose proof (@fold_cost nat (list Q) (fun (l : list Q) (p : nat) =>
     pay z <- paid 1 (vget l p); paid 1 (vset l p (z + (bki / inject_Z (Z.of_nat (length pi))))%Q)) 2 pi
     ltac:(intros; steps) bk). lia.
Qed.

(** Sums over different vertices are at most the sum over all vertices. *)
Lemma dues_sub f n l : NoDup l -> Forall (fun v => v < n) l -> dues f l <= dues f (seq 0 n).
Proof.
  intros N F.
  assert (K : exists rest, Permutation (seq 0 n) (l ++ rest)).
  { clear f. revert N F. assert (Q : NoDup (seq 0 n)) by apply seq_NoDup.
    intros N F. assert (I : incl l (seq 0 n)).
    { intros v Hv. apply in_seq. apply (proj1 (Forall_forall _ _) F) in Hv. lia. }
    clear F. revert Q I. generalize (seq 0 n). induction l as [|x l IH]; intros s Q I.
    - exists s. auto.
    - apply NoDup_cons_iff in N as [Nx N].
      destruct (in_split x s) as (s1 & s2 & ->); [apply I; simpl; auto|].
      destruct (IH N (s1 ++ s2)) as (rest & P).
      + apply NoDup_remove_1 in Q. auto.
      + intros v Hv. assert (K : In v (s1 ++ x :: s2)) by (apply I; simpl; auto).
        apply in_app_iff in K as [K|[->|K]]; [| |]; try (apply in_app_iff; auto); tauto.
      + exists rest. simpl. rewrite <- P. symmetry. apply Permutation_middle. }
  destruct K as (rest & P). unfold dues.
  rewrite (Permutation_list_sum (Permutation_map f P)), map_app, list_sum_app. lia.
Qed.

Lemma dues_degrees g a b : simple_graph g ->
  dues (fun v => a + b * length (nbrs g v)) (seq 0 (vertex_count g)) =
  a * vertex_count g + b * (2 * edge_count g).
Proof.
  intros W. rewrite <- (degree_sum W), degree_vec_nbrs by auto. unfold dues.
  generalize (vertex_count g). intros n. rewrite <- (seq_length n 0) at 2.
  induction (seq 0 n) as [|x l IH]; cbn [map list_sum fold_right length]; [lia|].
  unfold list_sum in IH. nia.
Qed.

Lemma load_start g i : i < vertex_count g ->
  linv g i [i] [i] [] [] (upd (repeat None (vertex_count g)) i (Some 0)) (repeat [] (vertex_count g)) 0.
Proof.
  intros Hi. set (n := vertex_count g) in *. constructor; simpl; auto.
  - apply binv_start. auto.
  - constructor; auto. constructor.
  - intros v [<-|[]]. auto.
  - rewrite upd_length, repeat_length; auto.
  - rewrite repeat_length; auto.
  - intros w. rewrite nth_upd, repeat_length. destruct (Nat.eqb_spec i w) as [->|Nw].
    + destruct (Nat.ltb_spec w n); [|lia]. simpl. split; [auto|discriminate].
    + simpl. rewrite nth_repeat. split; [congruence|]. intros [?|[]]. congruence.
  - intros w e. rewrite nth_upd, repeat_length. destruct (Nat.eqb_spec i w) as [->|Nw].
    + destruct (Nat.ltb_spec w n); [|lia]. simpl. intros [= <-]. apply is_dist_self.
    + simpl. rewrite nth_repeat. discriminate.
  - intros w. apply nth_repeat.
  - constructor.
  - tauto.
Qed.

Lemma load_source_cost g inc st i : simple_graph g -> i < vertex_count g ->
  ld_q0 st = [] -> ld_q1 st = [] -> ld_ord st = [] ->
  length (ld_dist st) = vertex_count g -> length (ld_pred st) = vertex_count g ->
  (i = 0 -> ld_dist st = repeat None (vertex_count g) /\ ld_pred st = repeat [] (vertex_count g)) ->
  snd (load_source_c g inc st i) <= 17 * vertex_count g + 18 * edge_count g + 5.
Proof.
  intros W Hi Q0 Q1 Qo Ld Lp Fr. unfold load_source_c. rewrite Q0, Q1, Qo. cbn [app].
  set (n := vertex_count g) in *.
  set (bk := if 0 <? i then map (fun _ => 1%Q) (ld_bk st) else ld_bk st).
  set (dist := if 0 <? i then map (fun _ => None) (ld_dist st) else ld_dist st).
  set (pred := if 0 <? i then map (fun _ => []) (ld_pred st) else ld_pred st).
  assert (K : forall {X Y} (x : X) (l : list Y) (m : list X), length l = n -> (i = 0 -> m = repeat x n) ->
     (if 0 <? i then map (fun _ => x) l else m) = repeat x n).
  { intros X Y x l m Hl Hm. destruct (Nat.ltb_spec 0 i); [|apply Hm; lia].
    rewrite <- Hl. clear. induction l; simpl; congruence. }
  assert (Ed : dist = repeat None n) by (apply K; auto; apply Fr).
  assert (Ep : pred = repeat [] n) by (apply K; auto; apply Fr).
  rewrite Ed, Ep, snd_charge. rewrite vset_done by (rewrite repeat_length; auto).
  rewrite snd_cbind, snd_paid, fst_paid, snd_cbind, load_bfs_same.
  destruct (@load_bfs_spec _ _ _ _ g i W (S (S n)) [i] [i] [] []
    (upd (repeat None n) i (Some 0)) (repeat [] n) 0 (load_start Hi)) as (seen' & ord & dist' & pred' & d' & E & I).
  { discriminate. }
  { simpl. lia. }
  rewrite E.
  destruct (@load_bfs_cost g (S (S n)) W 0 [i] [] [] (upd (repeat None n) i (Some 0)) (repeat [] n)
              [] [] ord dist' pred') as (l & El & Hl).
  { rewrite load_bfs_same. exact E. }
  rewrite app_nil_r in El. subst l.
  assert (N : NoDup ord) by apply (fin_nodup I).
  assert (F : Forall (fun v => v < n) ord).
  { apply Forall_forall. intros v Hv. apply (li_rg I). apply in_app_iff; auto. }
  pose proof (dues_sub (fun v => 5 + 6 * length (nbrs g v)) N F) as H1. rewrite dues_degrees in H1 by auto.
  pose proof (@load_accumulate_cost inc pred' ord (ld_b st) bk) as H2.
  assert (H3 : dues (fun v => 8 + 3 * length (nth v pred' [])) ord <= dues (fun v => 8 + 3 * length (nbrs g v)) ord).
  { assert (P : forall v, length (nth v pred' []) <= length (nbrs g v)).
    { intros v. apply NoDup_incl_length; [apply (fin_pred_nodup I)|].
      intros w Hw. apply (fin_pred I) in Hw as [Hw _]. apply (sg_sym W _ _ Hw). }
    unfold dues. clear - P. induction ord as [|x l IH]; cbn [map list_sum fold_right]; auto.
    specialize (P x). unfold list_sum in IH. lia. }
  pose proof (dues_sub (fun v => 8 + 3 * length (nbrs g v)) N F) as H4. rewrite dues_degrees in H4 by auto.
  fold n in H1, H4. rewrite free_after by (intros [[? ?] ?]; reflexivity).
  destruct (0 <? i); lia.
Qed.

Lemma load_sources_cost g inc : simple_graph g -> forall m k st, k + m = vertex_count g ->
  ld_q0 st = [] -> ld_q1 st = [] -> ld_ord st = [] ->
  length (ld_b st) = vertex_count g -> length (ld_bk st) = vertex_count g ->
  length (ld_dist st) = vertex_count g -> length (ld_pred st) = vertex_count g ->
  (k = 0 -> ld_bk st = repeat 1%Q (vertex_count g) /\ ld_dist st = repeat None (vertex_count g) /\
            ld_pred st = repeat [] (vertex_count g)) ->
  snd (cfoldM (load_source_c g inc) st (seq k m)) <= m * (17 * vertex_count g + 18 * edge_count g + 6) + 1.
Proof.
  intros W. induction m as [|m IH]; intros k st Hk Q0 Q1 Qo Lb Lk Ld Lp Fr.
  - cbn. lia.
  - cbn [seq cfoldM]. rewrite snd_charge, snd_cbind.
    pose proof (@load_source_cost g inc st k W ltac:(lia) Q0 Q1 Qo Ld Lp) as H.
    destruct (@load_source_spec _ _ _ _ g inc st k W ltac:(lia) Q0 Q1 Qo Lb Lk Ld Lp Fr)
      as (st' & D & F & E & Q0' & Q1' & Qo' & Lb' & Lk' & Ld' & Lp' & _).
    rewrite load_source_same, E.
    pose proof (IH (S k) st' ltac:(lia) Q0' Q1' Qo' Lb' Lk' Ld' Lp' ltac:(discriminate)).
    specialize (H ltac:(intros; split; apply Fr; auto)). lia.
Qed.

Lemma vertex_load_cost g inc : simple_graph g ->
  snd (vertex_load_c g inc) <= 27 * (vertex_count g * (vertex_count g + edge_count g)) + 1.
Proof.
  intros W. unfold vertex_load_c. rewrite snd_charge, free_after by reflexivity.
  set (n := vertex_count g).
  pose proof (@load_sources_cost g inc W n 0
     (mk_load [] [] [] (repeat 0%Q n) (repeat 1%Q n) (repeat None n) (repeat [] n))) as H.
  cbn [ld_q0 ld_q1 ld_ord ld_b ld_bk ld_dist ld_pred] in H. rewrite !repeat_length in H. fold n in H.
  specialize (H ltac:(lia) eq_refl eq_refl eq_refl eq_refl eq_refl eq_refl eq_refl ltac:(auto)).
  assert (Sq : n <= n * n) by (destruct n; nia).
  fold (@vertex_count _ g) in *. fold n in H |- *. nia.
Qed.

Lemma load_source_least g inc st i : 0 < i -> 4 * vertex_count g < snd (load_source_c g inc st i).
Proof.
  intros H. unfold load_source_c. rewrite snd_charge. destruct (Nat.ltb_spec 0 i); lia.
Qed.

Lemma load_sources_least g inc l : (forall i, In i l -> 0 < i) -> forall st st',
  fst (cfoldM (load_source_c g inc) st l) = Done st' ->
  length l * (4 * vertex_count g) <= snd (cfoldM (load_source_c g inc) st l).
Proof.
  induction l as [|i l IH]; intros H st st' E; [cbn; lia|]. cbn [cfoldM] in *.
  rewrite fst_charge, fst_cbind in E. rewrite snd_charge, snd_cbind.
  pose proof (@load_source_least g inc st i (H i (or_introl eq_refl))).
  destruct (fst (load_source_c g inc st i)) as [s| | |]; try discriminate. cbn [bind] in E.
  specialize (IH ltac:(intros; apply H; simpl; auto) _ _ E). cbn [length]. lia.
Qed.

(** Resetting the vectors takes as many steps as there are vertices, for every source. *)
Lemma vertex_load_least g inc : simple_graph g ->
  4 * ((vertex_count g - 1) * vertex_count g) <= snd (vertex_load_c g inc).
Proof.
  intros W. unfold vertex_load_c. rewrite snd_charge, snd_cbind.
  destruct (@vertex_load_parts _ _ _ _ g inc W) as (_ & _ & l & _ & _ & E & _).
  rewrite <- vertex_load_same in E. unfold vertex_load_c in E. rewrite fst_charge, fst_cbind in E.
  apply bind_done in E as (s & E & _).
  destruct (vertex_count g) as [|n] eqn:En; [lia|]. cbn [seq cfoldM] in *.
  rewrite fst_charge, fst_cbind in E. rewrite snd_charge, snd_cbind.
  apply bind_done in E as (s1 & E1 & E). rewrite E1.
  pose proof (@load_sources_least g inc (seq 1 n) ltac:(intros i Hi; apply in_seq in Hi; lia) _ _ E) as H.
  rewrite seq_length, En in H. nia.
Qed.

End Generic.

Section Pairs.
Context {T : Type}.

Lemma erc_randomize_cost (e : er_c T) rs : simple_graph (erc_graph e) ->
  let n := vertex_count (erc_graph e) in snd (erc_randomize_c e rs) <= 8 * (n * n) + 8.
Proof.
  intros W n. unfold erc_randomize_c. rewrite snd_cbind, clear_edges_same.
  pose proof (clear_edges_cost (erc_graph e)) as H0. rewrite (sg_len W) in H0. fold n in H0.
  assert (V : vertex_count (clear_edges (erc_graph e)) = n) by (apply clear_edges_spec; auto).
  rewrite V, snd_charge, free_after by (intros [? ?]; reflexivity). unfold outer_rounds.
  match goal with |- context [cfoldM ?f _ _] =>
    pose proof (@fold_cost _ _ f 6 (er_pairs n) ltac:(intros [? ?] ?; steps) (clear_edges (erc_graph e), rs)) as H end.
  pose proof (er_pairs_length n) as P.
  nia.
Qed.

Lemma sp_randomize_cost (e : spacial T) rs : simple_graph (sp_graph e) ->
  let n := vertex_count (sp_graph e) in snd (sp_randomize_c e rs) <= 8 * (n * n) + 8.
Proof.
  intros W n. unfold sp_randomize_c. rewrite snd_cbind, clear_edges_same.
  pose proof (clear_edges_cost (sp_graph e)) as H0. rewrite (sg_len W) in H0. fold n in H0.
  assert (V : vertex_count (clear_edges (sp_graph e)) = n) by (apply clear_edges_spec; auto).
  rewrite V, snd_charge, free_after by (intros [? ?]; reflexivity). unfold outer_rounds.
  match goal with |- context [cfoldM ?f _ _] =>
    pose proof (@fold_cost _ _ f 8 (er_pairs n) ltac:(intros [? ?] ?; steps) (clear_edges (sp_graph e), rs)) as H end.
  pose proof (er_pairs_length n) as P.
  nia.
Qed.

(** Every pair is looked at. *)
Lemma erc_randomize_least (e : er_c T) rs r : simple_graph (erc_graph e) ->
  let n := vertex_count (erc_graph e) in
  erc_randomize e rs = Done r -> n * (n - 1) <= 2 * snd (erc_randomize_c e rs).
Proof.
  intros W n E. rewrite <- erc_randomize_same in E. unfold erc_randomize_c in *.
  rewrite fst_cbind in E. rewrite snd_cbind. rewrite clear_edges_same in *. cbn [bind] in E.
  assert (V : vertex_count (clear_edges (erc_graph e)) = n) by (apply clear_edges_spec; auto).
  rewrite V in *. rewrite fst_charge, fst_cbind in E. rewrite snd_charge, snd_cbind.
  apply bind_done in E as ([g' rs'] & E & _). rewrite E. apply fold_cost_least in E.
  rewrite <- (er_pairs_length n). lia.
Qed.

Lemma sp_randomize_least (e : spacial T) rs r : simple_graph (sp_graph e) ->
  let n := vertex_count (sp_graph e) in
  sp_randomize e rs = Done r -> n * (n - 1) <= 2 * snd (sp_randomize_c e rs).
Proof.
  intros W n E. rewrite <- sp_randomize_same in E. unfold sp_randomize_c in *.
  rewrite fst_cbind in E. rewrite snd_cbind. rewrite clear_edges_same in *. cbn [bind] in E.
  assert (V : vertex_count (clear_edges (sp_graph e)) = n) by (apply clear_edges_spec; auto).
  rewrite V in *. rewrite fst_charge, fst_cbind in E. rewrite snd_charge, snd_cbind.
  apply bind_done in E as ([g' rs'] & E & _). rewrite E. apply fold_cost_least in E.
  rewrite <- (er_pairs_length n). lia.
Qed.

End Pairs.
