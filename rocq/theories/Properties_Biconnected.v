(** Properties of [vertex_biconnected_components]: C28, C29. *)
From Verif Require Import Base BaseFacts Containers ContainerSpec ContainerFacts.
From Verif Require Import Graph GraphSpec GraphFacts GraphOps Search TraversalFacts.
From Verif Require Import Biconnected BiconnectedSpec BiconnectedFacts Properties_Graph.
From Coq Require Import Sorted.
Set Implicit Arguments.

(** ** C28: a size is returned that no block has *)

(** A square 0-1-3-2 with the diagonal 1-2, and the vertex 4 attached to 1. *)
Definition ex_block : graph (node_container unit) :=
  mk_graph 5 6
    [mk_nc 0 [1; 2] tt; mk_nc 1 [0; 3; 4; 2] tt; mk_nc 2 [0; 3; 1] tt;
     mk_nc 3 [2; 1] tt; mk_nc 4 [1] tt].

Lemma ex_block_adj u v : adj ex_block u v <->
  In (u, v) [(0, 1); (0, 2); (1, 0); (1, 3); (1, 4); (1, 2); (2, 0); (2, 3); (2, 1); (3, 2); (3, 1); (4, 1)].
Proof.
  unfold adj, nbrs. split.
  - destruct u as [|[|[|[|[|u]]]]]; simpl; try (intuition congruence).
    destruct u; simpl; tauto.
  - simpl. intros H. repeat (destruct H as [[= <- <-]|H]; [simpl; tauto|]). destruct H.
Qed.

(** The square is biconnected. *)
Lemma ex_block_square : biconnected ex_block [0; 1; 2; 3].
Proof.
  assert (N : NoDup [0; 1; 2; 3]) by (repeat constructor; simpl; intuition discriminate).
  assert (S1 : forall u v, In u [0; 1; 2; 3] -> In v [0; 1; 2; 3] ->
    u = v \/ edge_within ex_block [0; 1; 2; 3] u v \/ (u = 0 /\ v = 3) \/ (u = 3 /\ v = 0)).
  { intros u v Hu Hv. simpl in Hu, Hv.
    destruct Hu as [<-|[<-|[<-|[<-|[]]]]]; destruct Hv as [<-|[<-|[<-|[<-|[]]]]]; try tauto;
      right; left; unfold edge_within; rewrite ex_block_adj; simpl; tauto. }
  assert (Es : forall u v x, edge_within ex_block [0; 1; 2; 3] u v -> u <> x -> v <> x ->
      joined (edge_without ex_block [0; 1; 2; 3] x) u v).
  { intros u v x E H1 H2. exists 1. apply walk_one. split; auto. }
  assert (Go : forall x u v, In u [0; 1; 2; 3] -> In v [0; 1; 2; 3] -> u <> x -> v <> x ->
      joined (edge_without ex_block [0; 1; 2; 3] x) u v).
  { intros x u v Hu Hv H1 H2. destruct (S1 u v Hu Hv) as [->|[E|K]].
    - apply joined_refl.
    - apply Es; auto.
    - assert (M : exists m, m <> x /\ edge_within ex_block [0; 1; 2; 3] u m /\
                              edge_within ex_block [0; 1; 2; 3] m v).
      { destruct (Nat.eq_dec x 1) as [->|N1]; [exists 2|exists 1]; split; auto;
          unfold edge_within; rewrite !ex_block_adj; simpl;
          destruct K as [[-> ->]|[-> ->]]; tauto. }
      destruct M as (m & Nm & E1 & E2). eapply joined_trans; [apply (Es u m)|apply (Es m v)]; auto. }
  split; [exact N|]. split; [simpl; lia|]. split.
  - intros u v Hu Hv.
    destruct (Go 4 u v Hu Hv) as [k Wk]; [simpl in Hu; lia|simpl in Hv; lia|].
    exists k. revert Wk. apply walk_impl. intros a b [E _]. exact E.
  - intros x u v _. apply Go.
Qed.

Lemma ex_block_pendant (R : nat -> nat -> Prop) u v : (forall a b, R a b -> adj ex_block a b /\ a <> 1 /\ b <> 1) ->
  joined R u v -> (u = 4 -> v = 4).
Proof.
  intros HR [k Wk] ->. induction Wk as [|v w k Wk IH Hw]; auto.
  rewrite IH in Hw. apply HR in Hw as (Ha & _ & Nw). apply ex_block_adj in Ha. simpl in Ha.
  repeat (destruct Ha as [Ha|Ha]; [injection Ha; intros; subst; congruence|]). destruct Ha.
Qed.

(** The full claim would be that the result lists the sizes of the blocks.  Here the
    result contains 3, and no block has three vertices. *)
Theorem C28_biconnected_refuted :
  exists (g : graph (node_container unit)) l k,
    add_edges_try Debug (graph_new (fun _ => tt) 5) [(0, 1); (0, 2); (2, 3); (3, 1); (1, 4); (1, 2)]
      = Done (Ok tt, g) /\
    simple_graph g /\
    vertex_biconnected_components Debug g false = Done l /\ In k l /\
    forall S, block g S -> length S <> k.
Proof.
  assert (E : add_edges_try Debug (graph_new (fun _ => tt) 5)
     [(0, 1); (0, 2); (2, 3); (3, 1); (1, 4); (1, 2)] = Done (Ok tt, ex_block)) by (vm_compute; reflexivity).
  assert (W : simple_graph ex_block) by
    exact (proj1 (add_edges_simple (proj1 (graph_new_spec (A := node_container unit) (fun _ => tt) 5)) E)).
  exists ex_block, [4; 3], 3. split; [exact E|]. split; [exact W|]. split; [vm_compute; reflexivity|].
  split; [simpl; auto|].
  intros S [(N & L & H1 & H2) Mx] L3.
  assert (Rg : forall v, In v S -> v < 5).
  { intros v Hv. assert (exists w, In w S /\ w <> v) as (w & Hw & Nw).
    { destruct S as [|a [|b S]]; simpl in L3; try lia.
      inversion N as [|? ? Na _]; subst. destruct (Nat.eq_dec a v) as [->|Nv].
      - exists b. simpl. split; auto. intros ->. apply Na. simpl; auto.
      - exists a. simpl. auto. }
    destruct (H1 w v Hw Hv) as [k Wk]. inversion Wk as [|u ? ? _ [Ha _]]; subst; [congruence|].
    apply (sg_range W _ _ Ha). }
  destruct (in_dec Nat.eq_dec 4 S) as [I4|N4].
  - destruct (in_dec Nat.eq_dec 1 S) as [I1|N1].
    + assert (exists w, In w S /\ w <> 1 /\ w <> 4) as (w & Hw & W1 & W4).
      { destruct (filter (fun v => negb (v =? 1) && negb (v =? 4)) S) as [|w r] eqn:F.
        - exfalso. assert (K : incl S [1; 4]).
          { intros v Hv. destruct (Nat.eqb_spec v 1) as [->|A]; [simpl; auto|].
            destruct (Nat.eqb_spec v 4) as [->|B]; [simpl; auto|]. exfalso.
            assert (X : In v (filter (fun v => negb (v =? 1) && negb (v =? 4)) S)).
            { apply filter_In. split; auto. apply Nat.eqb_neq in A, B. rewrite A, B. auto. }
            rewrite F in X. destruct X. }
          apply NoDup_incl_length in K; auto. simpl in K. lia.
        - assert (X : In w (filter (fun v => negb (v =? 1) && negb (v =? 4)) S)) by (rewrite F; simpl; auto).
          apply filter_In in X as [X Y]. exists w. split; auto.
          apply andb_true_iff in Y as [Y1 Y2]. apply negb_true_iff in Y1, Y2.
          apply Nat.eqb_neq in Y1, Y2. auto. }
      apply W4. apply (@ex_block_pendant (edge_without ex_block S 1) 4 w); auto.
      intros a b [[Ha _] Hb]. auto.
    + assert (exists w, In w S /\ w <> 4) as (w & Hw & W4).
      { destruct S as [|a [|b S]]; simpl in L3; try lia.
        inversion N as [|? ? Na _]; subst. destruct (Nat.eq_dec a 4) as [->|Nv].
        - exists b. simpl. split; auto. intros ->. apply Na. simpl; auto.
        - exists a. simpl. auto. }
      apply W4. apply (@ex_block_pendant (edge_within ex_block S) 4 w); auto.
      intros a b (Ha & Sa & Sb). split; auto. split; intros ->; auto.
  - assert (K : incl S [0; 1; 2; 3]).
    { intros v Hv. pose proof (Rg v Hv). assert (v <> 4) by congruence. simpl. lia. }
    pose proof (Mx _ ex_block_square K) as K'.
    apply (NoDup_incl_length (l := [0; 1; 2; 3])) in K'; [simpl in K'; lia|].
    apply ex_block_square.
Qed.
Print Assumptions C28_biconnected_refuted.

(** ** C29 *)

Theorem C29_biconnected {T A : Type} {C : AdjContainer T A} {L : AdjLaws C} :
  forall p (g : graph A), simple_graph g -> exists comps sizes l,
  vertex_biconnected_components p g false = Done l /\
  vertex_biconnected_components p g true = Done (filter (fun k => 2 <? k) l) /\
  StronglySorted (fun a b => b <= a) l /\ Forall (fun k => 2 <= k) l /\
  Permutation l sizes /\ Forall2 vertex_number sizes comps /\
  Forall (fun c => c <> []) comps /\ lists_edges_once g (concat comps).
Proof. intros p g. apply biconnected_spec. Qed.
Print Assumptions C29_biconnected.

Example C29_example :
  vertex_biconnected_components Debug ex_graph false = Done [3; 2] /\
  vertex_biconnected_components Debug ex_graph true = Done [3].
Proof. vm_compute. auto. Qed.
