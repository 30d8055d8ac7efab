(** Facts about blocks: which sets are biconnected, and how a partition of the edges into
    biconnected parts that meet in single vertices gives all blocks. *)
From Verif Require Import Base BaseFacts Containers ContainerSpec Graph GraphSpec GraphFacts.
From Verif Require Import GraphOps Search TraversalFacts EnsembleFacts BiconnectedSpec BiconnectedFacts BlockSpec.
Set Implicit Arguments.
Unset Strict Implicit.

Definition ends (c : list (nat * nat)) : list nat := flat_map (fun e => [fst e; snd e]) c.

Lemma in_ends x c : In x (ends c) <-> exists e, In e c /\ (x = fst e \/ x = snd e).
Proof.
  unfold ends. rewrite in_flat_map. split; intros (e & He & Hx); exists e; split; auto;
    simpl in *; intuition congruence.
Qed.

Lemma ends_app c c' : ends (c ++ c') = ends c ++ ends c'.
Proof. unfold ends. apply flat_map_app. Qed.

Lemma ends_l u v c : In (u, v) c -> In u (ends c).
Proof. intros H. apply in_ends. exists (u, v). auto. Qed.
Lemma ends_r u v c : In (u, v) c -> In v (ends c).
Proof. intros H. apply in_ends. exists (u, v). auto. Qed.

Section Blocks.
Context {T A : Type} {C : AdjContainer T A} {L : AdjLaws C}.
Variable g : graph A.
Hypothesis W : simple_graph g.

(** Connected without [x]. *)
Definition conn (S : list nat) (x : nat) : Prop :=
  forall u v, In u S -> In v S -> u <> x -> v <> x -> joined (edge_without g S x) u v.

Lemma biconnected_conn S : biconnected g S <-> NoDup S /\ 2 <= length S /\ forall x, conn S x.
Proof.
  unfold biconnected, conn. split.
  - intros (N & Hl & H1 & H2). split; auto. split; auto. intros x u v Hu Hv Nu Nv.
    destruct (in_dec Nat.eq_dec x S) as [K|K]; [auto|].
    eapply joined_mono; [|apply (H1 u v Hu Hv)]. intros a b (Hab & Ha & Hb).
    split; [split; auto|]. split; intros ->; auto.
  - intros (N & Hl & H). split; auto. split; auto. split; [|auto].
    intros u v Hu Hv. set (x := Datatypes.S (list_max S)).
    assert (F : forall a, In a S -> a <> x).
    { intros a Ha ->. pose proof (proj1 (list_max_le S (list_max S)) (le_n _)) as F.
      rewrite Forall_forall in F. specialize (F _ Ha). unfold x in F. lia. }
    eapply joined_mono; [|apply (H x u v); auto]. intros a b [K _]. exact K.
Qed.

Lemma without_sym S x a b : edge_without g S x a b -> edge_without g S x b a.
Proof. intros ((H & Ha & Hb) & Na & Nb). split; auto. split; auto. apply (sg_sym W), H. Qed.

Lemma without_mono S S' x a b : incl S S' -> edge_without g S x a b -> edge_without g S' x a b.
Proof. intros I ((H & Ha & Hb) & Na & Nb). split; auto. split; auto. Qed.

Lemma conn_same S S' x : same_set S S' -> conn S x -> conn S' x.
Proof.
  intros E H u v Hu Hv Nu Nv. apply (joined_mono (R := edge_without g S x)).
  - intros a b. apply without_mono. intros y. apply E.
  - apply H; auto; apply E; auto.
Qed.

Lemma biconnected_same S S' : NoDup S' -> same_set S S' -> biconnected g S -> biconnected g S'.
Proof.
  intros N E. rewrite !biconnected_conn. intros (N' & Hl & H). split; auto. split.
  - eapply Nat.le_trans; [apply Hl|]. apply NoDup_incl_length; auto. intros x. apply E.
  - intros x. eapply conn_same; eauto.
Qed.

Lemma conn_pair a b x : adj g a b -> conn [a; b] x.
Proof.
  intros H u v [<-|[<-|[]]] [<-|[<-|[]]] Nu Nv; try apply joined_refl;
    apply (joined_step (joined_refl _ _)); (split; [split; [|simpl; auto]|auto]); auto.
  apply (sg_sym W), H.
Qed.

Lemma conn_union S1 S2 S a b x : (forall y, In y S <-> In y S1 \/ In y S2) ->
  a <> b -> In a S1 -> In b S1 -> In a S2 -> In b S2 -> conn S1 x -> conn S2 x -> conn S x.
Proof.
  intros HS Nab A1 B1 A2 B2 C1 C2.
  assert (exists c, c <> x /\ In c S1 /\ In c S2) as (c & Nc & H1 & H2).
  { destruct (Nat.eq_dec a x) as [->|]; eauto. }
  assert (Go : forall u, In u S -> u <> x -> joined (edge_without g S x) u c).
  { intros u Hu Nu. apply HS in Hu as [Hu|Hu].
    - eapply joined_mono; [|apply (C1 u c); auto]. intros p q. apply without_mono. intros y Hy. apply HS; auto.
    - eapply joined_mono; [|apply (C2 u c); auto]. intros p q. apply without_mono. intros y Hy. apply HS; auto. }
  intros u v Hu Hv Nu Nv. eapply joined_trans; [apply Go; auto|].
  apply joined_sym; [apply without_sym|]. apply Go; auto.
Qed.

Fixpoint linked (p : list nat) : Prop :=
  match p with
  | a :: ((b :: _) as t) => adj g a b /\ linked t
  | _ => True
  end.

Lemma linked_cons a b p : linked (a :: b :: p) <-> adj g a b /\ linked (b :: p).
Proof. simpl. tauto. Qed.

Lemma linked_app p q : linked (p ++ q) -> linked p /\ linked q.
Proof.
  induction p as [|a p IH]; simpl app; intros H; [simpl; auto|].
  destruct p as [|b p].
  - split; [simpl; auto|]. destruct q as [|c q]; [simpl; auto|]. exact (proj2 H).
  - simpl app in *. apply linked_cons in H as [H1 H2]. apply IH in H2 as [H2 H3].
    split; auto. apply linked_cons. auto.
Qed.

Lemma linked_joined p S x : linked p -> incl p S -> ~ In x p -> forall u v, In u p -> In v p ->
  joined (edge_without g S x) u v.
Proof.
  intros Hl Hi Nx.
  assert (Go : match p with [] => True | a :: _ => forall v, In v p -> joined (edge_without g S x) a v end).
  { revert Hl Hi Nx. induction p as [|a p IH]; auto. intros Hl Hi Nx v [<-|Hv]; [apply joined_refl|].
    destruct p as [|b p]; [destruct Hv|]. apply linked_cons in Hl as [Hab Hl].
    apply joined_trans with (v := b).
    - apply (joined_step (joined_refl _ _)). split; [split; [auto|split; apply Hi; simpl; auto]|].
      split; intros ->; apply Nx; simpl; auto.
    - apply IH; auto; [intros y Hy; apply Hi; simpl; auto|intros K; apply Nx; simpl; auto]. }
  destruct p as [|a p]; [intros u v []|]. intros u v Hu Hv. apply joined_trans with (v := a); auto.
  apply joined_sym; [apply without_sym|auto].
Qed.

Lemma conn_cycle p a b x : NoDup p -> linked p -> (exists q, p = a :: q) -> (exists q, p = q ++ [b]) ->
  adj g a b -> conn p x.
Proof.
  intros N Hl [q0 E0] [q1 E1] Hab u v Hu Hv Nu Nv.
  destruct (in_dec Nat.eq_dec x p) as [K|K]; [|apply (linked_joined Hl); auto; apply incl_refl].
  apply in_split in K as (p1 & p2 & E).
  assert (Np : ~ In x p1 /\ ~ In x p2).
  { rewrite E in N. apply NoDup_remove_2 in N. rewrite in_app_iff in N. tauto. }
  destruct Np as [Np1 Np2].
  pose proof Hl as Hl'. rewrite E in Hl'. apply linked_app in Hl' as [L1 L2].
  change (x :: p2) with ([x] ++ p2) in L2. apply linked_app in L2 as [_ L2].
  assert (I1 : incl p1 p) by (rewrite E; intros y Hy; apply in_app_iff; auto).
  assert (I2 : incl p2 p) by (rewrite E; intros y Hy; apply in_app_iff; simpl; auto).
  assert (Cross : forall s t, In s p1 -> In t p2 -> joined (edge_without g p x) s t).
  { intros s t Hs Ht. destruct p1 as [|a' p1]; [destruct Hs|]. simpl in E. rewrite E0 in E. injection E as <- Eq.
    destruct (exists_last (l := p2)) as (p2' & b' & E2); [intros ->; destruct Ht|].
    assert (b' = b).
    { rewrite E1 in E0. rewrite E2, app_comm_cons, app_assoc in Eq.
      destruct q1 as [|? q1].
      - simpl in E0. injection E0 as _ E0. rewrite <- E0 in Eq. symmetry in Eq. apply app_eq_nil in Eq as [_ Eq]. discriminate.
      - simpl in E0. injection E0 as _ E0. rewrite <- E0 in Eq. apply app_inj_tail in Eq as [_ ->]. auto. }
    subst b'. assert (Hb : In b p2) by (rewrite E2; apply in_app_iff; simpl; auto).
    apply joined_trans with (v := a); [apply (linked_joined L1); auto; simpl; auto|].
    apply joined_trans with (v := b); [|apply (linked_joined L2); auto].
    apply (joined_step (joined_refl _ _)). split; [split; [auto|]|].
    - split; [apply I1; simpl; auto|apply I2; auto].
    - split; intros ->; [apply Np1; simpl; auto|apply Np2; auto]. }
  assert (Hu' : In u p1 \/ In u p2) by (rewrite E, in_app_iff in Hu; simpl in Hu; intuition congruence).
  assert (Hv' : In v p1 \/ In v p2) by (rewrite E, in_app_iff in Hv; simpl in Hv; intuition congruence).
  destruct Hu' as [Hu'|Hu'], Hv' as [Hv'|Hv'].
  - apply (linked_joined L1); auto.
  - apply Cross; auto.
  - apply joined_sym; [apply without_sym|]. apply Cross; auto.
  - apply (linked_joined L2); auto.
Qed.

(** ** Partitions *)

Fixpoint ordered (l : list (nat * list (nat * nat))) : Prop :=
  match l with
  | [] => True
  | (r, c) :: l' => In r (ends c) /\
      (forall x, In x (ends c) -> x <> r -> ~ In x (ends (concat (map snd l')))) /\ ordered l'
  end.

Lemma ordered_snoc l r c : ordered l -> In r (ends c) ->
  (forall r' c' x, In (r', c') l -> In x (ends c') -> x <> r' -> ~ In x (ends c)) ->
  ordered (l ++ [(r, c)]).
Proof.
  induction l as [|[r1 c1] l IH]; cbn [app ordered map concat]; intros H Hr K.
  - simpl. auto.
  - destruct H as (H1 & H2 & H3). split; auto. split.
    + intros x Hx Nx. rewrite map_app, concat_app, ends_app, in_app_iff. intros [Q|Q].
      * apply (H2 x); auto.
      * simpl in Q. rewrite app_nil_r in Q. apply (K r1 c1 x); simpl; auto.
    + apply IH; auto. intros r' c' x Hin. apply K. simpl; auto.
Qed.

Lemma inside_part l : forall (R : nat -> nat -> Prop) S,
  ordered l ->
  (forall a b, R a b -> a <> b /\ (In (a, b) (concat (map snd l)) \/ In (b, a) (concat (map snd l)))) ->
  NoDup S -> 2 <= length S ->
  (forall x u v, In u S -> In v S -> u <> x -> v <> x ->
     joined (fun a b => R a b /\ In a S /\ In b S /\ a <> x /\ b <> x) u v) ->
  exists r c, In (r, c) l /\ incl S (ends c).
Proof.
  induction l as [|[r c] l IH]; intros R S O HR N Hl H.
  - exfalso. destruct S as [|u [|v S]]; simpl in Hl; try lia.
    inversion N as [|? ? Nu _]; subst.
    assert (Nuv : v <> u) by (intros ->; apply Nu; simpl; auto).
    set (x := Datatypes.S (Nat.max u v)).
    destruct (H x u v) as [k Wk]; try (unfold x; lia); simpl; auto.
    inversion Wk as [|a b n _ [Hab _]]; subst; [congruence|]. apply HR in Hab as [_ [[]|[]]].
  - cbn [ordered] in O. destruct O as (Hr & Hd & O). cbn [map concat] in HR.
    destruct (Exists_dec (fun d => d <> r /\ In d (ends c)) S) as [E|E].
    { intros d. destruct (Nat.eq_dec d r); [right; tauto|]. destruct (in_dec Nat.eq_dec d (ends c)); [left|right]; tauto. }
    + apply Exists_exists in E as (d & Hds & Nd & Hdc). exists r, c. split; [simpl; auto|].
      intros s Hs. destruct (Nat.eq_dec s r) as [->|Ns]; auto.
      destruct (H r d s) as [k Wk]; auto.
      assert (Go : forall y, walk (fun a b => R a b /\ In a S /\ In b S /\ a <> r /\ b <> r) d y k -> In y (ends c) /\ y <> r).
      { clear Wk. induction k as [|k IHk]; intros y Wy; inversion Wy as [|a ? ? Wa (Ra & _ & _ & _ & Ny)]; subst; auto.
        destruct (IHk a Wa) as [Ea Na]. split; auto.
        apply HR in Ra as [_ Ra]. rewrite !in_app_iff in Ra.
        destruct Ra as [[Q|Q]|[Q|Q]].
        - apply (ends_r Q).
        - exfalso. apply (Hd a Ea Na). apply (ends_l Q).
        - apply (ends_l Q).
        - exfalso. apply (Hd a Ea Na). apply (ends_r Q). }
      apply Go; auto.
    + destruct (IH (fun a b => R a b /\ (In (a, b) (concat (map snd l)) \/ In (b, a) (concat (map snd l)))) S O) as (r' & c' & Hin & Hi); auto.
      * intros a b [Ra Q]. split; auto. apply (HR a b Ra).
      * intros x u v Hu Hv Nu Nv. eapply joined_mono; [|apply (H x u v); auto].
        intros a b (Rab & Ha & Hb & Q). split; auto. split; auto.
        destruct (HR a b Rab) as [Nab Mab]. rewrite !in_app_iff in Mab.
        assert (Out : forall y, In y S -> In y (ends c) -> y = r).
        { intros y Hy Hyc. destruct (Nat.eq_dec y r); auto. exfalso. apply E. apply Exists_exists. eauto. }
        destruct Mab as [[Z|Z]|[Z|Z]]; auto; exfalso; apply Nab.
        -- rewrite (Out a Ha (ends_l Z)), (Out b Hb (ends_r Z)). auto.
        -- rewrite (Out a Ha (ends_r Z)), (Out b Hb (ends_l Z)). auto.
      * exists r', c'. split; [simpl; auto|auto].
Qed.

(** A part is given by its root and its edges; [bic c] says that its ends are biconnected. *)
Definition bic (c : list (nat * nat)) : Prop := biconnected g (nodup Nat.eq_dec (ends c)).

Lemma part_distinct l r c r' c' l1 l2 : ordered l -> l = l1 ++ (r, c) :: l2 -> In (r', c') l2 ->
  bic c -> ~ incl (ends c) (ends c').
Proof.
  intros O E Hin B I. subst l. assert (O2 : ordered ((r, c) :: l2)).
  { clear -O. induction l1 as [|[r1 c1] l1 IH]; auto. cbn [app ordered] in O. apply IH. tauto. }
  destruct O2 as (_ & Hd & _).
  apply biconnected_conn in B as (N & Hl & _).
  assert (K : exists x, In x (ends c) /\ x <> r).
  { destruct (nodup Nat.eq_dec (ends c)) as [|a [|b t]] eqn:En; simpl in Hl; try lia.
    assert (Ha : In a (ends c)) by (apply (nodup_In Nat.eq_dec); rewrite En; simpl; auto).
    assert (Hb : In b (ends c)) by (apply (nodup_In Nat.eq_dec); rewrite En; simpl; auto).
    inversion N as [|? ? Na _]; subst. destruct (Nat.eq_dec a r) as [->|]; eauto.
    exists b. split; auto. intros ->. apply Na. simpl; auto. }
  destruct K as (x & Hx & Nx). apply (Hd x Hx Nx). apply I in Hx.
  apply in_ends in Hx as (e & He & Hxe). apply in_ends. exists e. split; auto.
  apply in_concat. exists c'. split; auto. apply in_map_iff. exists (r', c'). auto.
Qed.

Lemma ordered_middle l1 r c l2 x : ordered (l1 ++ (r, c) :: l2) -> In x (ends c) -> x <> r ->
  ~ In x (ends (concat (map snd l2))).
Proof.
  induction l1 as [|[r1 c1] l1 IH]; cbn [app ordered]; [intros (_ & H & _); auto|tauto].
Qed.

Lemma two_ends c r : bic c -> exists x, In x (ends c) /\ x <> r.
Proof.
  intros B. apply biconnected_conn in B as (N & Hl & _).
  destruct (nodup Nat.eq_dec (ends c)) as [|a [|b t]] eqn:En; simpl in Hl; try lia.
  assert (Ha : In a (ends c)) by (apply (nodup_In Nat.eq_dec); rewrite En; simpl; auto).
  assert (Hb : In b (ends c)) by (apply (nodup_In Nat.eq_dec); rewrite En; simpl; auto).
  inversion N as [|? ? Na _]; subst. destruct (Nat.eq_dec a r) as [->|]; eauto.
  exists b. split; auto. intros ->. apply Na. simpl; auto.
Qed.

(** Two parts whose ends include each other are the same part. *)
Lemma part_incl l r c r' c' : ordered l -> Forall bic (map snd l) ->
  In (r, c) l -> In (r', c') l -> incl (ends c) (ends c') -> incl (ends c') (ends c).
Proof.
  intros O B H H' I. rewrite Forall_forall in B.
  assert (Bc : bic c) by (apply B, in_map_iff; exists (r, c); auto).
  assert (Bc' : bic c') by (apply B, in_map_iff; exists (r', c'); auto).
  apply in_split in H as (l1 & l2 & E). rewrite E in H'. apply in_app_iff in H' as [H'|[[= -> ->]|H']].
  - apply in_split in H' as (m1 & m2 & E'). rewrite E', <- app_assoc in E. cbn [app] in E.
    destruct (two_ends r' Bc) as (x & Hx & Nx). exfalso.
    apply (@ordered_middle m1 r' c' (m2 ++ (r, c) :: l2) x); [rewrite <- E; auto|auto|auto|].
    apply in_ends in Hx as (e & He & Hxe). apply in_ends. exists e. split; auto.
    apply in_concat. exists c. split; auto. apply in_map_iff. exists (r, c). split; auto.
    apply in_app_iff; simpl; auto.
  - apply incl_refl.
  - exfalso. apply (@part_distinct l r c r' c' l1 l2); auto.
Qed.

Lemma parts_blocks l : ordered l -> Forall bic (map snd l) ->
  (forall a b, adj g a b -> In (a, b) (concat (map snd l)) \/ In (b, a) (concat (map snd l))) ->
  lists_blocks g (map (fun rc => nodup Nat.eq_dec (ends (snd rc))) l).
Proof.
  intros O B HR.
  assert (Inside : forall S, biconnected g S -> exists r c, In (r, c) l /\ incl S (ends c)).
  { intros S HS. apply biconnected_conn in HS as (N & Hl & H).
    apply (inside_part (R := adj g)); auto.
    - intros a b Hab. split; auto. intros ->. apply (sg_irrefl W _ Hab).
    - intros x u v Hu Hv Nu Nv. eapply joined_mono; [|apply (H x u v); auto].
      intros a b ((Hab & Ha & Hb) & Na & Nb). auto. }
  assert (Bc : forall r c, In (r, c) l -> bic c).
  { intros r c Hc. rewrite Forall_forall in B. apply B, in_map_iff. exists (r, c); auto. }
  split; [|split].
  - apply Forall_forall. intros S HS. apply in_map_iff in HS as ([r c] & <- & Hc). cbn [snd].
    split; [apply (Bc r c Hc)|]. intros S' HS' I x Hx. apply nodup_In.
    destruct (Inside S' HS') as (r' & c' & Hc' & I').
    apply (part_incl O B Hc Hc').
    + intros y Hy. apply I', I, nodup_In, Hy.
    + apply I', Hx.
  - intros S [HS Mx]. destruct (Inside S HS) as (r & c & Hc & I).
    exists (nodup Nat.eq_dec (ends c)). split; [apply in_map_iff; exists (r, c); auto|].
    intros x. split; [intros Hx; apply nodup_In, I, Hx|].
    apply Mx; [apply (Bc r c Hc)|]. intros y Hy. apply nodup_In, I, Hy.
  - assert (Go : forall l1 l2, l = l1 ++ l2 -> ForallOrdPairs (fun S S' => ~ same_set S S')
        (map (fun rc => nodup Nat.eq_dec (ends (snd rc))) l2)).
    { intros l1 l2. revert l1. induction l2 as [|[r c] l2 IH]; intros l1 E; cbn [map snd]; constructor.
      - apply Forall_forall. intros S' HS'. apply in_map_iff in HS' as ([r' c'] & <- & Hc'). cbn [snd].
        intros Q. apply (@part_distinct l r c r' c' l1 l2); auto.
        + apply (Bc r). rewrite E. apply in_app_iff; simpl; auto.
        + intros y Hy. apply (nodup_In Nat.eq_dec), Q, nodup_In, Hy.
      - apply (IH (l1 ++ [(r, c)])). rewrite <- app_assoc. auto. }
    apply (Go [] l). auto.
Qed.

End Blocks.
