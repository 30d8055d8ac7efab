(** Consequences of [blocks_run]. *)
From Verif Require Import Base BaseFacts Containers ContainerSpec Graph GraphSpec GraphFacts.
From Verif Require Import GraphOps Search TraversalFacts EnsembleFacts Biconnected BiconnectedSpec BiconnectedFacts.
From Verif Require Import MeasureSpec MeasureFacts BlockSpec BlockFacts BlockRun.
Set Implicit Arguments.
Unset Strict Implicit.

Lemma same_set_refl S : same_set S S.
Proof. intros x; tauto. Qed.
Lemma same_set_sym S S' : same_set S S' -> same_set S' S.
Proof. intros H x. symmetry. apply H. Qed.
Lemma same_set_trans S S' S'' : same_set S S' -> same_set S' S'' -> same_set S S''.
Proof. intros H H' x. rewrite (H x). apply H'. Qed.

Lemma same_set_length S S' : NoDup S -> NoDup S' -> same_set S S' -> length S = length S'.
Proof.
  intros N N' H. apply Permutation_length, NoDup_Permutation; auto.
Qed.

(** Lists of different sets that cover each other. *)
Definition cov (X Y : list (list nat)) : Prop := forall S, In S X -> exists S', In S' Y /\ same_set S S'.

Lemma ord_app {X} (P : X -> X -> Prop) a b c : (forall x y, P x y -> P y x) ->
  ForallOrdPairs P (a ++ b :: c) -> ForallOrdPairs P (a ++ c) /\ Forall (P b) (a ++ c).
Proof.
  intros Sy. induction a as [|x a IH]; simpl; intros H; inversion H as [|? ? H1 H2]; subst; auto.
  apply IH in H2 as [H2 H3]. apply Forall_app in H1 as [H1 H1']. inversion H1'; subst. split.
  - constructor; auto. apply Forall_app; auto.
  - constructor; auto.
Qed.

Lemma cov_perm X : forall Y, ForallOrdPairs (fun S S' => ~ same_set S S') X ->
  ForallOrdPairs (fun S S' => ~ same_set S S') Y -> cov X Y -> cov Y X ->
  Forall (@NoDup nat) X -> Forall (@NoDup nat) Y ->
  Permutation (map (@length nat) X) (map (@length nat) Y).
Proof.
  induction X as [|S X IH]; intros Y DX DY XY YX NX NY.
  - destruct Y as [|S Y]; auto. destruct (YX S) as (? & [] & _). simpl; auto.
  - destruct (XY S) as (S' & HS' & E); [simpl; auto|].
    apply in_split in HS' as (a & b & ->).
    assert (Sy : forall s t : list nat, ~ same_set s t -> ~ same_set t s).
    { intros s t H K. apply H, same_set_sym, K. }
    destruct (ord_app Sy DY) as [DY' NS'].
    inversion DX as [|? ? NS DX']; subst. inversion NX as [|? ? N1 NX']; subst.
    apply Forall_app in NY as [NYa NYb]. inversion NYb as [|? ? N2 NYb']; subst.
    assert (P : Permutation (map (@length nat) X) (map (@length nat) (a ++ b))).
    { apply IH; auto.
      - intros s Hs. destruct (XY s) as (t & Ht & Et); [simpl; auto|].
        apply in_app_iff in Ht as [Ht|[<-|Ht]]; try (exists t; split; [apply in_app_iff; auto|auto]).
        exfalso. rewrite Forall_forall in NS. apply (NS s Hs).
        eapply same_set_trans; [apply E|]. apply same_set_sym, Et.
      - intros t Ht. destruct (YX t) as (s & Hs & Es); [apply in_app_iff in Ht; apply in_app_iff; simpl; tauto|].
        destruct Hs as [<-|Hs]; [|eauto].
        exfalso. rewrite Forall_forall in NS'. apply (NS' t Ht).
        eapply same_set_trans; [apply same_set_sym, E|]. apply same_set_sym, Es.
      - apply Forall_app; auto. }
    cbn [map]. rewrite map_app. cbn [map]. rewrite map_app in P.
    rewrite (same_set_length N1 N2 E). apply Permutation_cons_app. exact P.
Qed.

Definition norm (e : nat * nat) : nat * nat := (Nat.min (fst e) (snd e), Nat.max (fst e) (snd e)).

Lemma norm_eq e e' : norm e = norm e' -> e' = e \/ e' = (snd e, fst e).
Proof.
  destruct e as [a b], e' as [c d]. unfold norm; simpl. intros E. injection E as E1 E2.
  destruct (Nat.eq_dec a c); [left|right]; f_equal; lia.
Qed.

Section Count.
Context {T A : Type} {C : AdjContainer T A} {L : AdjLaws C}.
Implicit Types g : graph A.

Lemma once_norm g M : simple_graph g -> lists_edges_once g M -> NoDup (map norm M).
Proof.
  intros W (N & H1 & H2).
  assert (K : forall e e', In e M -> In e' M -> norm e = norm e' -> e = e').
  { intros e e' He He' E. apply norm_eq in E as [->| ->]; auto. destruct e as [a b].
    exfalso. apply (H1 a b He He'). }
  clear H1 H2. induction N as [|e M Ne N IH]; simpl; constructor.
  - intros Q. apply in_map_iff in Q as (e' & E & He'). apply Ne.
    rewrite (K e e'); simpl; auto.
  - apply IH. intros e1 e2 H1 H2. apply K; simpl; auto.
Qed.

Lemma once_length g M M' : simple_graph g -> lists_edges_once g M -> lists_edges_once g M' ->
  length M = length M'.
Proof.
  assert (Le : forall N N', simple_graph g -> lists_edges_once g N -> lists_edges_once g N' ->
    length N <= length N').
  { intros N N' W O O'. rewrite <- (map_length norm N), <- (map_length norm N').
    apply NoDup_incl_length; [apply (once_norm W O)|].
    intros x Hx. apply in_map_iff in Hx as ([u v] & <- & He).
    destruct O as (_ & _ & O). destruct O' as (_ & _ & O').
    assert (Ha : adj g u v) by (apply O; auto). apply O' in Ha as [Ha|Ha]; apply in_map_iff.
    - exists (u, v). auto.
    - exists (v, u). split; auto. unfold norm; simpl. f_equal; lia. }
  intros W O O'. apply Nat.le_antisymm; auto.
Qed.

Lemma once_ends g M M' : lists_edges_once g M -> lists_edges_once g M' -> same_set (ends M) (ends M').
Proof.
  assert (Le : forall N N', lists_edges_once g N -> lists_edges_once g N' -> incl (ends N) (ends N')).
  { intros N N' (_ & _ & O) (_ & _ & O') x Hx. apply in_ends in Hx as ([u v] & He & Hx).
    assert (Ha : adj g u v) by (apply O; auto). apply O' in Ha as [Ha|Ha];
      destruct Hx as [->| ->]; simpl; eauto using ends_l, ends_r. }
  intros O O' x. split; [apply (Le M M')|apply (Le M' M)]; auto.
Qed.

(** A part has one edge if and only if it has two ends. *)
Lemma part_single g M c : lists_edges_once g M -> simple_graph g -> incl c M -> NoDup c -> c <> [] ->
  (length c = 1 <-> length (nodup Nat.eq_dec (ends c)) = 2).
Proof.
  intros (N & H1 & H2) W I Nc Ne. destruct c as [|[u v] c]; [congruence|].
  assert (Nuv : u <> v).
  { intros ->. assert (K : adj g v v) by (apply H2; left; apply I; simpl; auto). apply (sg_irrefl W _ K). }
  assert (N2 : NoDup [u; v]) by (constructor; [simpl; intuition congruence|]; constructor; auto; constructor).
  split.
  - intros E. destruct c as [|e c]; [|simpl in E; lia].
    replace 2 with (length [u; v]) by auto. apply same_set_length; auto using NoDup_nodup.
    intros x. rewrite nodup_In. simpl. tauto.
  - intros E. destruct c as [|[a b] c]; auto. exfalso.
    assert (S2 : incl (nodup Nat.eq_dec (ends ((u, v) :: (a, b) :: c))) [u; v]).
    { apply NoDup_length_incl; auto.
      - rewrite E. simpl. lia.
      - intros x Hx. apply nodup_In. simpl in *. tauto. }
    assert (Ha : In a [u; v]) by (apply S2, nodup_In; simpl; auto).
    assert (Hb : In b [u; v]) by (apply S2, nodup_In; simpl; auto).
    assert (Iab : In (a, b) M) by (apply I; simpl; auto).
    assert (Iuv : In (u, v) M) by (apply I; simpl; auto).
    assert (Nab : a <> b).
    { intros ->. assert (K : adj g b b) by (apply H2; left; auto). apply (sg_irrefl W _ K). }
    inversion Nc as [|? ? Nin _]; subst.
    destruct Ha as [<-|[<-|[]]], Hb as [<-|[<-|[]]]; try congruence.
    + apply Nin. simpl; auto.
    + apply (H1 u v); auto.
Qed.

Lemma concat_single {X} (l : list (list X)) : Forall (fun c => c <> []) l ->
  length l <= length (concat l) /\ (length (concat l) = length l <-> Forall (fun c => length c = 1) l).
Proof.
  induction 1 as [|c l Hc _ [IH1 IH2]]; [simpl; split; [lia|split; auto]|].
  cbn [concat]. rewrite app_length. cbn [length].
  assert (1 <= length c) by (destruct c; [congruence|simpl; lia]). split; [lia|]. split.
  - intros E. constructor; [lia|]. apply IH2. lia.
  - intros F. inversion F; subst. apply IH2 in H3. lia.
Qed.

Lemma in_part_NoDup {X} (l : list (list X)) c : NoDup (concat l) -> In c l -> NoDup c.
Proof.
  intros N Hc. apply in_split in Hc as (a & b & ->). rewrite concat_app in N. cbn [concat] in N.
  apply NoDup_app_iff in N as (_ & N & _). apply NoDup_app_iff in N. tauto.
Qed.

Lemma blocks_unique g Bs Bs' : lists_blocks g Bs -> lists_blocks g Bs' ->
  Permutation (map (@length nat) Bs) (map (@length nat) Bs').
Proof.
  intros (F & Cv & D) (F' & Cv' & D'). rewrite Forall_forall in F, F'. apply cov_perm; auto.
  - intros S HS. apply Cv'. auto.
  - intros S HS. apply Cv. auto.
  - apply Forall_forall. intros S HS. apply (F S HS).
  - apply Forall_forall. intros S HS. apply (F' S HS).
Qed.

Lemma blocks_number p g : simple_graph g -> exists l Bs,
  vertex_biconnected_components p g false = Done l /\ lists_blocks g Bs /\ length l = length Bs.
Proof.
  intros W. destruct (blocks_run W p) as (comps & l & Cs & E & P & _ & _ & _ & Le & _ & _ & B).
  exists l, (map (fun rc => nodup Nat.eq_dec (ends (snd rc))) Cs). split; auto. split; auto.
  rewrite (Permutation_length P), !map_length. auto.
Qed.

Lemma blocks_one p g k : simple_graph g ->
  (vertex_biconnected_components p g false = Done [k] <-> exists S, length S = k /\ lists_blocks g [S]).
Proof.
  intros W. destruct (blocks_run W p) as (comps & l & Cs & E & P & _ & O & _ & Le & _ & O' & B).
  assert (Go : forall r c c', Cs = [(r, c')] -> comps = [c] -> l = [length (nodup Nat.eq_dec (ends c'))]).
  { intros r c c' -> ->. cbn [map concat snd] in *. rewrite app_nil_r in O, O'.
    apply Permutation_sym, Permutation_length_1_inv in P. rewrite P. unfold bc_size. f_equal.
    apply same_set_length; try apply NoDup_nodup. intros x. rewrite !nodup_In. apply (once_ends O O'). }
  split.
  - intros E'. assert (l = [k]) by congruence. subst l.
    assert (Hl : length comps = 1) by (apply Permutation_length in P; rewrite map_length in P; simpl in P; lia).
    destruct comps as [|c [|? ?]]; simpl in Hl; try lia.
    destruct Cs as [|[r c'] [|? ?]]; simpl in Le; try lia.
    specialize (Go r c c' eq_refl eq_refl). injection Go as ->.
    exists (nodup Nat.eq_dec (ends c')). auto.
  - intros (S & Hk & BS). pose proof (blocks_unique BS B) as Q.
    assert (Hl : length Cs = 1) by (apply Permutation_length in Q; rewrite !map_length in Q; simpl in Q; lia).
    destruct Cs as [|[r c'] [|? ?]]; simpl in Hl; try lia.
    destruct comps as [|c [|? ?]]; simpl in Le; try lia.
    rewrite E, (Go r c c' eq_refl eq_refl). apply Permutation_length_1_inv in Q. cbn [map snd] in Q.
    injection Q as ->. subst k. auto.
Qed.

Lemma block_length g Bs k : lists_blocks g Bs ->
  ((forall S, block g S -> length S = k) <-> Forall (fun S => length S = k) Bs).
Proof.
  intros (F & Cv & _). rewrite Forall_forall in *. split; [auto|].
  intros H S HS. destruct (Cv S HS) as (S' & HS' & E). rewrite <- (H S' HS').
  apply same_set_length; auto; [apply HS|apply (F S' HS')].
Qed.

Lemma blocks_edges p g : simple_graph g -> exists l,
  vertex_biconnected_components p g false = Done l /\
  (Forall (fun k => k = 2) l <-> forall S, block g S -> length S = 2).
Proof.
  intros W. destruct (blocks_run W p) as (comps & l & Cs & E & P & Ne & O & _ & Le & Ne' & O' & B).
  exists l. split; auto. rewrite (block_length 2 B).
  assert (Single : forall X, Forall (fun c => c <> []) X -> lists_edges_once g (concat X) ->
    (Forall (fun c => length c = 1) X <-> Forall (fun c => length (nodup Nat.eq_dec (ends c)) = 2) X)).
  { intros X HX OX. rewrite Forall_forall in HX.
    assert (K : forall c, In c X -> (length c = 1 <-> length (nodup Nat.eq_dec (ends c)) = 2)).
    { intros c Hc. apply (part_single OX W); auto.
      - intros e He. apply in_concat. eauto.
      - apply (in_part_NoDup (proj1 OX) Hc). }
    rewrite !Forall_forall. split; intros H c Hc; apply (K c Hc); auto. }
  assert (E1 : Forall (fun k => k = 2) l <-> Forall (fun c => length (nodup Nat.eq_dec (ends c)) = 2) comps).
  { rewrite !Forall_forall. split.
    - intros H c Hc. apply (H (bc_size c)). rewrite P. apply in_map; auto.
    - intros H k Hk. rewrite P in Hk. apply in_map_iff in Hk as (c & <- & Hc). apply (H c Hc). }
  rewrite E1, <- (Single comps Ne O).
  assert (E2 : Forall (fun S => length S = 2) (map (fun rc : nat * list (nat * nat) => nodup Nat.eq_dec (ends (snd rc))) Cs) <->
    Forall (fun c => length (nodup Nat.eq_dec (ends c)) = 2) (map snd Cs)).
  { rewrite !Forall_forall. split.
    - intros H c Hc. apply in_map_iff in Hc as (rc & <- & Hc). apply H. apply in_map_iff. eauto.
    - intros H S HS. apply in_map_iff in HS as (rc & <- & Hc). apply H. apply in_map_iff. eauto. }
  rewrite E2, <- (Single (map snd Cs) Ne' O').
  rewrite <- (proj2 (concat_single Ne)), <- (proj2 (concat_single Ne')), map_length.
  rewrite (once_length W O O'). lia.
Qed.

Lemma biconnected_range g S x : simple_graph g -> biconnected g S -> In x S -> x < vertex_count g.
Proof.
  intros W (N & Hl & H & _) Hx.
  assert (exists w, In w S /\ w <> x) as (w & Hw & Nw).
  { destruct S as [|a [|b S]]; simpl in Hl; try lia. inversion N as [|? ? Na _]; subst.
    destruct (Nat.eq_dec a x) as [->|Nv].
    - exists b. simpl. split; auto. intros ->. apply Na. simpl; auto.
    - exists a. simpl. auto. }
  destruct (H w x Hw Hx) as [k Wk]. inversion Wk as [|u ? ? _ [Ha _]]; subst; [congruence|].
  apply (sg_range W _ _ Ha).
Qed.

Lemma blocks_whole p g : simple_graph g -> 2 <= vertex_count g ->
  (vertex_biconnected_components p g false = Done [vertex_count g] <->
   biconnected g (seq 0 (vertex_count g))).
Proof.
  intros W H2. rewrite (blocks_one p _ W). split.
  - intros (S & HS & (F & _)). inversion F as [|? ? [B _] _]; subst.
    apply (biconnected_same (S := S)); [apply seq_NoDup| |auto].
    intros x. split; intros Hx.
    + apply in_seq. pose proof (biconnected_range W B Hx). lia.
    + revert x Hx. apply NoDup_length_incl.
      * apply (proj1 B).
      * rewrite seq_length. lia.
      * intros x Hx. apply in_seq. pose proof (biconnected_range W B Hx). lia.
  - intros B. exists (seq 0 (vertex_count g)). rewrite seq_length. split; auto.
    assert (Sub : forall S, biconnected g S -> incl S (seq 0 (vertex_count g))).
    { intros S HS x Hx. apply in_seq. pose proof (biconnected_range W HS Hx). lia. }
    split; [|split].
    + constructor; auto. split; auto.
    + intros S [HS Mx]. exists (seq 0 (vertex_count g)). split; [simpl; auto|].
      intros x. split; [apply Sub; auto|]. apply Mx; auto.
    + constructor; constructor.
Qed.

End Count.

Section Iso.
Context {T A : Type} {C : AdjContainer T A} {L : AdjLaws C}.
Context {T' A' : Type} {C' : AdjContainer T' A'} {L' : AdjLaws C'}.

Lemma walk_map (R R' : nat -> nat -> Prop) (f : nat -> nat) u v k :
  (forall a b, R a b -> R' (f a) (f b)) -> walk R u v k -> walk R' (f u) (f v) k.
Proof. intros H. induction 1; [constructor|econstructor; eauto]. Qed.

Lemma biconnected_iso (g : graph A) (h : graph A') f S : simple_graph g -> isomorphism g h f ->
  biconnected g S -> biconnected h (map f S).
Proof.
  intros W I B. assert (Rg : forall x, In x S -> x < vertex_count g) by (intros x; apply (biconnected_range W B)).
  apply biconnected_conn in B as (N & Hl & H). apply biconnected_conn.
  assert (N' : NoDup (map f S)).
  { clear Hl H. revert Rg. induction N as [|a S Na N IH]; simpl; intros Rg; constructor; auto.
    intros K. apply in_map_iff in K as (b & E & Hb). apply (iso_inj I) in E; auto. subst. auto. }
  split; auto. split; [rewrite map_length; auto|].
  intros y u v Hu Hv Nu Nv. apply in_map_iff in Hu as (a & <- & Ha), Hv as (b & <- & Hb).
  (* the vertex to be avoided, or one that is not in [S] *)
  assert (exists x, a <> x /\ b <> x /\ forall c, In c S -> c <> x -> f c <> y) as (x & Nax & Nbx & Hx).
  { destruct (in_dec Nat.eq_dec y (map f S)) as [K|K].
    - apply in_map_iff in K as (x & <- & Hx). exists x. split; [congruence|]. split; [congruence|].
      intros c Hc Nc E. apply (iso_inj I) in E; auto.
    - exists (Datatypes.S (Nat.max a b)). split; [lia|]. split; [lia|]. intros c Hc _ <-. apply K, in_map, Hc. }
  destruct (H x a b Ha Hb Nax Nbx) as [k Wk]. exists k. revert Wk. apply walk_map.
  intros c d ((Hcd & Hc & Hd) & Nc & Nd). split; [split|].
  - apply (iso_adj I); auto.
  - split; apply in_map; auto.
  - split; apply Hx; auto.
Qed.

End Iso.

Section Iso2.
Context {T A : Type} {C : AdjContainer T A} {L : AdjLaws C}.
Context {T' A' : Type} {C' : AdjContainer T' A'} {L' : AdjLaws C'}.

Lemma block_iso (g : graph A) (h : graph A') f f' S : iso2 g h f f' -> block g S -> block h (map f S).
Proof.
  intros I [B Mx]. pose proof (i2_g I) as W. pose proof (i2_h I) as W'.
  split; [apply (biconnected_iso W (i2_fwd I) B)|].
  intros S' B' Inc y Hy.
  pose proof (biconnected_iso W' (i2_bwd I) B') as B2.
  assert (Hy' : y < vertex_count g) by (rewrite <- (iso_count (i2_fwd I)); apply (biconnected_range W' B' Hy)).
  assert (K : incl (map f' S') S).
  { apply Mx; auto. intros x Hx. pose proof (i2_l I (biconnected_range W B Hx)) as E. rewrite <- E.
    apply in_map, Inc, in_map, Hx. }
  pose proof (i2_r I Hy') as E. rewrite <- E. apply in_map, K, in_map, Hy.
Qed.

Lemma lists_blocks_iso (g : graph A) (h : graph A') f f' Bs : iso2 g h f f' ->
  (forall S, block h S -> block g (map f' S)) ->
  lists_blocks g Bs -> lists_blocks h (map (map f) Bs).
Proof.
  intros I Bk (F & Cv & D). rewrite Forall_forall in F. split; [|split].
  - apply Forall_forall. intros S HS. apply in_map_iff in HS as (S0 & <- & HS0).
    apply (block_iso I). auto.
  - intros S HS. destruct (Cv (map f' S) (Bk S HS)) as (S0 & HS0 & E). exists (map f S0).
    split; [apply in_map, HS0|]. intros x.
    assert (Rg : forall y, In y S -> y < vertex_count g).
    { intros y Hy. rewrite <- (iso_count (i2_fwd I)). apply (biconnected_range (i2_h I) (proj1 HS) Hy). }
    split.
    + intros Hx. pose proof (i2_r I (Rg x Hx)) as E'. rewrite <- E'. apply in_map, E, in_map, Hx.
    + intros Hx. apply in_map_iff in Hx as (y & <- & Hy). apply E, in_map_iff in Hy as (z & <- & Hz).
      rewrite (i2_r I (Rg z Hz)). auto.
  - clear Cv. induction D as [|S Bs NS D IH]; cbn [map]; constructor.
    + apply Forall_forall. intros S' HS'. apply in_map_iff in HS' as (S0 & <- & HS0). intros E.
      rewrite Forall_forall in NS. apply (NS S0 HS0).
      assert (R1 : forall x, In x S -> x < vertex_count g) by (intros x; apply (biconnected_range (i2_g I)), F; simpl; auto).
      assert (R2 : forall x, In x S0 -> x < vertex_count g) by (intros x; apply (biconnected_range (i2_g I)), F; simpl; auto).
      intros x. split; intros Hx.
      * assert (K : In (f x) (map f S0)) by (apply E, in_map, Hx).
        apply in_map_iff in K as (z & Ez & Hz). apply (iso_inj (i2_fwd I)) in Ez; auto. subst; auto.
      * assert (K : In (f x) (map f S)) by (apply E, in_map, Hx).
        apply in_map_iff in K as (z & Ez & Hz). apply (iso_inj (i2_fwd I)) in Ez; auto. subst; auto.
    + apply IH. intros S0 HS0. apply F. simpl; auto.
Qed.
End Iso2.

Lemma blocks_isomorphic {T A : Type} {C : AdjContainer T A} {L : AdjLaws C}
  {T' A' : Type} {C' : AdjContainer T' A'} {L' : AdjLaws C'} p (g : graph A) (h : graph A') f :
  simple_graph g -> simple_graph h -> isomorphism g h f -> exists l l',
  vertex_biconnected_components p g false = Done l /\
  vertex_biconnected_components p h false = Done l' /\ length l = length l'.
Proof.
  intros W W' If. destruct (iso2_of W W' If) as (f' & I).
  destruct (blocks_number p W) as (l & Bs & E & HB & Hl), (blocks_number p W') as (l' & Bs' & E' & HB' & Hl').
  exists l, l'. split; auto. split; auto.
  assert (K : lists_blocks h (map (map f) Bs)).
  { apply (lists_blocks_iso I); auto. intros S. apply (block_iso (iso2_sym I)). }
  pose proof (Permutation_length (blocks_unique K HB')) as Z. rewrite !map_length in Z. congruence.
Qed.
