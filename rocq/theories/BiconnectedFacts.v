(** Facts about [vertex_biconnected_components]. *)
From Verif Require Import Base BaseFacts Containers ContainerSpec Graph GraphSpec GraphFacts.
From Verif Require Import GraphOps TraversalFacts LoadFacts Biconnected BiconnectedSpec.
From Coq Require Import Sorted.
Set Implicit Arguments.
Unset Strict Implicit.

Lemma sorted_perm_eq (l l' : list nat) :
  StronglySorted (fun a b => b <= a) l -> StronglySorted (fun a b => b <= a) l' ->
  Permutation l l' -> l = l'.
Proof.
  revert l'. induction l as [|x l IH]; intros l' S S' P.
  - apply Permutation_nil in P. auto.
  - destruct l' as [|y l']; [symmetry in P; apply Permutation_nil in P; discriminate|].
    inversion S as [|? ? S1 F1]; subst. inversion S' as [|? ? S2 F2]; subst.
    rewrite Forall_forall in F1, F2.
    assert (E : x = y).
    { assert (H1 : In x (y :: l')) by (apply (Permutation_in _ P); simpl; auto).
      assert (H2 : In y (x :: l)) by (apply (Permutation_in _ (Permutation_sym P)); simpl; auto).
      destruct H1 as [|H1]; auto. destruct H2 as [|H2]; auto.
      specialize (F1 _ H2). specialize (F2 _ H1). lia. }
    subst y. f_equal. apply IH; auto. apply (Permutation_cons_inv P).
Qed.

Lemma sorted_filter {X} (R : X -> X -> Prop) f l : StronglySorted R l -> StronglySorted R (filter f l).
Proof.
  induction 1 as [|x l S IH F]; simpl; [constructor|].
  destruct (f x); auto. constructor; auto. rewrite Forall_forall in *.
  intros y Hy. apply filter_In in Hy as [Hy _]. auto.
Qed.

Lemma perm_filter {X} (f : X -> bool) l l' : Permutation l l' -> Permutation (filter f l) (filter f l').
Proof.
  induction 1 as [|x l l' P IH|x y l|l l' l'' P1 IH1 P2 IH2]; simpl; auto.
  - destruct (f x); auto.
  - destruct (f x), (f y); auto using perm_swap.
  - etransitivity; eauto.
Qed.

Lemma sort_desc_filter f l : sort_desc (filter f l) = filter f (sort_desc l).
Proof.
  apply sorted_perm_eq.
  - apply sort_desc_sorted.
  - apply sorted_filter, sort_desc_sorted.
  - rewrite sort_desc_perm. apply perm_filter. symmetry. apply sort_desc_perm.
Qed.

Section Facts.
Context {T A : Type} {C : AdjContainer T A} {L : AdjLaws C}.
Implicit Types g : graph A.

(** The edges of [g0] are those of [g] and those in [M]. *)
Definition taken g0 g (M : list (nat * nat)) : Prop :=
  NoDup M /\ (forall u v, In (u, v) M -> ~ In (v, u) M) /\
  (forall u v, adj g u v -> ~ In (u, v) M) /\
  forall u v, adj g0 u v <-> adj g u v \/ In (u, v) M \/ In (v, u) M.

Lemma taken_perm g0 g M M' : Permutation M M' -> taken g0 g M -> taken g0 g M'.
Proof.
  intros P (N & H1 & H2 & H3). unfold taken. splits.
  - apply (Permutation_NoDup P N).
  - intros u v. rewrite <- P. auto.
  - intros u v. rewrite <- P. auto.
  - intros u v. rewrite <- P. auto.
Qed.

Lemma taken_remove g0 g g' i j M : simple_graph g -> adj g i j ->
  (forall x y, adj g' x y <-> adj g x y /\ ~ is_pair i j x y) ->
  taken g0 g M -> taken g0 g' ((i, j) :: M).
Proof.
  intros W Hij Ad (N & H1 & H2 & H3). unfold taken. splits.
  - constructor; auto.
  - intros u v [[= <- <-]|Hu] [E|Hv]; try congruence.
    + injection E as ->. apply (sg_irrefl W _ Hij).
    + apply (H2 _ _ (sg_sym W _ _ Hij) Hv).
    + injection E as <- <-. apply (H2 _ _ (sg_sym W _ _ Hij) Hu).
    + apply (H1 _ _ Hu Hv).
  - intros u v Ha [[= <- <-]|Hu]; apply Ad in Ha as [Ha Np].
    + apply Np. left; auto.
    + apply (H2 _ _ Ha Hu).
  - intros u v. rewrite H3, Ad. unfold is_pair. simpl.
    assert (E : forall x y, (i, j) = (x, y) <-> x = i /\ y = j).
    { intros x y. split; [intros [= <- <-]; auto|intros [-> ->]; auto]. }
    rewrite !E.
    assert (P : u = i /\ v = j -> adj g u v) by (intros [-> ->]; auto).
    assert (Q : v = i /\ u = j -> adj g u v) by (intros [-> ->]; apply (sg_sym W _ _ Hij)).
    destruct (Nat.eq_dec u i), (Nat.eq_dec v j), (Nat.eq_dec v i), (Nat.eq_dec u j); tauto.
Qed.

Record bci g0 (s : bc_state) : Prop := {
  bi_g : simple_graph (bc_g s);
  bi_n : vertex_count (bc_g s) = vertex_count g0;
  bi_low : length (bc_low s) = vertex_count g0;
  bi_num : length (bc_number s) = vertex_count g0;
  bi_han : length (bc_handled s) = vertex_count g0;
  bi_vs : NoDup (bc_vs s);
  bi_vh : forall v, In v (bc_vs s) -> v < vertex_count g0 /\ nth v (bc_handled s) false = true;
  bi_done : forall v, nth v (bc_handled s) false = true -> ~ In v (bc_vs s) -> nbrs (bc_g s) v = [];
  bi_tk : taken g0 (bc_g s) (concat (bc_comps s) ++ bc_es s);
  bi_ne : Forall (fun c => c <> []) (bc_comps s);
  bi_pv : forall pre pv, bc_vs s = pre ++ [pv] -> nth pv (bc_number s) 0 = 0;
  bi_c : forall pre c pv, bc_vs s = pre ++ [c; pv] -> nth c (bc_low s) 0 = 0;
  bi_es : length (bc_vs s) <= 1 -> bc_es s = []
}.

Definition mono (s s' : bc_state (A := A)) : Prop :=
  forall v, nth v (bc_handled s) false = true -> nth v (bc_handled s') false = true.

Lemma bc_pop_spec n number bound es : length number = n ->
  (forall e, In e es -> fst e < n /\ snd e < n) -> forall tmp,
  exists tmp' es', bc_pop number bound tmp es = Done (tmp ++ tmp', es') /\ es = tmp' ++ es' /\
    (bound = 0 -> es' = []).
Proof.
  intros Ln. induction es as [|e es IH]; intros R tmp.
  - exists [], []. simpl. rewrite app_nil_r. auto.
  - cbn [bc_pop]. destruct (R e (or_introl eq_refl)) as [R0 R1].
    rewrite (vget_nth 0) by lia. cbn [bind].
    set (n1 := nth (snd e) number 0).
    assert (E : exists b, (if n1 <? bound then Done true
               else do n0 <- vget number (fst e); Done (n0 <? bound)) = Done b /\ (bound = 0 -> b = false)).
    { destruct (Nat.ltb_spec n1 bound).
      - exists true. split; auto. intros; lia.
      - rewrite (vget_nth 0) by lia. cbn [bind]. eexists. split; [reflexivity|].
        intros ->. apply Nat.ltb_ge. lia. }
    destruct E as ([] & -> & Hb); cbn [bind].
    + exists [], (e :: es). rewrite app_nil_r. splits; auto. intros K. specialize (Hb K). discriminate.
    + destruct (IH ltac:(intros; apply R; simpl; auto) (tmp ++ [e])) as (tmp' & es' & -> & -> & H).
      exists (e :: tmp'), es'. rewrite <- app_assoc. auto.
Qed.

Lemma taken_range g0 g M e : simple_graph g0 -> taken g0 g M -> In e M ->
  fst e < vertex_count g0 /\ snd e < vertex_count g0.
Proof.
  intros W (_ & _ & _ & H) He. destruct e as [u v]. simpl.
  apply (adj_lt W). apply H. auto.
Qed.

Lemma last_app {X} (a : X) l pre pv : a :: l = pre ++ [pv] -> l <> [] -> exists pre', pre = a :: pre' /\ l = pre' ++ [pv].
Proof.
  intros E N. destruct pre as [|b pre]; simpl in E.
  - injection E as -> ->. congruence.
  - injection E as -> ->. eauto.
Qed.

Lemma bc_forward_spec p g0 s top rest : simple_graph g0 -> bci g0 s -> bc_vs s = top :: rest ->
  nbrs (bc_g s) top <> [] ->
  exists s', bc_forward p s top = Done s' /\ bci g0 s' /\ mono s s' /\
    edge_count (bc_g s) = edge_count (bc_g s') + 1 /\ length (bc_vs s') <= length (bc_vs s) + 1.
Proof.
  intros W0 I Ev Hn. destruct I as [W In_ Ll Lm Lh Nv Vh Dn Tk Ne Pv Cc Es].
  assert (Ht : top < vertex_count g0 /\ nth top (bc_handled s) false = true) by (apply Vh; rewrite Ev; simpl; auto).
  destruct Ht as [Ht Hh]. unfold bc_forward.
  destruct (container_lt W (i := top)) as (c & Ec & _ & _ & Nc); [lia|].
  unfold container. rewrite (vget_done _ _ Ec). cbn [bind]. rewrite law_first, Nc.
  destruct (nbrs (bc_g s) top) as [|next l] eqn:En; [congruence|]. cbn [hd_error expect bind].
  assert (Ha : adj (bc_g s) top next) by (unfold adj; rewrite En; simpl; auto).
  destruct (remove_edge_present p W Ha) as (g' & E & W' & V' & Ce & _).
  destruct (remove_edge_ok W E) as (_ & _ & _ & _ & _ & Ad). rewrite E. cbn [bind unwrap].
  assert (Hx : next < vertex_count g0) by (rewrite <- In_; apply (sg_range W _ _ Ha)).
  assert (Ntn : top <> next) by (intros ->; apply (sg_irrefl W _ Ha)).
  rewrite (vget_nth false) by lia. cbn [bind].
  assert (Tk' : taken g0 g' (concat (bc_comps s) ++ (top, next) :: bc_es s)).
  { eapply taken_perm; [|apply (taken_remove W Ha Ad Tk)]. apply Permutation_middle. }
  assert (Sub : forall v, nbrs (bc_g s) v = [] -> nbrs g' v = []).
  { intros v Hv. destruct (nbrs g' v) as [|y r] eqn:Ey; auto. exfalso.
    assert (K : adj g' v y) by (unfold adj; rewrite Ey; simpl; auto).
    apply Ad in K as [K _]. unfold adj in K. rewrite Hv in K. destruct K. }
  destruct (nth next (bc_handled s) false) eqn:Eh; cbn [negb].
  - (* handled: next is on the stack *)
    assert (Hin : In next rest).
    { destruct (in_dec Nat.eq_dec next (bc_vs s)) as [K|K].
      - rewrite Ev in K. destruct K; [congruence|auto].
      - exfalso. pose proof (Dn next Eh K) as K'. apply (sg_sym W) in Ha. unfold adj in Ha.
        rewrite K' in Ha. destruct Ha. }
    rewrite (vget_nth 0) by lia. cbn [bind]. rewrite (vget_nth 0) by lia. cbn [bind].
    assert (El : exists low, (if nth next (bc_number s) 0 <? nth top (bc_low s) 0
        then vset (bc_low s) top (nth next (bc_number s) 0) else Done (bc_low s)) = Done low /\
        length low = vertex_count g0 /\
        (forall v, nth v (bc_low s) 0 = 0 -> nth v low 0 = 0)).
    { destruct (Nat.ltb_spec (nth next (bc_number s) 0) (nth top (bc_low s) 0)).
      - rewrite vset_done by lia. eexists. split; [reflexivity|]. rewrite upd_length. split; auto.
        intros v Hv. rewrite nth_upd. destruct (Nat.eqb_spec top v) as [->|]; [lia|auto].
      - eauto. }
    destruct El as (low & -> & Ll' & Hl). cbn [bind]. eexists. split; [reflexivity|].
    split; [|split; [|split]].
    + constructor; simpl; auto; try congruence.
      * intros pre c0 pv E0. apply Hl. eapply Cc; eauto.
      * rewrite Ev. destruct rest; [destruct Hin|simpl; lia].
    + intros v Hv; auto.
    + simpl. auto.
    + simpl. lia.
  - rewrite vset_done by lia. cbn [bind]. rewrite (vget_nth 0) by (rewrite upd_length; lia). cbn [bind].
    rewrite vset_done by lia. cbn [bind]. rewrite vset_done by lia. cbn [bind].
    assert (Nin : ~ In next (bc_vs s)) by (intros K; apply Vh in K as [_ K]; congruence).
    assert (Hnt : nth top (upd (bc_number s) next (length (bc_vs s))) 0 = nth top (bc_number s) 0).
    { rewrite nth_upd. destruct (Nat.eqb_spec next top); [congruence|auto]. }
    eexists. split; [reflexivity|]. split; [|split; [|split]].
    + constructor; simpl; rewrite ?upd_length; auto; try congruence.
      * constructor; auto.
      * intros v [<-|Hv].
        -- split; auto. rewrite nth_upd, Nat.eqb_refl. destruct (Nat.ltb_spec next (length (bc_handled s))); [auto|lia].
        -- split; [apply Vh; auto|]. rewrite nth_upd. destruct (Nat.eqb_spec next v) as [<-|]; [tauto|].
           apply Vh; auto.
      * intros v. rewrite nth_upd. destruct (Nat.eqb_spec next v) as [<-|Nv']; [intros _ K; exfalso; apply K; auto|].
        cbn [andb]. intros Hv K. apply Sub. apply Dn; auto.
      * intros pre pv E0. apply last_app in E0 as (pre' & -> & E0); [|rewrite Ev; discriminate].
        rewrite nth_upd. destruct (Nat.eqb_spec next pv) as [<-|].
        { exfalso. apply Nin. rewrite E0. apply in_app_iff; simpl; auto. }
        cbn [andb]. eapply Pv; eauto.
      * intros pre c0 pv E0. rewrite nth_upd. destruct (Nat.eqb_spec next c0) as [<-|Nc0].
        -- destruct (Nat.ltb_spec next (length (bc_low s))); [|lia]. cbn [andb].
           destruct pre as [|b pre]; simpl in E0.
           ++ assert (E2 : bc_vs s = [pv]) by congruence. rewrite E2 in Ev. injection Ev as -> _. rewrite Hnt. apply (Pv []). auto.
           ++ assert (E2 : bc_vs s = pre ++ [next; pv]) by congruence.
              exfalso. apply Nin. rewrite E2. apply in_app_iff; simpl; auto.
        -- cbn [andb]. destruct pre as [|b pre]; simpl in E0; injection E0 as E1 E2; [congruence|].
           eapply Cc; eauto.
      * rewrite Ev. simpl. lia.
    + intros v Hv. simpl. rewrite nth_upd. destruct (next =? v); simpl; auto.
      destruct (next <? length (bc_handled s)); auto.
    + simpl; auto.
    + simpl. lia.
Qed.

Lemma bc_back_spec g0 s top rest : simple_graph g0 -> bci g0 s -> bc_vs s = top :: rest ->
  nbrs (bc_g s) top = [] ->
  exists s', bc_back s top rest = Done s' /\ bci g0 s' /\ mono s s' /\
    bc_g s' = bc_g s /\ bc_vs s' = rest.
Proof.
  intros W0 I Ev Hn. destruct I as [W In_ Ll Lm Lh Nv Vh Dn Tk Ne Pv Cc Es].
  assert (Ht : top < vertex_count g0) by (apply Vh; rewrite Ev; simpl; auto).
  assert (Nv' : NoDup rest) by (rewrite Ev in Nv; inversion Nv; auto).
  assert (Vh' : forall v, In v rest -> v < vertex_count g0 /\ nth v (bc_handled s) false = true).
  { intros v Hv. apply Vh. rewrite Ev. simpl; auto. }
  assert (Dn' : forall v, nth v (bc_handled s) false = true -> ~ In v rest -> nbrs (bc_g s) v = []).
  { intros v H1 H2. destruct (Nat.eq_dec v top) as [->|]; auto. apply Dn; auto.
    rewrite Ev. simpl. intuition congruence. }
  assert (Pv' : forall pre pv, rest = pre ++ [pv] -> nth pv (bc_number s) 0 = 0).
  { intros pre pv E. apply (Pv (top :: pre)). rewrite Ev, E. auto. }
  assert (Cc' : forall pre c pv, rest = pre ++ [c; pv] -> nth c (bc_low s) 0 = 0).
  { intros pre c pv E. apply (Cc (top :: pre) c pv). rewrite Ev, E. auto. }
  unfold bc_back. destruct rest as [|next rest'].
  - eexists. split; [reflexivity|]. split; [|split; [intros v; auto|auto]].
    constructor; simpl; auto. intros _. apply Es. rewrite Ev; auto.
  - assert (Hx : next < vertex_count g0) by (apply Vh'; simpl; auto).
    rewrite (vget_nth 0) by lia. cbn [bind]. rewrite (vget_nth 0) by lia. cbn [bind].
    assert (Bot : rest' = [] -> nth top (bc_low s) 0 = 0 /\ nth next (bc_number s) 0 = 0).
    { intros ->. split; [apply (Cc [] top next); auto|apply (Pv [top]); auto]. }
    destruct (Nat.eqb_spec (nth top (bc_low s) 0) (nth next (bc_number s) 0)) as [El|Nl].
    + destruct (@bc_pop_spec (vertex_count g0) (bc_number s) (nth next (bc_number s) 0) (bc_es s)) with (tmp := @nil (nat * nat))
        as (tmp & es & -> & Ee & H0); auto.
      { intros e He. apply (taken_range W0 Tk). apply in_app_iff; auto. }
      cbn [bind app]. eexists. split; [reflexivity|]. split; [|split; [intros v; auto|auto]].
      constructor; simpl; auto.
      * rewrite Ee in Tk. destruct tmp as [|e tmp]; [auto|].
        rewrite concat_app. cbn [concat]. rewrite app_nil_r, <- app_assoc. auto.
      * destruct tmp; auto. apply Forall_app. split; auto. constructor; auto. discriminate.
      * intros H. apply H0. apply Bot. destruct rest'; [auto|simpl in H; lia].
    + rewrite (vget_nth 0) by lia. cbn [bind].
      assert (Elw : exists low, (if nth top (bc_low s) 0 <? nth next (bc_low s) 0
        then vset (bc_low s) next (nth top (bc_low s) 0) else Done (bc_low s)) = Done low /\
        length low = vertex_count g0 /\ (forall v, nth v (bc_low s) 0 = 0 -> nth v low 0 = 0)).
      { destruct (Nat.ltb_spec (nth top (bc_low s) 0) (nth next (bc_low s) 0)).
        - rewrite vset_done by lia. eexists. split; [reflexivity|]. rewrite upd_length. split; auto.
          intros v Hv. rewrite nth_upd. destruct (Nat.eqb_spec next v) as [->|]; [lia|auto].
        - eauto. }
      destruct Elw as (low & -> & Ll' & Hl). cbn [bind].
      eexists. split; [reflexivity|]. split; [|split; [intros v; auto|auto]].
      constructor; simpl; auto.
      * intros pre c pv E. apply Hl. eapply Cc'; eauto.
      * intros H. exfalso. destruct rest'; [|simpl in H; lia].
        destruct (Bot eq_refl). congruence.
Qed.

Lemma bc_loop_spec p g0 : simple_graph g0 -> forall fuel s, bci g0 s ->
  2 * edge_count (bc_g s) + length (bc_vs s) < fuel ->
  exists s', bc_loop p fuel s = Done s' /\ bci g0 s' /\ mono s s' /\ bc_vs s' = [].
Proof.
  intros W0. induction fuel as [|fu IH]; intros s I Hf; [lia|]. cbn [bc_loop].
  destruct (bc_vs s) as [|top rest] eqn:Ev.
  - exists s. splits; auto. intros v; auto.
  - assert (Ht : top < vertex_count (bc_g s)) by (rewrite (bi_n I); apply (bi_vh I); rewrite Ev; simpl; auto).
    destruct (container_lt (bi_g I) Ht) as (c & Ec & _ & _ & Nc).
    unfold degree. rewrite Ec. cbn [option_map expect bind]. rewrite law_degree, Nc.
    destruct (Nat.ltb_spec 0 (length (nbrs (bc_g s) top))) as [H|H].
    + destruct (bc_forward_spec p W0 I Ev) as (s1 & -> & I1 & M1 & E1 & L1).
      { intros K. rewrite K in H. simpl in H. lia. }
      cbn [bind]. destruct (IH s1 I1) as (s' & -> & I' & M' & V'); [rewrite Ev in L1; simpl in *; lia|].
      exists s'. splits; auto. intros v Hv. auto.
    + destruct (bc_back_spec W0 I Ev) as (s1 & -> & I1 & M1 & E1 & L1).
      { destruct (nbrs (bc_g s) top); auto. simpl in H. lia. }
      cbn [bind]. destruct (IH s1 I1) as (s' & -> & I' & M' & V'); [rewrite E1, L1; simpl in *; lia|].
      exists s'. splits; auto. intros v Hv. auto.
Qed.

Lemma bc_pivot_spec p g0 s k : simple_graph g0 -> bci g0 s -> bc_vs s = [] -> k < vertex_count g0 ->
  exists s', bc_pivot p s k = Done s' /\ bci g0 s' /\ mono s s' /\ bc_vs s' = [] /\
    nth k (bc_handled s') false = true.
Proof.
  intros W0 I Ev Hk. unfold bc_pivot. rewrite (vget_nth false) by (rewrite (bi_han I); auto). cbn [bind].
  destruct (nth k (bc_handled s) false) eqn:Eh.
  - exists s. splits; auto. intros v; auto.
  - pose proof (bi_es I) as Es. rewrite Ev in Es. specialize (Es ltac:(simpl; lia)).
    destruct I as [W In_ Ll Lm Lh Nv Vh Dn Tk Ne Pv Cc _].
    rewrite vset_done by lia. cbn [bind]. rewrite vset_done by lia. cbn [bind].
    rewrite vset_done by lia. cbn [bind]. rewrite Ev.
    match goal with |- context [bc_loop _ _ ?z] => set (s1 := z) end.
    assert (H1 : nth k (upd (bc_handled s) k true) false = true).
    { rewrite nth_upd, Nat.eqb_refl. destruct (Nat.ltb_spec k (length (bc_handled s))); [auto|lia]. }
    assert (M1 : mono s s1).
    { intros v Hv. unfold s1; simpl. rewrite nth_upd. destruct (k =? v); simpl; auto.
      destruct (k <? length (bc_handled s)); auto. }
    destruct (@bc_loop_spec p g0 W0 (2 * edge_count (bc_g s) + 3) s1) as (s' & -> & I' & M' & V').
    { unfold s1. constructor; simpl; rewrite ?upd_length; auto.
      - constructor; auto. constructor.
      - intros v [<-|[]]. auto.
      - intros v. rewrite nth_upd. destruct (Nat.eqb_spec k v) as [<-|Nk]; [tauto|]. cbn [andb].
        intros Hv _. apply Dn; auto. rewrite Ev. auto.
      - intros pre pv E. destruct pre as [|? [|? ?]]; try discriminate. injection E as <-.
        rewrite nth_upd, Nat.eqb_refl. destruct (Nat.ltb_spec k (length (bc_number s))); [auto|lia].
      - intros pre c pv E. destruct pre as [|? [|? ?]]; discriminate. }
    { simpl. lia. }
    exists s'. splits; auto. intros v Hv. auto.
Qed.

Lemma bc_size_spec g0 g M comp : simple_graph g0 -> taken g0 g M -> incl comp M -> comp <> [] ->
  vertex_number (bc_size comp) comp /\ 2 <= bc_size comp.
Proof.
  intros W0 Tk Hi Hn. unfold bc_size.
  set (l := flat_map (fun e => [fst e; snd e]) comp).
  assert (Hl : forall v, In v l <-> exists e, In e comp /\ (v = fst e \/ v = snd e)).
  { intros v. unfold l. rewrite in_flat_map. split; intros (e & He & Hv); exists e; split; auto;
      simpl in *; intuition congruence. }
  split.
  - exists (nodup Nat.eq_dec l). splits; auto using NoDup_nodup. intros v. rewrite nodup_In. apply Hl.
  - destruct comp as [|[u v] comp]; [congruence|].
    assert (N : u <> v).
    { intros ->. destruct Tk as (_ & H1 & _). apply (H1 v v); apply Hi; simpl; auto. }
    assert (incl [u; v] (nodup Nat.eq_dec l)).
    { intros x Hx. apply nodup_In. apply Hl. exists (u, v). simpl in *. intuition. }
    apply (NoDup_incl_length (l := [u; v])) in H; auto.
    constructor; [simpl; intuition congruence|]. constructor; auto. constructor.
Qed.

Lemma biconnected_spec p g : simple_graph g -> exists comps sizes l,
  vertex_biconnected_components p g false = Done l /\
  vertex_biconnected_components p g true = Done (filter (fun k => 2 <? k) l) /\
  StronglySorted (fun a b => b <= a) l /\ Forall (fun k => 2 <= k) l /\
  Permutation l sizes /\ Forall2 vertex_number sizes comps /\
  Forall (fun c => c <> []) comps /\ lists_edges_once g (concat comps).
Proof.
  intros W. unfold vertex_biconnected_components.
  set (n := vertex_count g).
  destruct (@foldM_seq_inv _ (bc_pivot p) (fun k s => bci g s /\ bc_vs s = [] /\
      forall v, v < k -> nth v (bc_handled s) false = true) n
      (mk_bc g (repeat 0 n) (repeat 0 n) (repeat false n) [] [] [])) as (s & -> & I & Ev & Ha).
  { split; [|split; [auto|intros; lia]]. constructor; simpl; rewrite ?repeat_length; auto; try tauto.
    - constructor.
    - intros v. rewrite nth_repeat. discriminate.
    - unfold taken; simpl. splits; try tauto. constructor.
    - intros [|? ?]; discriminate.
    - intros [|? ?]; discriminate. }
  { intros k s Hk (I & Ev & Ha). destruct (bc_pivot_spec p W I Ev Hk) as (s' & E & I' & M & Ev' & Hk').
    exists s'. splits; auto. intros v Hv. destruct (Nat.eq_dec v k) as [->|]; auto. apply M, Ha. lia. }
  cbn [bind].
  pose proof (bi_tk I) as Tk. rewrite (bi_es I) in Tk by (rewrite Ev; simpl; lia). rewrite app_nil_r in Tk.
  assert (Sz : Forall (fun c => vertex_number (bc_size c) c /\ 2 <= bc_size c) (bc_comps s)).
  { apply Forall_forall. intros c Hc. apply (bc_size_spec W Tk).
    - intros e He. apply in_concat. eauto.
    - apply (proj1 (Forall_forall _ _) (bi_ne I)); auto. }
  exists (bc_comps s), (map bc_size (bc_comps s)), (sort_desc (map bc_size (bc_comps s))). splits.
  - reflexivity.
  - rewrite sort_desc_filter. reflexivity.
  - apply sort_desc_sorted.
  - apply Forall_forall. intros k Hk. rewrite sort_desc_perm in Hk.
    apply in_map_iff in Hk as (c & <- & Hc). apply (proj1 (Forall_forall _ _) Sz); auto.
  - apply sort_desc_perm.
  - clear -Sz. induction Sz as [|c l [H _] _ IH]; simpl; constructor; auto.
  - apply (bi_ne I).
  - destruct Tk as (N & H1 & H2 & H3). unfold lists_edges_once. splits; auto.
    intros u v. rewrite H3. split; [|tauto]. intros [K|K]; auto. exfalso.
    destruct (adj_lt (bi_g I) K) as [Hu _].
    assert (En : nbrs (bc_g s) u = []).
    { apply (bi_done I); [apply Ha; unfold n; rewrite <- (bi_n I); auto|rewrite Ev; auto]. }
    unfold adj in K. rewrite En in K. destruct K.
Qed.

End Facts.
