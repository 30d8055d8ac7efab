(** The search of [vertex_biconnected_components] finds the blocks, although the edges it
    takes from its stack are not always theirs.  Beside every state there are the parts
    ([Cs]) and the stack ([segs]) that taking the right edges would give. *)
From Verif Require Import Base BaseFacts Containers ContainerSpec Graph GraphSpec GraphFacts.
From Verif Require Import GraphOps Search TraversalFacts LoadFacts EnsembleFacts Biconnected BiconnectedSpec BiconnectedFacts.
From Verif Require Import BlockSpec BlockFacts.
Set Implicit Arguments.
Unset Strict Implicit.

Section Run.
Context {T A : Type} {C : AdjContainer T A} {L : AdjLaws C}.
Variable g0 : graph A.
Hypothesis W0 : simple_graph g0.

(** The edges on the stack, by the tree edge below them; [segs] as they should be, and [rsegs]
    as they are. *)
Inductive stk (number low : list nat) : list nat -> list (list (nat * nat)) -> list (list (nat * nat)) -> Prop :=
| stk_nil : stk number low [] [] []
| stk_root v : nth v number 0 = 0 -> stk number low [v] [[]] [[]]
| stk_push v u rest E R segs rsegs :
    nth v number 0 = S (length rest) -> nth v low 0 <= length rest ->
    (exists R', R = R' ++ [(u, v)]) -> incl R E ->
    (exists S, biconnected g0 S /\
       forall x, In x S <-> In x (ends E) \/ (In x (v :: u :: rest) /\ nth v low 0 <= nth x number 0)) ->
    (forall x, In x (ends E) ->
       nth v low 0 <= nth x number 0 /\ (In x (u :: rest) \/ ~ In x (ends (concat segs)))) ->
    stk number low (u :: rest) segs rsegs ->
    stk number low (v :: u :: rest) (E :: segs) (R :: rsegs).

Lemma stk_top number low v rest segs rsegs : stk number low (v :: rest) segs rsegs ->
  nth v number 0 = length rest.
Proof. intros H. inversion H; subst; auto. Qed.

Lemma stk_split number low q : forall v t segs rsegs, stk number low (q ++ v :: t) segs rsegs ->
  nth v number 0 = length t.
Proof.
  induction q as [|a q IH]; simpl app; intros v t segs rsegs H; [apply (stk_top H)|].
  inversion H as [|? ? E1 E2|? u rest E R sg rs H1 H2 H3 H4 H5 H6 H7]; subst.
  - destruct q; discriminate.
  - match goal with K : _ :: _ = q ++ v :: t |- _ => rewrite K in H7 end. eapply IH; eauto.
Qed.

Lemma stk_above number low q v t segs rsegs x : stk number low (q ++ v :: t) segs rsegs ->
  In x q -> length t < nth x number 0.
Proof.
  intros H Hx. apply in_split in Hx as (q1 & q2 & ->). rewrite <- app_assoc in H. cbn [app] in H.
  rewrite (stk_split H), app_length. simpl. lia.
Qed.

Lemma stk_below number low q v t segs rsegs x : stk number low (q ++ v :: t) segs rsegs ->
  In x t -> nth x number 0 < length t.
Proof.
  intros H Hx. apply in_split in Hx as (t1 & t2 & ->).
  replace (q ++ v :: t1 ++ x :: t2) with ((q ++ v :: t1) ++ x :: t2) in H by (rewrite <- app_assoc; auto).
  rewrite (stk_split H), app_length. simpl. lia.
Qed.

Lemma stk_head number low v rest segs rsegs x : stk number low (v :: rest) segs rsegs ->
  In x (v :: rest) -> length rest <= nth x number 0 -> x = v.
Proof.
  intros H [->|Hx] Hn; auto. pose proof (stk_below (q := []) H Hx). lia.
Qed.

Lemma stk_ext number low number' low' vs segs rsegs : stk number low vs segs rsegs ->
  (forall x, In x vs \/ In x (ends (concat segs)) -> nth x number' 0 = nth x number 0) ->
  (forall x, In x vs -> nth x low' 0 = nth x low 0) -> stk number' low' vs segs rsegs.
Proof.
  induction 1 as [|v Hv|v u rest E R segs rsegs H1 H2 H3 H4 (S & HS & HS') H6 H7 IH]; intros N Lo.
  - constructor.
  - constructor. rewrite N; simpl; auto.
  - assert (Nv : nth v number' 0 = nth v number 0) by (apply N; simpl; auto).
    assert (Lv : nth v low' 0 = nth v low 0) by (apply Lo; simpl; auto).
    constructor; auto; try lia.
    + exists S. split; auto. intros x. rewrite HS', Lv. split; (intros [K|[K1 K2]]; [left; auto|]; right; split; auto).
      * rewrite N; auto.
      * rewrite N in K2; auto.
    + intros x Hx. rewrite Lv, N; [apply H6; auto|]. right. cbn [concat]. rewrite ends_app, in_app_iff. auto.
    + apply IH.
      * intros x [Hx|Hx]; apply N; [left; simpl; auto|right]. cbn [concat]. rewrite ends_app, in_app_iff. auto.
      * intros x Hx. apply Lo. simpl; auto.
Qed.

Lemma stk_incl number low vs segs rsegs : stk number low vs segs rsegs -> incl (concat rsegs) (concat segs).
Proof.
  induction 1 as [|v Hv|v u rest E R segs rsegs H1 H2 H3 H4 H5 H6 H7 IH]; cbn [concat]; try (intros x []).
  intros x Hx. apply in_app_iff in Hx as [Hx|Hx]; apply in_app_iff; auto.
Qed.

Lemma stk_linked number low vs segs rsegs : stk number low vs segs rsegs ->
  (forall u v, In (u, v) (concat segs) -> adj g0 u v) -> linked g0 vs.
Proof.
  induction 1 as [|v Hv|v u rest E R segs rsegs H1 H2 H3 H4 H5 H6 H7 IH]; intros K; try (simpl; exact I).
  apply linked_cons. split.
  - apply (sg_sym W0), K. cbn [concat]. apply in_app_iff. left. apply H4.
    destruct H3 as (R' & ->). apply in_app_iff; simpl; auto.
  - apply IH. intros a b Hab. apply K. cbn [concat]. apply in_app_iff; auto.
Qed.

Record ghost (s : bc_state (A := A)) segs rsegs (Cs : list (nat * list (nat * nat))) : Prop := {
  gh_stk : stk (bc_number s) (bc_low s) (bc_vs s) segs rsegs;
  gh_es : bc_es s = concat rsegs;
  gh_tk : taken g0 (bc_g s) (concat (map snd Cs) ++ concat segs);
  gh_len : length (bc_comps s) = length Cs;
  gh_ord : ordered Cs;
  gh_bic : Forall (bic g0) (map snd Cs);
  gh_han : forall x, In x (ends (concat (map snd Cs) ++ concat segs)) -> nth x (bc_handled s) false = true;
  gh_sep : forall r c x, In (r, c) Cs -> In x (ends c) -> x <> r ->
    ~ In x (bc_vs s) /\ ~ In x (ends (concat segs))
}.

(** What the two kinds of forward steps do. *)
Lemma bc_forward_cases p s top rest s' : bci g0 s -> bc_vs s = top :: rest ->
  nbrs (bc_g s) top <> [] -> bc_forward p s top = Done s' ->
  exists next g', adj (bc_g s) top next /\
    (forall x y, adj g' x y <-> adj (bc_g s) x y /\ ~ is_pair top next x y) /\
    ((nth next (bc_handled s) false = false /\
      s' = mk_bc g' (upd (bc_low s) next (nth top (bc_number s) 0))
             (upd (bc_number s) next (length (bc_vs s))) (upd (bc_handled s) next true)
             ((top, next) :: bc_es s) (next :: bc_vs s) (bc_comps s)) \/
     (nth next (bc_handled s) false = true /\ In next rest /\
      exists low, s' = mk_bc g' low (bc_number s) (bc_handled s) ((top, next) :: bc_es s) (bc_vs s) (bc_comps s) /\
        nth top low 0 = Nat.min (nth top (bc_low s) 0) (nth next (bc_number s) 0) /\
        forall x, x <> top -> nth x low 0 = nth x (bc_low s) 0)).
Proof.
  intros I Ev Hn. destruct I as [W In_ Ll Lm Lh Nv Vh Dn Tk Ne Pv Cc Es].
  assert (Ht : top < vertex_count g0 /\ nth top (bc_handled s) false = true) by (apply Vh; rewrite Ev; simpl; auto).
  destruct Ht as [Ht Hh]. unfold bc_forward.
  destruct (container_lt W (i := top)) as (c & Ec & _ & _ & Nc); [lia|].
  unfold container. rewrite (vget_done _ _ Ec). cbn [bind]. rewrite law_first, Nc.
  destruct (nbrs (bc_g s) top) as [|next l] eqn:En; [congruence|]. cbn [hd_error expect bind].
  assert (Ha : adj (bc_g s) top next) by (unfold adj; rewrite En; simpl; auto).
  destruct (remove_edge_present p W Ha) as (g' & E & W' & V' & Ce & _).
  destruct (remove_edge_ok W E) as (_ & _ & _ & _ & _ & Ad). rewrite E. cbn [bind unwrap].
  assert (Hx : next < vertex_count g0) by (rewrite <- In_; apply (sg_range W _ _ Ha)).
  assert (Ntn : top <> next) by (intros ->; apply (sg_irrefl W _ Ha)).
  rewrite (vget_nth false) by lia. cbn [bind].
  destruct (nth next (bc_handled s) false) eqn:Eh; cbn [negb].
  - assert (Hin : In next rest).
    { destruct (in_dec Nat.eq_dec next (bc_vs s)) as [K|K].
      - rewrite Ev in K. destruct K; [congruence|auto].
      - exfalso. pose proof (Dn next Eh K) as K'. apply (sg_sym W) in Ha. unfold adj in Ha.
        rewrite K' in Ha. destruct Ha. }
    rewrite (vget_nth 0) by lia. cbn [bind]. rewrite (vget_nth 0) by lia. cbn [bind].
    intros E'. exists next, g'. split; auto. split; auto. right. split; auto. split; auto.
    destruct (Nat.ltb_spec (nth next (bc_number s) 0) (nth top (bc_low s) 0)).
    + rewrite vset_done in E' by lia. cbn [bind] in E'. injection E' as <-.
      eexists. split; [reflexivity|]. split.
      * rewrite nth_upd, Nat.eqb_refl. destruct (Nat.ltb_spec top (length (bc_low s))); simpl; lia.
      * intros x Nx. rewrite nth_upd. destruct (Nat.eqb_spec top x); [congruence|auto].
    + cbn [bind] in E'. injection E' as <-. eexists. split; [reflexivity|]. split; [lia|auto].
  - rewrite vset_done by lia. cbn [bind]. rewrite (vget_nth 0) by (rewrite upd_length; lia). cbn [bind].
    rewrite vset_done by lia. cbn [bind]. rewrite vset_done by lia. cbn [bind].
    assert (Hnt : nth top (upd (bc_number s) next (length (bc_vs s))) 0 = nth top (bc_number s) 0).
    { rewrite nth_upd. destruct (Nat.eqb_spec next top); [congruence|auto]. }
    rewrite Hnt. intros E'. injection E' as <-. exists next, g'. auto 10.
Qed.

Lemma forward_ghost p s top rest s' segs rsegs Cs : bci g0 s -> ghost s segs rsegs Cs ->
  bc_vs s = top :: rest -> nbrs (bc_g s) top <> [] -> bc_forward p s top = Done s' ->
  exists segs' rsegs', ghost s' segs' rsegs' Cs.
Proof.
  intros I G Ev Hn E. destruct (bc_forward_cases I Ev Hn E) as (next & g' & Ha & Ad & K).
  pose proof (bi_g I) as W. destruct G as [St Es Tk Le Or Bi Ha_ Se].
  assert (Ntn : top <> next) by (intros ->; apply (sg_irrefl W _ Ha)).
  assert (Ht : nth top (bc_handled s) false = true) by (apply (bi_vh I); rewrite Ev; simpl; auto).
  assert (Vx : next < vertex_count g0) by (rewrite <- (bi_n I); apply (sg_range W _ _ Ha)).
  pose proof (taken_remove W Ha Ad Tk) as Tk'.
  assert (A0 : adj g0 top next) by (apply Tk; auto).
  rewrite Ev in *. pose proof (stk_top St) as Nt.
  destruct K as [[Hu ->]|(Hh & Hin & low & -> & Lt & Lo)].
  - (* a new vertex *)
    assert (Fr : forall x, In x (ends (concat (map snd Cs) ++ concat segs)) -> x <> next).
    { intros x Hx ->. apply Ha_ in Hx. congruence. }
    assert (Nin : ~ In next (top :: rest)).
    { intros Q. rewrite <- Ev in Q. apply (bi_vh I) in Q as [_ Q]. congruence. }
    assert (Un : forall x, x <> next -> nth x (upd (bc_number s) next (length (top :: rest))) 0 = nth x (bc_number s) 0).
    { intros x Nx. rewrite nth_upd. destruct (Nat.eqb_spec next x); [congruence|auto]. }
    assert (Ul : forall x, x <> next -> nth x (upd (bc_low s) next (nth top (bc_number s) 0)) 0 = nth x (bc_low s) 0).
    { intros x Nx. rewrite nth_upd. destruct (Nat.eqb_spec next x); [congruence|auto]. }
    assert (Un' : nth next (upd (bc_number s) next (length (top :: rest))) 0 = S (length rest)).
    { rewrite nth_upd, Nat.eqb_refl. destruct (Nat.ltb_spec next (length (bc_number s))) as [|Q]; auto.
      rewrite (bi_num I) in Q. lia. }
    assert (Ul' : nth next (upd (bc_low s) next (nth top (bc_number s) 0)) 0 = length rest).
    { rewrite nth_upd, Nat.eqb_refl. destruct (Nat.ltb_spec next (length (bc_low s))) as [|Q]; auto.
      rewrite (bi_low I) in Q. lia. }
    assert (St' : stk (upd (bc_number s) next (length (top :: rest))) (upd (bc_low s) next (nth top (bc_number s) 0))
        (top :: rest) segs rsegs).
    { apply (stk_ext St).
      - intros x [Hx|Hx]; apply Un; [intros ->; auto|]. apply Fr. rewrite ends_app, in_app_iff. auto.
      - intros x Hx. apply Ul. intros ->; auto. }
    exists ([(top, next)] :: segs), ([(top, next)] :: rsegs). constructor; cbn [bc_number bc_low bc_vs bc_es bc_g bc_comps bc_handled]; auto.
    + constructor; auto.
      * lia.
      * exists []. auto.
      * apply incl_refl.
      * exists [top; next]. split.
        -- apply biconnected_conn. split; [|split; [simpl; lia|intros x; apply (conn_pair W0); auto]].
           constructor; [simpl; intuition congruence|]. constructor; auto. constructor.
        -- intros x. rewrite Ul'. cbn [ends flat_map app fst snd]. split; [simpl; intuition auto|].
           intros [Q|[[<-|Q1] Q2]]; auto; [simpl; auto|].
           assert (x = top); [|subst; simpl; auto]. apply (stk_head St' Q1). exact Q2.
      * intros x Hx. cbn [ends flat_map app fst snd] in Hx. rewrite Ul'. destruct Hx as [<-|[<-|[]]].
        -- rewrite Un by auto. split; [lia|simpl; auto].
        -- split; [lia|]. right. intros Q. apply (Fr next); auto. rewrite ends_app, in_app_iff. auto.
    + cbn [concat app]. rewrite Es. auto.
    + cbn [concat app]. eapply taken_perm; [apply Permutation_middle|exact Tk'].
    + cbn [concat app]. intros x Hx. rewrite nth_upd. destruct (Nat.eqb_spec next x) as [<-|Nx].
      * destruct (Nat.ltb_spec next (length (bc_handled s))) as [|Q]; auto. rewrite (bi_han I) in Q. lia.
      * cbn [andb]. rewrite ends_app, in_app_iff in Hx. destruct Hx as [Hx|[Hx|[Hx|Hx]]].
        -- apply Ha_. rewrite ends_app, in_app_iff. auto.
        -- subst; auto.
        -- simpl in Hx. congruence.
        -- apply Ha_. rewrite ends_app, in_app_iff. auto.
    + intros r c x Hc Hx Nx. destruct (Se r c x Hc Hx Nx) as [Q1 Q2].
      assert (Nxn : x <> next).
      { apply Fr. rewrite ends_app, in_app_iff. left. apply in_ends in Hx as (e & He & Hxe).
        apply in_ends. exists e. split; auto. apply in_concat. exists c. split; auto.
        apply in_map_iff. exists (r, c). auto. }
      split.
      * intros [Q|Q]; [congruence|]. auto.
      * cbn [concat app]. intros [Q|[Q|Q]]; simpl in Q; [|congruence|auto].
        subst x. apply Q1. simpl; auto.
  - (* an ancestor *)
    inversion St as [|? ? Q1 Q2|v u rest' E0 R sg rs H1 H2 H3 H4 H5 H6 H7]; subst; [destruct Hin|].
    assert (Nv : NoDup (top :: u :: rest')) by (rewrite <- Ev; apply (bi_vs I)).
    destruct H5 as (S1 & HS & HS').
    assert (Lk : linked g0 (top :: u :: rest')).
    { apply (stk_linked St). intros a b Hab. apply Tk. right. left. apply in_app_iff; auto. }
    destruct (in_split _ _ Hin) as (q & t & Eq).
    assert (Ep : top :: u :: rest' = (top :: q) ++ next :: t) by (rewrite Eq; auto).
    assert (Nn : nth next (bc_number s) 0 = length t) by (rewrite Ep in St; apply (stk_split St)).
    assert (Hlt : length t <= length rest').
    { apply (f_equal (@length nat)) in Eq. rewrite app_length in Eq. simpl in Eq. lia. }
    set (P := (top :: q) ++ [next]).
    assert (HP : forall x, In x P <-> In x (top :: u :: rest') /\ length t <= nth x (bc_number s) 0).
    { intros x. unfold P. rewrite Ep, !in_app_iff. rewrite Ep in St. split.
      - intros [Hx|[<-|[]]].
        + split; auto. pose proof (stk_above St Hx). lia.
        + split; [simpl; auto|lia].
      - intros [[Hx|[Hx|Hx]] Hl]; auto; [simpl; auto|].
        pose proof (stk_below St Hx). lia. }
    assert (NP : NoDup P).
    { rewrite Ep in Nv. replace ((top :: q) ++ next :: t) with (P ++ t) in Nv by (unfold P; rewrite <- app_assoc; auto).
      apply NoDup_app_iff in Nv. tauto. }
    assert (LP : linked g0 P).
    { rewrite Ep in Lk. replace ((top :: q) ++ next :: t) with (P ++ t) in Lk by (unfold P; rewrite <- app_assoc; auto).
      apply linked_app in Lk. tauto. }
    assert (Nu : nth u (bc_number s) 0 = length rest') by (apply (stk_top H7)).
    assert (HT : In (u, top) E0) by (apply H4; destruct H3 as (R' & ->); apply in_app_iff; simpl; auto).
    assert (Tt : ~ In top (ends (concat sg))).
    { destruct (H6 top (ends_r HT)) as [_ [Q|Q]]; auto. inversion Nv; subst. contradiction. }
    exists (((top, next) :: E0) :: sg), (((top, next) :: R) :: rs).
    constructor; cbn [bc_number bc_low bc_vs bc_es bc_g bc_comps bc_handled]; auto; rewrite ?Ev.
    + constructor; auto.
      * rewrite Lt. lia.
      * destruct H3 as (R' & ->). exists ((top, next) :: R'). auto.
      * intros x [<-|Hx]; simpl; auto.
      * exists (nodup Nat.eq_dec (S1 ++ P)). split.
        -- apply biconnected_conn in HS as (N1 & L1 & C1). apply biconnected_conn.
           split; [apply NoDup_nodup|]. split.
           { eapply Nat.le_trans; [apply L1|]. apply NoDup_incl_length; auto.
             intros x Hx. apply nodup_In, in_app_iff; auto. }
           intros x. apply (@conn_union _ _ _ _ g0 W0 S1 P _ top u x); auto.
           ++ intros y. rewrite nodup_In, in_app_iff. tauto.
           ++ intros ->. inversion Nv as [|? ? Z _]. apply Z. simpl; auto.
           ++ apply HS'. right. split; [simpl; auto|]. lia.
           ++ apply HS'. right. split; [simpl; auto|]. lia.
           ++ apply HP. split; [simpl; auto|]. lia.
           ++ apply HP. split; [simpl; auto|]. lia.
           ++ apply (@conn_cycle _ _ _ _ g0 W0 P top next x); auto; [exists (q ++ [next]); auto|exists (top :: q); auto].
        -- intros x. rewrite nodup_In, in_app_iff, HS', HP, Lt, Nn.
           change (ends ((top, next) :: E0)) with (top :: next :: ends E0).
           assert (Z : Nat.min (nth top (bc_low s) 0) (length t) = nth top (bc_low s) 0 \/
                       Nat.min (nth top (bc_low s) 0) (length t) = length t) by lia.
           split.
           ++ intros [[Q|[Q1 Q2]]|[Q1 Q2]]; [simpl; auto|right; split; auto; lia..].
           ++ intros [[<-|[<-|Q]]|[Q1 Q2]].
              ** left. right. split; [simpl; auto|]. lia.
              ** right. split; [simpl; auto|]. lia.
              ** auto.
              ** destruct Z as [Z|Z]; rewrite Z in Q2; auto.
      * intros x. change (ends ((top, next) :: E0)) with (top :: next :: ends E0). rewrite Lt.
        intros [<-|[<-|Hx]].
        -- split; [lia|auto].
        -- split; [lia|auto].
        -- destruct (H6 x Hx). split; [lia|auto].
      * apply (stk_ext H7); auto. intros x Hx. apply Lo. intros ->. inversion Nv; subst. contradiction.
    + cbn [concat app]. rewrite Es. auto.
    + cbn [concat app]. eapply taken_perm; [apply Permutation_middle|exact Tk'].
    + cbn [concat app]. intros x Hx. rewrite ends_app, in_app_iff in Hx. destruct Hx as [Hx|[Hx|[Hx|Hx]]].
      * apply Ha_. rewrite ends_app, in_app_iff. auto.
      * simpl in Hx. subst; auto.
      * simpl in Hx. subst; auto.
      * apply Ha_. rewrite ends_app, in_app_iff. auto.
    + intros r c x Hc Hx Nx. destruct (Se r c x Hc Hx Nx) as [Q1 Q2]. split; auto.
      cbn [concat app]. intros [Q|[Q|Q]]; simpl in Q; [| |auto]; subst x; apply Q1; simpl; auto.
Qed.

(** [bc_pop] stops at the first edge with an end below the bound. *)
Lemma bc_pop_stop number bound es : forall tmp r,
  bc_pop number bound tmp es = Done r ->
  exists tmp' es', r = (tmp ++ tmp', es') /\ es = tmp' ++ es' /\
    (forall e, In e tmp' -> bound <= nth (fst e) number 0 /\ bound <= nth (snd e) number 0) /\
    (forall e t, es' = e :: t -> nth (fst e) number 0 < bound \/ nth (snd e) number 0 < bound).
Proof.
  induction es as [|e es IH]; intros tmp r; cbn [bc_pop].
  - intros [= <-]. exists [], []. rewrite app_nil_r. split; auto. split; auto. split; [intros e []|discriminate].
  - unfold vget at 1. destruct (nth_error number (snd e)) as [n1|] eqn:E1; [|discriminate]. cbn [bind].
    assert (N1 : nth (snd e) number 0 = n1) by (apply nth_error_nth; auto).
    destruct (Nat.ltb_spec n1 bound) as [H|H]; cbn [bind].
    { intros [= <-]. exists [], (e :: es). rewrite app_nil_r. split; auto. split; auto.
      split; [intros x []|]. intros e' t [= <- <-]. right. lia. }
    unfold vget at 1. destruct (nth_error number (fst e)) as [n0|] eqn:E0; [|discriminate]. cbn [bind].
    assert (N0 : nth (fst e) number 0 = n0) by (apply nth_error_nth; auto).
    destruct (Nat.ltb_spec n0 bound) as [H0|H0].
    { intros [= <-]. exists [], (e :: es). rewrite app_nil_r. split; auto. split; auto.
      split; [intros x []|]. intros e' t [= <- <-]. left. lia. }
    intros K. apply IH in K as (tmp' & es' & -> & -> & K1 & K2).
    exists (e :: tmp'), es'. rewrite <- app_assoc. split; auto. split; auto. split; auto.
    intros x [<-|Hx]; auto. lia.
Qed.

(** The edges popped: all of the top segment, and of the next one not its tree edge. *)
Lemma pop_rsegs number low u rest segs rsegs tmp es :
  stk number low (u :: rest) segs rsegs -> concat rsegs = tmp ++ es ->
  (forall e, In e tmp -> length rest <= nth (fst e) number 0 /\ length rest <= nth (snd e) number 0) ->
  exists rsegs', stk number low (u :: rest) segs rsegs' /\ es = concat rsegs'.
Proof.
  intros St E H. inversion St as [|? ? Q1 Q2|v u' rest' E0 R sg rs H1 H2 H3 H4 H5 H6 H7]; subst.
  - cbn [concat app] in E. symmetry in E. apply app_eq_nil in E as [-> ->]. exists [[]]. auto.
  - destruct H3 as (R' & ->). cbn [concat] in E. rewrite <- app_assoc in E. cbn [app] in E.
    apply app_eq_app in E as (l & [[E1 E2]|[E1 E2]]).
    + subst R'. exists ((l ++ [(u', u)]) :: rs). split.
      * constructor; auto; [eauto|]. intros x Hx. apply H4. rewrite <- app_assoc. apply in_app_iff; auto.
      * cbn [concat]. rewrite <- app_assoc. auto.
    + destruct l as [|e l].
      * rewrite app_nil_r in E1. subst tmp. exists ([(u', u)] :: rs). split.
        -- constructor; auto; [exists []; auto|]. intros x Hx. apply H4. apply in_app_iff; auto.
        -- cbn [concat app]. auto.
      * exfalso. injection E2 as <- _. assert (Z : In (u', u) tmp) by (rewrite E1; apply in_app_iff; simpl; auto).
        apply H in Z as [Z _]. simpl in Z. rewrite (stk_top H7) in Z. lia.
Qed.

Lemma back_ghost s top rest s' segs rsegs Cs : bci g0 s -> ghost s segs rsegs Cs ->
  bc_vs s = top :: rest -> bc_back s top rest = Done s' ->
  exists segs' rsegs' Cs', ghost s' segs' rsegs' Cs'.
Proof.
  intros I G Ev. destruct G as [St Es Tk Le Or Bi Ha_ Se]. rewrite Ev in *.
  assert (Nv : NoDup (top :: rest)) by (rewrite <- Ev; apply (bi_vs I)).
  assert (Vl : forall v, In v (top :: rest) -> v < vertex_count g0) by (intros v Hv; apply (bi_vh I); rewrite Ev; auto).
  unfold bc_back. inversion St as [|? Q1 Q2 Q3 Q4|v next rest' E0 R sg rs H1 H2 H3 H4 H5 H6 H7]; subst.
  - intros [= <-]. exists [], [], Cs. constructor; cbn [bc_number bc_low bc_vs bc_es bc_g bc_comps bc_handled]; try assumption; [constructor|].
    + intros r c x Hc Hx Nx. split; [intros []|]. apply (Se r c x Hc Hx Nx).
  - rewrite (vget_nth 0) by (rewrite (bi_low I); apply Vl; simpl; auto). cbn [bind].
    rewrite (vget_nth 0) by (rewrite (bi_num I); apply Vl; simpl; auto). cbn [bind].
    pose proof (stk_top H7) as Nn. destruct H5 as (S1 & HS & HS').
    assert (HT : In (next, top) E0) by (apply H4; destruct H3 as (R' & ->); apply in_app_iff; simpl; auto).
    assert (Nt : ~ In top (next :: rest')) by (inversion Nv; auto).
    destruct (Nat.eqb_spec (nth top (bc_low s) 0) (nth next (bc_number s) 0)) as [El|Nl].
    + (* a block is complete *)
      destruct (bc_pop (bc_number s) (nth next (bc_number s) 0) [] (bc_es s)) as [[tmp es]| | |] eqn:Ep; try discriminate.
      cbn [bind]. intros E'. apply bc_pop_stop in Ep as (tmp' & es' & E1 & E2 & P1 & P2).
      cbn [app] in E1. injection E1 as <- <-. rewrite Es in E2. cbn [concat] in E2. rewrite Nn in *.
      (* all of [R] is popped *)
      assert (RR : exists tmp2, tmp = R ++ tmp2 /\ concat rs = tmp2 ++ es).
      { apply app_eq_app in E2 as (l & [[K1 K2]|[K1 K2]]); [|eauto].
        destruct l as [|e l]; [rewrite app_nil_r in K1; exists []; subst; rewrite app_nil_r; auto|].
        exfalso. rewrite K2 in P2. destruct (P2 e (l ++ concat rs) eq_refl) as [Z|Z].
        - assert (He : In e E0) by (apply H4; rewrite K1; apply in_app_iff; simpl; auto).
          destruct e as [a b]. destruct (H6 a (ends_l He)) as [Z' _]. simpl in Z. lia.
        - assert (He : In e E0) by (apply H4; rewrite K1; apply in_app_iff; simpl; auto).
          destruct e as [a b]. destruct (H6 b (ends_r He)) as [Z' _]. simpl in Z. lia. }
      destruct RR as (tmp2 & -> & E3).
      destruct (pop_rsegs H7 E3) as (rs' & St' & ->).
      { intros e He. apply P1. apply in_app_iff; auto. }
      assert (Ne : R ++ tmp2 <> []).
      { destruct H3 as (R' & ->). intros Z. apply app_eq_nil in Z as [Z _]. apply app_eq_nil in Z as [_ Z]. discriminate. }
      exists sg, rs', (Cs ++ [(next, E0)]).
      assert (Bc : bic g0 E0).
      { apply (biconnected_same (S := S1)); [apply NoDup_nodup| |auto].
        intros x. rewrite nodup_In, HS', El. split; auto. intros [Q|[Q1 Q2]]; auto.
        destruct Q1 as [<-|Q1]; [apply (ends_r HT)|]. rewrite (stk_head H7 Q1 Q2). apply (ends_l HT). }
      injection E' as <-. constructor; cbn [bc_number bc_low bc_vs bc_es bc_g bc_comps bc_handled]; auto.
      * rewrite map_app, concat_app. cbn [map concat snd]. rewrite app_nil_r, <- app_assoc.
        cbn [concat] in Tk. exact Tk.
      * destruct (R ++ tmp2); [congruence|]. rewrite !app_length. cbn [length]. lia.
      * apply ordered_snoc; auto; [apply (ends_l HT)|]. intros r' c' x Hc Hx Nx Q.
        destruct (Se r' c' x Hc Hx Nx) as [_ Z]. apply Z. cbn [concat]. rewrite ends_app, in_app_iff. auto.
      * rewrite map_app. apply Forall_app. split; auto. constructor; auto.
      * rewrite map_app, concat_app. cbn [map concat snd]. rewrite app_nil_r, <- app_assoc.
        cbn [concat] in Ha_. exact Ha_.
      * intros r c x Hc Hx Nx. apply in_app_iff in Hc as [Hc|[[= <- <-]|[]]].
        -- destruct (Se r c x Hc Hx Nx) as [Z1 Z2]. split; [intros Q; apply Z1; simpl; auto|].
           intros Q. apply Z2. cbn [concat]. rewrite ends_app, in_app_iff. auto.
        -- assert (Nr : ~ In x (next :: rest')).
           { intros Q. apply Nx. apply (stk_head H7 Q). destruct (H6 x Hx). lia. }
           split; auto. destruct (H6 x Hx) as [_ [Z|Z]]; [contradiction|auto].
    + (* the edges stay *)
      rewrite (vget_nth 0) by (rewrite (bi_low I); apply Vl; simpl; auto). cbn [bind].
      intros E'.
      assert (El : exists low, s' = mk_bc (bc_g s) low (bc_number s) (bc_handled s) (bc_es s) (next :: rest') (bc_comps s) /\
        nth next low 0 = Nat.min (nth top (bc_low s) 0) (nth next (bc_low s) 0) /\
        forall x, x <> next -> nth x low 0 = nth x (bc_low s) 0).
      { assert (Hx : next < length (bc_low s)) by (rewrite (bi_low I); apply Vl; simpl; auto).
        destruct (Nat.ltb_spec (nth top (bc_low s) 0) (nth next (bc_low s) 0)).
        - rewrite vset_done in E' by auto. cbn [bind] in E'. injection E' as <-.
          eexists. split; [reflexivity|]. split.
          + rewrite nth_upd, Nat.eqb_refl. destruct (Nat.ltb_spec next (length (bc_low s))); simpl; lia.
          + intros x Nx. rewrite nth_upd. destruct (Nat.eqb_spec next x); [congruence|auto].
        - cbn [bind] in E'. injection E' as <-. eexists. split; [reflexivity|]. split; [lia|auto]. }
      clear E'. destruct El as (low & -> & Ll & Lo).
      assert (Hlow : nth top (bc_low s) 0 < length rest') by lia.
      inversion H7 as [|? ? Z1 Z2|v2 u rest2 E1 R1 sg1 rs1 K1 K2 K3 K4 K5 K6 K7]; subst; [simpl in Hlow; lia|].
      destruct K5 as (S2 & HT2 & HT2'). cbn [length] in *.
      pose proof (stk_top K7) as Nu.
      assert (HT' : In (u, next) E1) by (apply K4; destruct K3 as (R' & ->); apply in_app_iff; simpl; auto).
      assert (Nx : ~ In next (u :: rest2)) by (inversion Nv as [|? ? _ Z]; inversion Z; auto).
      exists ((E0 ++ E1) :: sg1), ((R ++ R1) :: rs1), Cs.
      constructor; cbn [bc_number bc_low bc_vs bc_es bc_g bc_comps bc_handled]; auto.
      * constructor; auto.
        -- rewrite Ll. lia.
        -- destruct K3 as (R' & ->). exists (R ++ R'). rewrite app_assoc. auto.
        -- intros x Hx. apply in_app_iff in Hx as [Hx|Hx]; apply in_app_iff; auto.
        -- exists (nodup Nat.eq_dec (S1 ++ S2)). split.
           ++ apply biconnected_conn in HS as (N1 & L1 & C1). apply biconnected_conn in HT2 as (N2 & L2 & C2).
              apply biconnected_conn. split; [apply NoDup_nodup|]. split.
              { eapply Nat.le_trans; [apply L1|]. apply NoDup_incl_length; auto.
                intros x Hx. apply nodup_In, in_app_iff; auto. }
              intros x. apply (@conn_union _ _ _ _ g0 W0 S1 S2 _ next u x); auto.
              ** intros y. rewrite nodup_In, in_app_iff. tauto.
              ** intros ->. apply Nx. simpl; auto.
              ** apply HS'. right. split; [simpl; auto|]. lia.
              ** apply HS'. right. split; [simpl; auto|]. lia.
              ** apply HT2'. right. split; [simpl; auto|]. lia.
              ** apply HT2'. right. split; [simpl; auto|]. lia.
           ++ intros x. rewrite nodup_In, in_app_iff, HS', HT2', Ll, ends_app, in_app_iff.
              assert (Z : Nat.min (nth top (bc_low s) 0) (nth next (bc_low s) 0) = nth top (bc_low s) 0 \/
                          Nat.min (nth top (bc_low s) 0) (nth next (bc_low s) 0) = nth next (bc_low s) 0) by lia.
              split.
              ** intros [[Q|[Q1 Q2]]|[Q|[Q1 Q2]]]; auto.
                 --- destruct Q1 as [<-|Q1]; [left; left; apply (ends_r HT)|]. right. split; auto. lia.
                 --- right. split; auto. lia.
              ** intros [[Q|Q]|[Q1 Q2]]; auto. destruct Z as [Z|Z]; rewrite Z in Q2; auto.
                 left. right. split; auto. simpl in *. tauto.
        -- intros x. rewrite ends_app, in_app_iff, Ll. intros [Hx|Hx].
           ++ destruct (H6 x Hx) as [Q1 Q2]. split; [lia|]. destruct Q2 as [[<-|Q2]|Q2]; auto.
              ** right. destruct (K6 next (ends_r HT')) as [_ [Z|Z]]; [contradiction|auto].
              ** right. intros Z. apply Q2. cbn [concat]. rewrite ends_app, in_app_iff. auto.
           ++ destruct (K6 x Hx) as [Q1 Q2]. split; [lia|auto].
        -- apply (stk_ext K7); auto. intros x Hx. apply Lo. intros ->. contradiction.
      * rewrite Es. cbn [concat]. rewrite app_assoc. auto.
      * cbn [concat] in *. rewrite <- app_assoc. exact Tk.
      * cbn [concat] in *. rewrite <- app_assoc. exact Ha_.
      * intros r c x Hc Hx Nx'. destruct (Se r c x Hc Hx Nx') as [Z1 Z2]. split; [intros Q; apply Z1; simpl in *; tauto|].
        cbn [concat] in *. rewrite <- app_assoc. exact Z2.
Qed.

Definition inv (s : bc_state (A := A)) : Prop := bci g0 s /\ exists segs rsegs Cs, ghost s segs rsegs Cs.

Lemma loop_ghost p : forall fuel s s', inv s -> bc_loop p fuel s = Done s' -> inv s'.
Proof.
  induction fuel as [|fu IH]; intros s s' [I (segs & rsegs & Cs & G)]; [discriminate|]. cbn [bc_loop].
  destruct (bc_vs s) as [|top rest] eqn:Ev.
  { intros [= <-]. split; eauto. }
  assert (Ht : top < vertex_count (bc_g s)) by (rewrite (bi_n I); apply (bi_vh I); rewrite Ev; simpl; auto).
  destruct (container_lt (bi_g I) Ht) as (c & Ec & _ & _ & Nc).
  unfold degree. rewrite Ec. cbn [option_map expect bind]. rewrite law_degree, Nc.
  destruct (Nat.ltb_spec 0 (length (nbrs (bc_g s) top))) as [H|H].
  - assert (Hn : nbrs (bc_g s) top <> []) by (intros K; rewrite K in H; simpl in H; lia).
    destruct (bc_forward_spec p W0 I Ev Hn) as (s1 & E1 & I1 & _).
    rewrite E1. cbn [bind]. apply IH. split; auto.
    destruct (forward_ghost I G Ev Hn E1) as (sg & rs & G1). eauto.
  - assert (Hn : nbrs (bc_g s) top = []) by (destruct (nbrs (bc_g s) top); [auto|simpl in H; lia]).
    destruct (bc_back_spec W0 I Ev Hn) as (s1 & E1 & I1 & _).
    rewrite E1. cbn [bind]. apply IH. split; auto.
    destruct (back_ghost I G Ev E1) as (sg & rs & Cs' & G1). eauto.
Qed.

Lemma pivot_ghost p s k s' : inv s -> bc_vs s = [] -> k < vertex_count g0 -> bc_pivot p s k = Done s' -> inv s'.
Proof.
  intros [I (segs & rsegs & Cs & G)] Ev Hk. unfold bc_pivot.
  rewrite (vget_nth false) by (rewrite (bi_han I); auto). cbn [bind].
  destruct (nth k (bc_handled s) false) eqn:Eh.
  { intros [= <-]. split; eauto. }
  pose proof (bi_es I) as Es. rewrite Ev in Es. specialize (Es ltac:(simpl; lia)).
  destruct I as [W In_ Ll Lm Lh Nv Vh Dn Tk Ne Pv Cc _].
  rewrite vset_done by lia. cbn [bind]. rewrite vset_done by lia. cbn [bind].
  rewrite vset_done by lia. cbn [bind]. rewrite Ev. apply loop_ghost. split.
  - constructor; simpl; rewrite ?upd_length; auto.
    + constructor; auto. constructor.
    + intros v [<-|[]]. split; auto. rewrite nth_upd, Nat.eqb_refl. destruct (Nat.ltb_spec k (length (bc_handled s))); [auto|lia].
    + intros v. rewrite nth_upd. destruct (Nat.eqb_spec k v) as [<-|Nk]; [tauto|]. cbn [andb].
      intros Hv _. apply Dn; auto. rewrite Ev. auto.
    + intros pre pv E. destruct pre as [|? [|? ?]]; try discriminate. injection E as <-.
      rewrite nth_upd, Nat.eqb_refl. destruct (Nat.ltb_spec k (length (bc_number s))); [auto|lia].
    + intros pre c pv E. destruct pre as [|? [|? ?]]; discriminate.
  - destruct G as [St Es' Tk' Le Or Bi Ha_ Se]. rewrite Ev in *. inversion St; subst.
    exists [[]], [[]], Cs. constructor; cbn [bc_number bc_low bc_vs bc_es bc_g bc_comps bc_handled]; auto.
    + constructor. rewrite nth_upd, Nat.eqb_refl. destruct (Nat.ltb_spec k (length (bc_number s))); [auto|lia].
    + intros x Hx. rewrite nth_upd. destruct (Nat.eqb_spec k x) as [<-|]; [|cbn [andb]; auto].
      cbn [andb]. destruct (Nat.ltb_spec k (length (bc_handled s))); [auto|lia].
    + intros r c x Hc Hx Nx. destruct (Se r c x Hc Hx Nx) as [_ Z]. split; auto.
      intros [<-|[]]. assert (Q : nth k (bc_handled s) false = true); [|congruence].
      apply Ha_. rewrite ends_app, in_app_iff. left. apply in_ends in Hx as (e & He & Hxe).
      apply in_ends. exists e. split; auto. apply in_concat. exists c. split; auto.
      apply in_map_iff. exists (r, c). auto.
Qed.

(** The run as a whole. *)
Lemma blocks_run p : exists comps l (Cs : list (nat * list (nat * nat))),
  vertex_biconnected_components p g0 false = Done l /\ Permutation l (map bc_size comps) /\
  Forall (fun c => c <> []) comps /\ lists_edges_once g0 (concat comps) /\
  Forall (fun c => vertex_number (bc_size c) c) comps /\
  length comps = length Cs /\ Forall (fun c => c <> []) (map snd Cs) /\
  lists_edges_once g0 (concat (map snd Cs)) /\
  lists_blocks g0 (map (fun rc => nodup Nat.eq_dec (ends (snd rc))) Cs).
Proof.
  unfold vertex_biconnected_components. set (n := vertex_count g0).
  destruct (@foldM_seq_inv _ (bc_pivot p) (fun k s => inv s /\ bc_vs s = [] /\
      forall v, v < k -> nth v (bc_handled s) false = true) n
      (mk_bc g0 (repeat 0 n) (repeat 0 n) (repeat false n) [] [] [])) as (s & -> & [I (segs & rsegs & Cs & G)] & Ev & Ha).
  { split; [|split; [auto|intros; lia]]. split.
    - constructor; simpl; rewrite ?repeat_length; auto; try tauto.
      + constructor.
      + intros v. rewrite nth_repeat. discriminate.
      + unfold taken; simpl. split; [constructor|]. tauto.
      + intros [|? ?]; discriminate.
      + intros [|? ?]; discriminate.
    - exists [], [], []. constructor; simpl; auto; try tauto.
      + constructor.
      + unfold taken; simpl. split; [constructor|]. tauto. }
  { intros k s Hk (Iv & Ev & Ha). destruct (bc_pivot_spec p W0 (proj1 Iv) Ev Hk) as (s' & E & I' & M & Ev' & Hk').
    exists s'. split; auto. split; [apply (pivot_ghost Iv Ev Hk E)|]. split; auto.
    intros v Hv. destruct (Nat.eq_dec v k) as [->|]; auto. apply M, Ha. lia. }
  cbn [bind].
  assert (Once : forall M, taken g0 (bc_g s) M -> lists_edges_once g0 M).
  { intros M (N & H1 & H2 & H3). unfold lists_edges_once. split; auto. split; auto.
    intros u v. rewrite H3. split; [|tauto]. intros [K|K]; auto. exfalso.
    destruct (adj_lt (bi_g I) K) as [Hu _].
    assert (En : nbrs (bc_g s) u = []).
    { apply (bi_done I); [apply Ha; unfold n; rewrite <- (bi_n I); auto|rewrite Ev; auto]. }
    unfold adj in K. rewrite En in K. destruct K. }
  pose proof (bi_tk I) as Tk. rewrite (bi_es I) in Tk by (rewrite Ev; simpl; lia). rewrite app_nil_r in Tk.
  destruct G as [St Es' Tk' Le Or Bi Ha_ Se]. rewrite Ev in St. inversion St; subst. cbn [concat] in Tk'.
  rewrite app_nil_r in Tk'.
  exists (bc_comps s), (sort_desc (map bc_size (bc_comps s))), Cs.
  split; [reflexivity|]. split; [apply sort_desc_perm|]. split; [apply (bi_ne I)|]. split; [auto|]. split.
  { apply Forall_forall. intros c Hc. apply (bc_size_spec W0 Tk).
    - intros e He. apply in_concat. eauto.
    - apply (proj1 (Forall_forall _ _) (bi_ne I)); auto. }
  split; [auto|]. split.
  { eapply Forall_impl; [|apply Bi]. intros c Hc ->. apply biconnected_conn in Hc as (_ & Hc & _). simpl in Hc. lia. }
  split; [auto|]. apply (parts_blocks W0 Or Bi).
  intros a b Hab. apply (Once _ Tk') in Hab. exact Hab.
Qed.

End Run.
