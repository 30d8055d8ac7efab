(** Steps, undoing and sorting in any order. *)
From Verif Require Import Base BaseFacts Containers ContainerSpec ContainerFacts Graph GraphSpec GraphFacts GraphOps
  Rng RngFacts Markov EnsembleFacts ErC ErCSpec ErCFacts ErM ErMSpec ErMFacts Config ConfigSpec ConfigFacts ConfigRun ConfigStep
  Sw SwSpec SwFacts SwChain SwConnect Sorting SessionSpec.
From Coq Require Import QArith.
Set Implicit Arguments.
Unset Strict Implicit.
Local Open Scope nat_scope.

Section General.
Context {S R U : Type}.
Variable m_step : S -> rng -> outcome (R * S * rng).
Variable undo_step : S -> R -> outcome (U * S).
Variable undo_quiet : S -> R -> outcome S.
Variable sort : S -> outcome S.
Variable inv : S -> Prop.
Variable like : S -> S -> Prop.
Variable good : R -> U -> Prop.
Hypothesis like_refl : forall e, like e e.
Hypothesis like_trans : forall e f g, like e f -> like f g -> like e g.
Hypothesis step_inv : forall s rs r s' rs', inv s -> m_step s rs = Done (r, s', rs') -> inv s'.
Hypothesis step_undo : forall s rs r s' rs', inv s -> m_step s rs = Done (r, s', rs') ->
  forall h, inv h -> like s' h -> exists u h', undo_step h r = Done (u, h') /\ good r u /\
    undo_quiet h r = Done h' /\ inv h' /\ like s h'.
Hypothesis sort_ok : forall s, inv s -> exists s', sort s = Done s' /\ inv s' /\ like s s'.

(** [f] is one of the ensembles from which undoing [l] leads back to [e0]. *)
Fixpoint back (e0 f : S) (l : list R) : Prop :=
  match l with
  | [] => like e0 f
  | r :: l' => exists e, back e0 e l' /\ forall h, inv h -> like f h ->
      exists u h', undo_step h r = Done (u, h') /\ good r u /\ undo_quiet h r = Done h' /\
        inv h' /\ like e h'
  end.

Lemma back_like e0 f g l : back e0 f l -> like f g -> back e0 g l.
Proof using like_trans.
  destruct l as [|r l]; cbn [back]; [eauto|]. intros (e & B & H) F. exists e. split; auto.
  intros h I Lh. apply H; auto. eauto.
Qed.

Lemma session_back e0 e l : inv e0 -> session m_step undo_step undo_quiet sort e0 e l ->
  inv e /\ back e0 e l.
Proof using like_refl like_trans step_inv step_undo sort_ok.
  intros I0. induction 1 as [|e l rs r e' rs' H IH E|e r l u e' H IH E|e r l e' H IH E|e l e' H IH E].
  - split; auto. apply like_refl.
  - destruct IH as [I B]. split; [eapply step_inv; eauto|]. cbn [back]. exists e. split; auto.
    intros h Ih Lh. apply (step_undo I E Ih Lh).
  - destruct IH as [I B]. cbn [back] in B. destruct B as (e1 & B & K).
    destruct (K e I (like_refl e)) as (u1 & h & E1 & _ & _ & Ih & Lh). rewrite E in E1. injection E1 as <- <-.
    split; auto. apply (back_like B Lh).
  - destruct IH as [I B]. cbn [back] in B. destruct B as (e1 & B & K).
    destruct (K e I (like_refl e)) as (u1 & h & _ & _ & E1 & Ih & Lh). rewrite E in E1. injection E1 as <-.
    split; auto. apply (back_like B Lh).
  - destruct IH as [I B]. destruct (sort_ok I) as (e1 & E1 & I1 & L1). rewrite E in E1. injection E1 as <-.
    split; auto. apply (back_like B L1).
Qed.

Lemma back_undo e0 l : forall e, inv e -> back e0 e l ->
  (exists us h, undo_in_order undo_step e l = Done (us, h) /\ Forall2 good l us /\ like e0 h) /\
  exists h, foldM undo_quiet e l = Done h /\ like e0 h.
Proof using like_refl like_trans.
  induction l as [|r l IH]; intros e I B; cbn [back] in B.
  - split; [exists [], e|exists e]; cbn [undo_in_order foldM]; auto.
  - destruct B as (e1 & B & K). destruct (K e I (like_refl e)) as (u & h & E1 & G & E2 & Ih & Lh).
    destruct (IH h Ih (back_like B Lh)) as [(us & h1 & E3 & F & L1) (h2 & E4 & L2)].
    cbn [undo_in_order foldM]. rewrite E1, E2. cbn [bind]. rewrite E3. cbn [bind]. split; [|eauto].
    exists (u :: us), h1. splits; auto.
Qed.

Lemma session_recoverable e0 e l : inv e0 -> session m_step undo_step undo_quiet sort e0 e l ->
  inv e /\ recoverable undo_step undo_quiet sort good like e0 e l /\ (l = [] -> like e0 e).
Proof using like_refl like_trans step_inv step_undo sort_ok.
  intros I0 H. destruct (session_back I0 H) as [I B]. destruct (back_undo I B) as [U1 U2].
  splits; auto.
  - unfold recoverable, undo_steps, undo_steps_quiet. rewrite rev_involutive. splits; auto.
    destruct (sort_ok I) as (e' & E & _). eauto.
  - intros ->. exact B.
Qed.

Lemma steps_alike :
  (forall e f rs r e' rs', inv e -> inv f -> like e f -> m_step e rs = Done (r, e', rs') ->
     exists f', m_step f rs = Done (r, f', rs') /\ like e' f') ->
  same_steps m_step inv like.
Proof using step_inv.
  intros H k. induction k as [|k IH]; intros e f rs l e' rs' Ie If L E; cbn [m_steps] in *.
  - injection E as <- <- <-. eauto.
  - apply bind_done in E as ([[r e1] rs1] & E1 & E). apply bind_done in E as ([[l2 e2] rs2] & E2 & E).
    injection E as <- <- <-. destruct (H _ _ _ _ _ _ Ie If L E1) as (f1 & F1 & L1).
    destruct (IH _ _ _ _ _ _ (step_inv Ie E1) (step_inv If F1) L1 E2) as (f' & F2 & L2).
    exists f'. rewrite F1. cbn [bind]. rewrite F2. auto.
Qed.

End General.

(** ** Adding and removing edges does not depend on the order of neighbours *)

Section Congruence.
Context {T A : Type} {C : AdjContainer T A} {L : AdjLaws C}.
Implicit Types g h : graph A.

Lemma add_alike p g h i j : simple_graph g -> simple_graph h -> same_topology g h ->
  i < vertex_count g -> j < vertex_count g -> i <> j ->
  exists r g' h', add_edge p g i j = Done (r, g') /\ add_edge p h i j = Done (r, h') /\ same_topology g' h'.
Proof.
  intros W Wh S Hi Hj N. pose proof S as (S1 & S2 & S3 & S4). destruct (adj_dec g i j) as [H|H].
  - rewrite (add_edge_present p W H), (add_edge_present p Wh (proj1 (same_topology_adj i j S) H)). eauto 8.
  - assert (H' : ~ adj h i j) by (intros X; apply H, (same_topology_adj i j S), X).
    destruct (add_edge_absent p W Hi Hj N H) as (g' & E & _).
    destruct (@add_edge_absent _ _ _ _ p h i j Wh ltac:(lia) ltac:(lia) N H') as (h' & E' & _).
    exists (Ok tt), g', h'. splits; auto.
    destruct (add_edge_ok W E) as (_ & W1 & V1 & _ & P1 & A1).
    destruct (add_edge_ok Wh E') as (_ & W2 & V2 & _ & P2 & A2).
    apply same_topology_intro; auto; try congruence.
    intros x y. rewrite A1, A2, (same_topology_adj x y S). reflexivity.
Qed.

Lemma remove_alike p g h i j : simple_graph g -> simple_graph h -> same_topology g h ->
  i < vertex_count g -> j < vertex_count g -> i <> j ->
  exists r g' h', remove_edge p g i j = Done (r, g') /\ remove_edge p h i j = Done (r, h') /\ same_topology g' h'.
Proof.
  intros W Wh S Hi Hj N. pose proof S as (S1 & S2 & S3 & S4). destruct (adj_dec g i j) as [H|H].
  - pose proof (proj1 (same_topology_adj i j S) H) as H'.
    destruct (remove_edge_present p W H) as (g' & E & _).
    destruct (remove_edge_present p Wh H') as (h' & E' & _).
    exists (Ok tt), g', h'. splits; auto.
    destruct (remove_edge_ok W E) as (_ & W1 & V1 & _ & P1 & A1).
    destruct (remove_edge_ok Wh E') as (_ & W2 & V2 & _ & P2 & A2).
    apply same_topology_intro; auto; try congruence.
    intros x y. rewrite A1, A2, (same_topology_adj x y S). reflexivity.
  - assert (H' : ~ adj h i j) by (intros X; apply H, (same_topology_adj i j S), X).
    rewrite (@remove_edge_absent _ _ _ _ p g i j), (@remove_edge_absent _ _ _ _ p h i j); auto; try lia. eauto 8.
Qed.

End Congruence.

(** ** The ensembles *)

Section Ensembles.
Context {T : Type}.

Lemma erc_like_refl (e : er_c T) : erc_like e e.
Proof. unfold erc_like. splits; auto. apply same_topology_refl. Qed.
Lemma erc_like_trans (e f g : er_c T) : erc_like e f -> erc_like f g -> erc_like e g.
Proof.
  intros (A1 & A2 & A3) (B1 & B2 & B3). unfold erc_like. splits; try congruence.
  eapply same_topology_trans; eauto.
Qed.
Lemma erm_like_refl (e : er_m T) : erm_like e e.
Proof. unfold erm_like. splits; auto. apply same_topology_refl. Qed.
Lemma erm_like_trans (e f g : er_m T) : erm_like e f -> erm_like f g -> erm_like e g.
Proof.
  intros (A1 & A2 & A3 & A4 & A5) (B1 & B2 & B3 & B4 & B5). unfold erm_like. splits; try congruence.
  eapply same_topology_trans; eauto.
Qed.
Lemma cm_like_refl (e : config T) : cm_like e e.
Proof. unfold cm_like. splits; auto. apply same_topology_refl. Qed.
Lemma cm_like_trans (e f g : config T) : cm_like e f -> cm_like f g -> cm_like e g.
Proof.
  intros (A1 & A2 & A3 & A4) (B1 & B2 & B3 & B4). unfold cm_like. splits; try congruence.
  eapply same_topology_trans; eauto.
Qed.
Lemma sw_like_trans (e f g : sw_ensemble T) : sw_like e f -> sw_like f g -> sw_like e g.
Proof.
  intros [(A1 & A2 & A3 & A4) A5] [(B1 & B2 & B3 & B4) B5]. unfold sw_like, sw_alike. splits; try congruence.
  intros i. etransitivity; eauto.
Qed.

Lemma erc_sort_ok (e : er_c T) : simple_graph (erc_graph e) ->
  exists e', erc_sort_adj e = Done e' /\ simple_graph (erc_graph e') /\ erc_like e e'.
Proof.
  intros W. unfold erc_sort_adj. destruct (sort_adj_spec W) as (g & -> & W' & S & _). cbn [bind].
  eexists. split; [reflexivity|]. unfold erc_like. cbn. auto.
Qed.

Lemma erm_sort_ok n m (e : er_m T) : erm_ok n m e ->
  exists e', erm_sort_adj e = Done e' /\ erm_ok n m e' /\ erm_like e e'.
Proof.
  intros [W V Ec M Al [Nc Cu] [Np Po]]. unfold erm_sort_adj. destruct (sort_adj_spec W) as (g & -> & W' & S & _). cbn [bind].
  eexists. split; [reflexivity|]. pose proof S as (S1 & S2 & S3 & S4). split.
  - constructor; cbn [erm_graph erm_m erm_all erm_current erm_possible]; auto; try congruence.
    + split; auto. intros i j. rewrite Cu, (same_topology_adj i j S). reflexivity.
    + split; auto. intros i j. rewrite Po, (same_topology_adj i j S). reflexivity.
  - unfold erm_like. cbn. auto.
Qed.

Lemma cm_sort_ok v (e : config T) : cm_ok v e ->
  exists e', cm_sort_adj e = Done e' /\ cm_ok v e' /\ cm_like e e'.
Proof.
  intros [W [V D] De B]. unfold cm_sort_adj. destruct (sort_adj_spec W) as (g & -> & W' & S & _). cbn [bind].
  eexists. split; [reflexivity|]. pose proof S as (S1 & S2 & S3 & S4). split.
  - constructor; cbn [cm_graph cm_degrees cm_backup]; auto. split; [congruence|].
    intros i. rewrite <- D. symmetry. apply Permutation_length, S4.
  - unfold cm_like. cbn. auto.
Qed.

Lemma sw_sort_ok n d (e : sw_ensemble T) : sw_inv n d (sw_graph e) ->
  exists e', sw_sort_adj e = Done e' /\ sw_inv n d (sw_graph e') /\ sw_like e e'.
Proof.
  intros I. unfold sw_sort_adj. destruct (sort_adj_spec (proj1 I)) as (g & E & _). rewrite E. cbn [bind].
  eexists. split; [reflexivity|]. split; [apply (sw_sort_inv I E)|].
  split; cbn; auto. apply (proj1 (sw_sort_alike E)).
Qed.

Lemma erc_step_alike p (e f : er_c T) rs r e' rs' :
  simple_graph (erc_graph e) -> simple_graph (erc_graph f) -> erc_like e f ->
  erc_m_step p e rs = Done (r, e', rs') -> exists f', erc_m_step p f rs = Done (r, f', rs') /\ erc_like e' f'.
Proof.
  intros We Wf (S & P & Ct) E. unfold erc_m_step in *. pose proof S as (S1 & _). rewrite S1, P, Ct in *.
  apply bind_done in E as ([[a b] rs1] & E1 & E). apply bind_done in E as ([x rs2] & E2 & E).
  rewrite E1. cbn [bind]. rewrite E2. cbn [bind]. apply draw_two_spec in E1 as (Ha & Hb & N).
  destruct (Qle_bool x (erc_prob e)).
  - destruct (add_alike p We Wf S Ha Hb N) as (q & g' & h' & F1 & F2 & S').
    rewrite F1 in E. rewrite F2. cbn [bind] in *.
    destruct q; injection E as <- <- <-; eexists; (split; [reflexivity|]); unfold erc_like; cbn; auto.
  - destruct (remove_alike p We Wf S Ha Hb N) as (q & g' & h' & F1 & F2 & S').
    rewrite F1 in E. rewrite F2. cbn [bind] in *.
    destruct q; injection E as <- <- <-; eexists; (split; [reflexivity|]); unfold erc_like; cbn; auto.
Qed.

Lemma erm_step_alike p n m (e f : er_m T) rs r e' rs' :
  erm_ok n m e -> erm_ok n m f -> erm_like e f ->
  erm_m_step p e rs = Done (r, e', rs') -> exists f', erm_m_step p f rs = Done (r, f', rs') /\ erm_like e' f'.
Proof.
  intros Oe Of (S & M & Al & Po & Cu) E. destruct (erm_m_step_spec Oe E) as (O' & Es & N1 & N2).
  destruct r as [a i b j]. cbn [esm_removed esm_inserted esm_i_removed esm_i_inserted] in *.
  destruct (erm_step_spec p Oe N1 N2) as (e1 & X & _ & P1 & A1 & C1 & Q1 & Ad1). rewrite Es in X. injection X as <-.
  pose proof N1 as N1'. pose proof N2 as N2'. rewrite <- Cu in N1'. rewrite <- Po in N2'.
  destruct (erm_step_spec p Of N1' N2') as (f1 & Y & Of1 & P2 & A2 & C2 & Q2 & Ad2).
  exists f1. unfold erm_m_step in *. rewrite Cu, Po.
  apply bind_done in E as ([i' rs1] & E1 & E). apply bind_done in E as ([j' rs2] & E2 & E).
  apply bind_done in E as (a' & E3 & E). apply bind_done in E as (b' & E4 & E). cbv zeta in E.
  apply bind_done in E as (e2 & _ & E). injection E as <- <- <- <- _ <-.
  rewrite E1. cbn [bind]. rewrite E2. cbn [bind]. rewrite E3. cbn [bind]. rewrite E4. cbn [bind]. cbv zeta.
  rewrite Y. cbn [bind]. split; auto. unfold erm_like. pose proof S as (S1 & S2 & S3 & S4).
  splits; try congruence.
  - apply same_topology_intro; try apply O'; try apply Of1; try congruence.
    + rewrite (eo_vertices O'), (eo_vertices Of1). auto.
    + intros x y. rewrite Ad1, Ad2, (same_topology_adj x y S). reflexivity.
  - rewrite (eo_m O'), (eo_m Of1). auto.
Qed.

End Ensembles.
