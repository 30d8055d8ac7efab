(** The data at the end of a program are those it assigned, and its assignments change
    nothing else. *)
From Verif Require Import Base BaseFacts Containers Graph GraphFacts Traversal Components Rng ErC ErM Sw Ws Config Ba Spacial Dog SafeSpec PayloadSpec PayloadFacts PayloadRuns PayloadRings.
From Coq Require Import QArith.
Set Implicit Arguments.
Unset Strict Implicit.
Local Open Scope nat_scope.

Lemma both_done {X X'} (P : X -> X' -> Prop) m m' x : both P m m' -> m = Done x -> exists x', m' = Done x' /\ P x x'.
Proof. intros H E. rewrite E in H. destruct m' as [x'| | |]; try contradiction. eauto. Qed.

(** Data that change with the assignments. *)
Definition after {Call T} (writes : Call -> option (nat * T)) (d : nat -> T) (c : Call) (i : nat) : T :=
  match writes c with Some (j, u) => if j =? i then u else d i | None => d i end.

Lemma program_data {E Call T} (call : E -> Call -> rng -> outcome (E * rng)) (writes : Call -> option (nat * T))
  (data : (nat -> T) -> E -> Prop) :
  (forall d d' e, (forall i, d i = d' i) -> data d e -> data d' e) ->
  (forall d e c rs e' rs', data d e -> call e c rs = Done (e', rs') -> data (after writes d c) e') ->
  forall l d s s', data d (fst s) -> program call s l = Done s' -> data (fun i => last_write writes l i (d i)) (fst s').
Proof.
  intros X H. unfold program. induction l as [|c l IH]; intros d [e rs] s' D Q; simpl in *.
  - injection Q as <-. exact D.
  - destruct (call e c rs) as [[e1 r1]| | |] eqn:E1; simpl in Q; try discriminate.
    exact (IH (after writes d c) (e1, r1) _ (H _ _ _ _ _ _ D E1) Q).
Qed.

(** A program and the same without its assignments. *)
Lemma program_without {E Call T} (call : E -> Call -> rng -> outcome (E * rng)) (writes : Call -> option (nat * T))
  (P : E -> E -> Prop) n :
  (forall e e' c rs, P e e' -> writes c = None -> both (drawn P) (call e c rs) (call e' c rs)) ->
  (forall e e' c rs i t, P e e' -> writes c = Some (i, t) -> i < n -> exists e1, call e c rs = Done (e1, rs) /\ P e1 e') ->
  forall l e e' rs, P e e' -> writes_in writes n l ->
  both (drawn P) (program call (e, rs) l) (program call (e', rs) (without writes l)).
Proof.
  intros H K. unfold program. induction l as [|c l IH]; intros e e' rs p W; simpl.
  - split; auto.
  - inversion W as [|? ? W1 W2]; subst. destruct (writes c) as [[i t]|] eqn:Q.
    + destruct (K e e' c rs i t p Q W1) as (e1 & E1 & p1). rewrite E1; simpl. auto.
    + simpl. eapply both_bind; [apply H; [exact p|exact Q]|]. intros [e1 r1] [e1' r1'] [p1 Er]; simpl in p1, Er; subst. auto.
Qed.

(** ** Graphs *)

Section Graphs.
Context {T A : Type} {C : AdjContainer T A}.

Lemma holds_ext (d d' : nat -> T) (g : graph A) : (forall i, d i = d' i) -> holds d g -> holds d' g.
Proof. intros X H i a E. rewrite <- X. auto. Qed.

Lemma holds_write (S : forall a t, ac_contained (ac_set_contained a t) = t) d (g g' : graph A) i t :
  holds d g -> at_mut_set g i t = Done g' -> holds (fun j => if i =? j then t else d j) g'.
Proof.
  intros H E. unfold at_mut_set, container, vget in E. destruct (nth_error (vertices g) i) as [a|] eqn:Ea; simpl in E; try discriminate.
  injection E as <-. intros j b Eb. simpl in Eb. rewrite nth_error_upd in Eb.
  assert (Hi : i < length (vertices g)) by (apply nth_error_Some; congruence). apply Nat.ltb_lt in Hi. rewrite Hi in Eb.
  destruct (i =? j) eqn:Eij; simpl in Eb.
  - injection Eb as <-. apply S.
  - apply H; auto.
Qed.

Lemma write_done (g : graph A) i t : i < length (vertices g) -> exists a, nth_error (vertices g) i = Some a /\
  at_mut_set g i t = Done (mk_graph (next_id g) (edge_count g) (upd (vertices g) i (ac_set_contained a t))).
Proof.
  intros H. unfold at_mut_set, container, vget.
  destruct (nth_error (vertices g) i) as [a|] eqn:E; [eauto|]. apply nth_error_None in E. unfold lt in H. exfalso. apply (Nat.nle_succ_diag_l i). exact (Nat.le_trans _ _ _ H E).
Qed.

End Graphs.

(** The data of one run, as a relation of the run to itself. *)
Definition is {T} (d : nat -> T) (i : nat) (t _ : T) : Prop := t = d i.

Section Self.
Context {T A : Type} {C : AdjContainer T A} {L : (nat -> T -> T -> Prop) -> nat -> A -> A -> Prop}.
Variable K : forall R, AdjLike C C R (L R).
Variable self : forall (R : nat -> T -> T -> Prop) i a, R i (ac_contained a) (ac_contained a) -> L R i a a.
Variable other : forall i a a' t, L any i a a' -> L any i (ac_set_contained a t) a'.

Lemma holds_self d (g : graph A) : holds d g -> graph_like (length (vertices g)) (L (is d)) g g.
Proof.
  intros H. unfold graph_like, aligned. splits; auto. intros i a a' E E'. rewrite E in E'. injection E' as <-.
  apply self. apply H; auto.
Qed.

Lemma self_holds n d (g g' : graph A) : graph_like n (L (is d)) g g' -> holds d g.
Proof.
  intros (_ & _ & L1 & L2 & F) i a E.
  destruct (nth_error (vertices g') i) as [a'|] eqn:E'.
  - pose proof (al_contained (AdjLike := K (is d)) (F i a a' E E')) as X. exact X.
  - apply nth_error_None in E'. assert (i < length (vertices g)) by (apply nth_error_Some; congruence). lia.
Qed.

Lemma write_other n (g g' : graph A) i t : graph_like n (L any) g g' -> i < n ->
  exists g1, at_mut_set g i t = Done g1 /\ graph_like n (L any) g1 g'.
Proof.
  intros (E1 & E2 & L1 & L2 & F) Hi. destruct (write_done (g := g) (i := i) t) as (a & Ea & E).
  - lia.
  - eexists. split; [exact E|]. unfold graph_like, aligned; simpl. rewrite upd_length. splits; auto.
    intros j b b' Eb Eb'. rewrite nth_error_upd in Eb. destruct (i =? j) eqn:Eij; simpl in Eb; [|eauto].
    apply Nat.eqb_eq in Eij; subst j. destruct (i <? length (vertices g)); [|eauto]. injection Eb as <-.
    apply other. eauto.
Qed.

End Self.

Ltac self := intros; open_like; unfold nc_like, sc_like, wc_like, spc_like, any in *; simpl in *; intuition auto.

Lemma nc_self {T} (R : nat -> T -> T -> Prop) i (a : node_container T) : R i (ac_contained a) (ac_contained a) -> nc_like (R i) a a.
Proof. self. Qed.
Lemma sc_self {T} (R : nat -> T -> T -> Prop) i (a : sw_container T) : R i (ac_contained a) (ac_contained a) -> sc_like (R i) a a.
Proof. self. Qed.
Lemma wc_self {T} (R : nat -> T -> T -> Prop) i (a : ws_container T) : R i (ac_contained a) (ac_contained a) -> wc_like (R i) a a.
Proof. self. Qed.
Lemma spc_self {T} (R : nat -> T -> T -> Prop) i (a : spacial_container pos T) :
  R i (ac_contained a) (ac_contained a) -> spc_like (R i) a a.
Proof. self. Qed.

Lemma nc_other {T} i (a a' : node_container T) t : nc_like (any i) a a' -> nc_like (any i) (ac_set_contained a t) a'.
Proof. self. Qed.
Lemma sc_other {T} i (a a' : sw_container T) t : sc_like (any i) a a' -> sc_like (any i) (ac_set_contained a t) a'.
Proof. self. Qed.
Lemma wc_other {T} i (a a' : ws_container T) t : wc_like (any i) a a' -> wc_like (any i) (ac_set_contained a t) a'.
Proof. self. Qed.
Lemma spc_other {T} i (a a' : spacial_container pos T) t : spc_like (any i) a a' -> spc_like (any i) (ac_set_contained a t) a'.
Proof. self. Qed.

Lemma nc_holds_self {T} (d : nat -> T) (g : graph (node_container T)) : holds d g -> graph_like (length (vertices g)) (fun i => nc_like (is d i)) g g.
Proof. apply (holds_self (L := fun R i => nc_like (R i)) (@nc_self T)). Qed.
Lemma nc_self_holds {T} n (d : nat -> T) (g g' : graph (node_container T)) : graph_like n (fun i => nc_like (is d i)) g g' -> holds d g.
Proof. apply (self_holds (L := fun R i => nc_like (R i)) (@nc_alike T T)). Qed.
Lemma nc_write_other {T} n (g g' : graph (node_container T)) i (t : T) : graph_like n (fun i => nc_like (any i)) g g' -> i < n ->
  exists g1, at_mut_set g i t = Done g1 /\ graph_like n (fun i => nc_like (any i)) g1 g'.
Proof. apply (write_other (L := fun R i => nc_like (R i)) (@nc_other T)). Qed.
Lemma nc_holds_write {T} (d : nat -> T) (g g' : graph (node_container T)) i t :
  holds d g -> at_mut_set g i t = Done g' -> holds (fun j => if i =? j then t else d j) g'.
Proof. apply holds_write. self. Qed.
Lemma nc_any {T} (g : graph (node_container T)) : graph_like (length (vertices g)) (fun i => nc_like (any i)) g g.
Proof.
  unfold graph_like, aligned. splits; auto. intros i a a' E E'. rewrite E in E'. injection E' as <-.
  apply nc_self. exact I.
Qed.

Lemma sc_holds_self {T} (d : nat -> T) (g : graph (sw_container T)) : holds d g -> graph_like (length (vertices g)) (fun i => sc_like (is d i)) g g.
Proof. apply (holds_self (L := fun R i => sc_like (R i)) (@sc_self T)). Qed.
Lemma sc_self_holds {T} n (d : nat -> T) (g g' : graph (sw_container T)) : graph_like n (fun i => sc_like (is d i)) g g' -> holds d g.
Proof. apply (self_holds (L := fun R i => sc_like (R i)) (@sc_alike T T)). Qed.
Lemma sc_write_other {T} n (g g' : graph (sw_container T)) i (t : T) : graph_like n (fun i => sc_like (any i)) g g' -> i < n ->
  exists g1, at_mut_set g i t = Done g1 /\ graph_like n (fun i => sc_like (any i)) g1 g'.
Proof. apply (write_other (L := fun R i => sc_like (R i)) (@sc_other T)). Qed.
Lemma sc_holds_write {T} (d : nat -> T) (g g' : graph (sw_container T)) i t :
  holds d g -> at_mut_set g i t = Done g' -> holds (fun j => if i =? j then t else d j) g'.
Proof. apply holds_write. self. Qed.
Lemma sc_any {T} (g : graph (sw_container T)) : graph_like (length (vertices g)) (fun i => sc_like (any i)) g g.
Proof.
  unfold graph_like, aligned. splits; auto. intros i a a' E E'. rewrite E in E'. injection E' as <-.
  apply sc_self. exact I.
Qed.

Lemma wc_holds_self {T} (d : nat -> T) (g : graph (ws_container T)) : holds d g -> graph_like (length (vertices g)) (fun i => wc_like (is d i)) g g.
Proof. apply (holds_self (L := fun R i => wc_like (R i)) (@wc_self T)). Qed.
Lemma wc_self_holds {T} n (d : nat -> T) (g g' : graph (ws_container T)) : graph_like n (fun i => wc_like (is d i)) g g' -> holds d g.
Proof. apply (self_holds (L := fun R i => wc_like (R i)) (@wc_alike T T)). Qed.
Lemma wc_write_other {T} n (g g' : graph (ws_container T)) i (t : T) : graph_like n (fun i => wc_like (any i)) g g' -> i < n ->
  exists g1, at_mut_set g i t = Done g1 /\ graph_like n (fun i => wc_like (any i)) g1 g'.
Proof. apply (write_other (L := fun R i => wc_like (R i)) (@wc_other T)). Qed.
Lemma wc_holds_write {T} (d : nat -> T) (g g' : graph (ws_container T)) i t :
  holds d g -> at_mut_set g i t = Done g' -> holds (fun j => if i =? j then t else d j) g'.
Proof. apply holds_write. self. Qed.
Lemma wc_any {T} (g : graph (ws_container T)) : graph_like (length (vertices g)) (fun i => wc_like (any i)) g g.
Proof.
  unfold graph_like, aligned. splits; auto. intros i a a' E E'. rewrite E in E'. injection E' as <-.
  apply wc_self. exact I.
Qed.

Lemma spc_holds_self {T} (d : nat -> T) (g : graph (spacial_container pos T)) : holds d g -> graph_like (length (vertices g)) (fun i => spc_like (is d i)) g g.
Proof. apply (holds_self (L := fun R i => spc_like (R i)) (@spc_self T)). Qed.
Lemma spc_self_holds {T} n (d : nat -> T) (g g' : graph (spacial_container pos T)) : graph_like n (fun i => spc_like (is d i)) g g' -> holds d g.
Proof. apply (self_holds (L := fun R i => spc_like (R i)) (@spc_alike pos T T)). Qed.
Lemma spc_write_other {T} n (g g' : graph (spacial_container pos T)) i (t : T) : graph_like n (fun i => spc_like (any i)) g g' -> i < n ->
  exists g1, at_mut_set g i t = Done g1 /\ graph_like n (fun i => spc_like (any i)) g1 g'.
Proof. apply (write_other (L := fun R i => spc_like (R i)) (@spc_other T)). Qed.
Lemma spc_holds_write {T} (d : nat -> T) (g g' : graph (spacial_container pos T)) i t :
  holds d g -> at_mut_set g i t = Done g' -> holds (fun j => if i =? j then t else d j) g'.
Proof. apply holds_write. self. Qed.
Lemma spc_any {T} (g : graph (spacial_container pos T)) : graph_like (length (vertices g)) (fun i => spc_like (any i)) g g.
Proof.
  unfold graph_like, aligned. splits; auto. intros i a a' E E'. rewrite E in E'. injection E' as <-.
  apply spc_self. exact I.
Qed.

(** ** The calls *)

Lemma erc_data {T} p d (e : er_c T) c rs e' rs' : holds d (erc_graph e) -> erc_do p e c rs = Done (e', rs') ->
  holds (after erc_writes d c) (erc_graph e').
Proof.
  intros H E. destruct (erc_writes c) as [[i t]|] eqn:W.
  - destruct c; inversion W; subst. simpl in E. destruct (at_mut_set _ i t) eqn:Eg; simpl in E; try discriminate.
    injection E as <- <-. exact (nc_holds_write H Eg).
  - apply holds_ext with d; [intros i; unfold after; rewrite W; auto|].
    assert (P : erc_like (length (vertices (erc_graph e))) (is d) e e) by (split; [apply nc_holds_self; auto|auto]).
    assert (Q : erc_call_like (is d) c c) by (destruct c; simpl; auto; discriminate).
    destruct (both_done (both_erc_do p rs P Q) E) as ([e1 r1] & _ & [P1 _]). exact (nc_self_holds (proj1 P1)).
Qed.

Lemma erc_without {T} p n : forall l (e e' : er_c T) rs, erc_like n any e e' -> writes_in erc_writes n l ->
  both (drawn (erc_like n any)) (program (erc_do p) (e, rs) l) (program (erc_do p) (e', rs) (without erc_writes l)).
Proof.
  apply program_without.
  - intros e e' c rs P W. apply both_erc_do; auto. destruct c; simpl; auto; discriminate.
  - intros e e' c rs i t P W Hi. destruct c; inversion W; subst. destruct P as [P1 P2].
    destruct (nc_write_other t P1 Hi) as (g1 & E & P3). simpl. rewrite E. simpl. eexists; split; [reflexivity|].
    split; auto.
Qed.

Lemma erm_data {T} p d (e : er_m T) c rs e' rs' : holds d (erm_graph e) -> erm_do p e c rs = Done (e', rs') ->
  holds (after erm_writes d c) (erm_graph e').
Proof.
  intros H E. destruct (erm_writes c) as [[i t]|] eqn:W.
  - destruct c; inversion W; subst. simpl in E. destruct (at_mut_set _ i t) eqn:Eg; simpl in E; try discriminate.
    injection E as <- <-. exact (nc_holds_write H Eg).
  - apply holds_ext with d; [intros i; unfold after; rewrite W; auto|].
    assert (P : erm_like (length (vertices (erm_graph e))) (is d) e e) by (split; [apply nc_holds_self; auto|auto]).
    assert (Q : erm_call_like (is d) c c) by (destruct c; simpl; auto; discriminate).
    destruct (both_done (both_erm_do p rs P Q) E) as ([e1 r1] & _ & [P1 _]). exact (nc_self_holds (proj1 P1)).
Qed.

Lemma erm_without {T} p n : forall l (e e' : er_m T) rs, erm_like n any e e' -> writes_in erm_writes n l ->
  both (drawn (erm_like n any)) (program (erm_do p) (e, rs) l) (program (erm_do p) (e', rs) (without erm_writes l)).
Proof.
  apply program_without.
  - intros e e' c rs P W. apply both_erm_do; auto. destruct c; simpl; auto; discriminate.
  - intros e e' c rs i t P W Hi. destruct c; inversion W; subst. destruct P as [P1 P2].
    destruct (nc_write_other t P1 Hi) as (g1 & E & P3). simpl. rewrite E. simpl. eexists; split; [reflexivity|].
    split; auto.
Qed.

Lemma cm_data {T} p d (e : config T) c rs e' rs' : holds d (cm_graph e) -> cm_do p e c rs = Done (e', rs') ->
  holds (after cm_writes d c) (cm_graph e').
Proof.
  intros H E. destruct (cm_writes c) as [[i t]|] eqn:W.
  - destruct c; inversion W; subst. simpl in E. destruct (at_mut_set _ i t) eqn:Eg; simpl in E; try discriminate.
    injection E as <- <-. exact (nc_holds_write H Eg).
  - apply holds_ext with d; [intros i; unfold after; rewrite W; auto|].
    assert (P : cm_like (length (vertices (cm_graph e))) (is d) e e) by (split; [apply nc_holds_self; auto|auto]).
    assert (Q : cm_call_like (is d) c c) by (destruct c; simpl; auto; discriminate).
    destruct (both_done (both_cm_do p rs P Q) E) as ([e1 r1] & _ & [P1 _]). exact (nc_self_holds (proj1 P1)).
Qed.

Lemma cm_without {T} p n : forall l (e e' : config T) rs, cm_like n any e e' -> writes_in cm_writes n l ->
  both (drawn (cm_like n any)) (program (cm_do p) (e, rs) l) (program (cm_do p) (e', rs) (without cm_writes l)).
Proof.
  apply program_without.
  - intros e e' c rs P W. apply both_cm_do; auto. destruct c; simpl; auto; discriminate.
  - intros e e' c rs i t P W Hi. destruct c; inversion W; subst. destruct P as [P1 P2].
    destruct (nc_write_other t P1 Hi) as (g1 & E & P3). simpl. rewrite E. simpl. eexists; split; [reflexivity|].
    split; auto.
Qed.

Lemma sw_data {T} p d (e : sw_ensemble T) c rs e' rs' : holds d (sw_graph e) -> sw_do p e c rs = Done (e', rs') ->
  holds (after sw_writes d c) (sw_graph e').
Proof.
  intros H E. destruct (sw_writes c) as [[i t]|] eqn:W.
  - destruct c; inversion W; subst. simpl in E. destruct (at_mut_set _ i t) eqn:Eg; simpl in E; try discriminate.
    injection E as <- <-. exact (sc_holds_write H Eg).
  - apply holds_ext with d; [intros i; unfold after; rewrite W; auto|].
    assert (P : sw_like (length (vertices (sw_graph e))) (is d) e e) by (split; [apply sc_holds_self; auto|auto]).
    assert (Q : sw_call_like (is d) c c) by (destruct c; simpl; auto; discriminate).
    destruct (both_done (both_sw_do p rs P Q) E) as ([e1 r1] & _ & [P1 _]). exact (sc_self_holds (proj1 P1)).
Qed.

Lemma sw_without {T} p n : forall l (e e' : sw_ensemble T) rs, sw_like n any e e' -> writes_in sw_writes n l ->
  both (drawn (sw_like n any)) (program (sw_do p) (e, rs) l) (program (sw_do p) (e', rs) (without sw_writes l)).
Proof.
  apply program_without.
  - intros e e' c rs P W. apply both_sw_do; auto. destruct c; simpl; auto; discriminate.
  - intros e e' c rs i t P W Hi. destruct c; inversion W; subst. destruct P as [P1 P2].
    destruct (sc_write_other t P1 Hi) as (g1 & E & P3). simpl. rewrite E. simpl. eexists; split; [reflexivity|].
    split; auto.
Qed.

Lemma ws_data {T} p d (e : ws_ensemble T) c rs e' rs' : holds d (ws_graph e) -> ws_do p e c rs = Done (e', rs') ->
  holds (after plain_writes d c) (ws_graph e').
Proof.
  intros H E. destruct (plain_writes c) as [[i t]|] eqn:W.
  - destruct c; inversion W; subst. simpl in E. destruct (at_mut_set _ i t) eqn:Eg; simpl in E; try discriminate.
    injection E as <- <-. exact (wc_holds_write H Eg).
  - apply holds_ext with d; [intros i; unfold after; rewrite W; auto|].
    assert (P : ws_like (length (vertices (ws_graph e))) (is d) e e) by (split; [apply wc_holds_self; auto|auto]).
    assert (Q : plain_call_like (is d) c c) by (destruct c; simpl; auto; discriminate).
    destruct (both_done (both_ws_do p rs P Q) E) as ([e1 r1] & _ & [P1 _]). exact (wc_self_holds (proj1 P1)).
Qed.

Lemma ws_without {T} p n : forall l (e e' : ws_ensemble T) rs, ws_like n any e e' -> writes_in plain_writes n l ->
  both (drawn (ws_like n any)) (program (ws_do p) (e, rs) l) (program (ws_do p) (e', rs) (without plain_writes l)).
Proof.
  apply program_without.
  - intros e e' c rs P W. apply both_ws_do; auto. destruct c; simpl; auto; discriminate.
  - intros e e' c rs i t P W Hi. destruct c; inversion W; subst. destruct P as [P1 P2].
    destruct (wc_write_other t P1 Hi) as (g1 & E & P3). simpl. rewrite E. simpl. eexists; split; [reflexivity|].
    split; auto.
Qed.

Lemma sp_data {T} p d (e : spacial T) c rs e' rs' : holds d (sp_graph e) -> sp_do p e c rs = Done (e', rs') ->
  holds (after sp_writes d c) (sp_graph e').
Proof.
  intros H E. destruct (sp_writes c) as [[i t]|] eqn:W.
  - destruct c; inversion W; subst. simpl in E. destruct (at_mut_set _ i t) eqn:Eg; simpl in E; try discriminate.
    injection E as <- <-. exact (spc_holds_write H Eg).
  - apply holds_ext with d; [intros i; unfold after; rewrite W; auto|].
    assert (P : sp_like (length (vertices (sp_graph e))) (is d) e e) by (split; [apply spc_holds_self; auto|auto]).
    assert (Q : sp_call_like (is d) c c) by (destruct c; simpl; auto; discriminate).
    destruct (both_done (both_sp_do p rs P Q) E) as ([e1 r1] & _ & [P1 _]). exact (spc_self_holds (proj1 P1)).
Qed.

Lemma sp_without {T} p n : forall l (e e' : spacial T) rs, sp_like n any e e' -> writes_in sp_writes n l ->
  both (drawn (sp_like n any)) (program (sp_do p) (e, rs) l) (program (sp_do p) (e', rs) (without sp_writes l)).
Proof.
  apply program_without.
  - intros e e' c rs P W. apply both_sp_do; auto. destruct c; simpl; auto; discriminate.
  - intros e e' c rs i t P W Hi. destruct c; inversion W; subst. destruct P as [P1 P2].
    destruct (spc_write_other t P1 Hi) as (g1 & E & P3). simpl. rewrite E. simpl. eexists; split; [reflexivity|].
    split; auto.
Qed.

Lemma ba_data {T} p d ds (e : ba T) c rs e' rs' : holds d (ba_graph e) /\ holds ds (ba_source e) ->
  ba_do p e c rs = Done (e', rs') -> holds (after plain_writes d c) (ba_graph e') /\ holds ds (ba_source e').
Proof.
  intros [H S] E. destruct (plain_writes c) as [[i t]|] eqn:W.
  - destruct c; inversion W; subst. simpl in E. destruct (at_mut_set _ i t) eqn:Eg; simpl in E; try discriminate.
    injection E as <- <-. split; [|exact S]. exact (nc_holds_write H Eg).
  - assert (P : ba_like (length (vertices (ba_graph e))) (is d) (length (vertices (ba_source e))) (is ds) e e)
      by (split; [apply nc_holds_self; auto|split; [apply nc_holds_self; auto|auto]]).
    assert (Q : plain_call_like (is d) c c) by (destruct c; simpl; auto; discriminate).
    destruct (both_done (both_ba_do p rs P Q) E) as ([e1 r1] & _ & [P1 _]). simpl in P1. destruct P1 as (P1 & P2 & _).
    split; [|exact (nc_self_holds P1)].
    apply holds_ext with d; [intros i; unfold after; rewrite W; auto|]. exact (nc_self_holds P2).
Qed.

Lemma ba_without {T} p n k : forall l (e e' : ba T) rs, ba_like n any k any e e' -> writes_in plain_writes n l ->
  both (drawn (ba_like n any k any)) (program (ba_do p) (e, rs) l) (program (ba_do p) (e', rs) (without plain_writes l)).
Proof.
  apply program_without.
  - intros e e' c rs P W. apply both_ba_do; auto. destruct c; simpl; auto; discriminate.
  - intros e e' c rs i t P W Hi. destruct c; inversion W; subst. destruct P as (P0 & P1 & P2).
    destruct (nc_write_other t P1 Hi) as (g1 & E & P3). simpl. rewrite E. simpl. eexists; split; [reflexivity|].
    split; auto.
Qed.

(** ** More constructors *)

Lemma both_sw_distance {T T'} (R : nat -> T -> T' -> Prop) N p mk mk' k q rs : (forall i, R i (mk i) (mk' i)) ->
  both (res_like (drawn (sw_like N R))) (sw_new_with_distance p mk N k q rs) (sw_new_with_distance p mk' N k q rs).
Proof.
  intros H. unfold sw_new_with_distance.
  eapply both_bind; [apply (both_init_ring (K := sc_alike R) (N := N)), (like_graph_new (K := sc_alike R)); exact H|].
  intros [r g] [r' g'] [E G]; simpl in E, G; subst r'. destruct r; [|fin].
  eapply both_bind; [apply (both_sw_randomize (R := R) (N := N)); fin|]. intros; simpl; auto.
Qed.

Lemma both_cm_from {T T'} (R : nat -> T -> T' -> Prop) p mk mk' v rs : (forall i, R i (mk i) (mk' i)) ->
  both (opt_like (drawn (cm_like (length v) R))) (cm_from_vec p mk v rs) (cm_from_vec p mk' v rs).
Proof.
  intros H. unfold cm_from_vec. destruct (degree_vec_is_valid v); [|fin].
  eapply both_bind; [apply (both_cm_new (R := R) (N := length v)); [reflexivity|exact H]|]. intros; simpl; auto.
Qed.

Lemma both_cm_const {T T'} (R : nat -> T -> T' -> Prop) p mk mk' k n rs : (forall i, R i (mk i) (mk' i)) ->
  both (opt_like (drawn (cm_like n R))) (cm_from_const p mk k n rs) (cm_from_const p mk' k n rs).
Proof.
  intros H. unfold cm_from_const. alike; [fin|].
  eapply both_bind; [apply (both_cm_new (R := R) (N := n)); [apply repeat_length|exact H]|]. intros; simpl; auto.
Qed.

(** Runs of [DogEnsemble::randomize]. *)
Lemma both_dog_runs {T T'} (R : nat -> T -> T' -> Prop) N p k e e' rs : dog_like N R e e' ->
  both (drawn (dog_like N R)) (foldM (fun s _ => dog_randomize p (fst s) (snd s)) (e, rs) (seq 0 k))
    (foldM (fun s _ => dog_randomize p (fst s) (snd s)) (e', rs) (seq 0 k)).
Proof.
  intros H. apply both_foldM_same; [|split; auto]. intros [x r] [x' r'] _ [Hx Er]; simpl in *; subst.
  apply both_dog_randomize; auto.
Qed.

Lemma dog_data {T} p d k (e : dog T) rs e' rs' : holds d (dog_graph e) ->
  foldM (fun s _ => dog_randomize p (fst s) (snd s)) (e, rs) (seq 0 k) = Done (e', rs') -> holds d (dog_graph e').
Proof.
  intros H E.
  assert (P : dog_like (length (vertices (dog_graph e))) (is d) e e) by (split; [apply spc_holds_self; auto|auto]).
  destruct (both_done (both_dog_runs p k rs P) E) as ([e1 r1] & _ & [P1 _]). exact (spc_self_holds (proj1 P1)).
Qed.
