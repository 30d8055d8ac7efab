(** The data of the vertices are carried along and never looked at: rules for pairs of runs,
    generic graphs, and the ensembles on [NodeContainer]. *)
From Verif Require Import Base BaseFacts Containers Graph GraphFacts Traversal Components Rng ErC ErM Sw Ws Config Ba Spacial Dog SafeSpec PayloadSpec.
From Coq Require Import QArith.
Set Implicit Arguments.
Unset Strict Implicit.
Local Open Scope nat_scope.

(** ** Rules *)

Lemma both_bind {X X' Y Y'} (P : X -> X' -> Prop) (Q : Y -> Y' -> Prop) m m' (f : X -> outcome Y) f' :
  both P m m' -> (forall x x', P x x' -> both Q (f x) (f' x')) -> both Q (bind m f) (bind m' f').
Proof. destruct m, m'; simpl; intros H K; auto; contradiction. Qed.

Lemma both_refl {X Y Y'} (Q : Y -> Y' -> Prop) (m : outcome X) f f' :
  (forall x, both Q (f x) (f' x)) -> both Q (bind m f) (bind m f').
Proof. destruct m; simpl; auto. Qed.

Lemma both_eq {X} (m : outcome X) : both eq m m.
Proof. destruct m; simpl; auto. Qed.

Lemma both_weaken {X X'} (P Q : X -> X' -> Prop) m m' :
  (forall x x', P x x' -> Q x x') -> both P m m' -> both Q m m'.
Proof. destruct m, m'; simpl; auto. Qed.

Lemma both_foldM {X X' S S'} (P : S -> S' -> Prop) (Q : X -> X' -> Prop)
  (f : S -> X -> outcome S) (f' : S' -> X' -> outcome S') l l' s s' :
  (forall s s' x x', P s s' -> Q x x' -> both P (f s x) (f' s' x')) ->
  Forall2 Q l l' -> P s s' -> both P (foldM f s l) (foldM f' s' l').
Proof.
  intros H F. revert s s'. induction F as [|x x' l l' q F IH]; intros s s' p; simpl; auto.
  apply both_bind with (P := P); auto.
Qed.

Lemma Forall2_eq {X} (l : list X) : Forall2 eq l l.
Proof. induction l; auto. Qed.

Lemma both_foldM_same {X S S'} (P : S -> S' -> Prop) (f : S -> X -> outcome S) (f' : S' -> X -> outcome S') l s s' :
  (forall s s' x, P s s' -> both P (f s x) (f' s' x)) -> P s s' -> both P (foldM f s l) (foldM f' s' l).
Proof.
  intros H p. apply both_foldM with (Q := eq); auto using Forall2_eq.
  intros ? ? ? ? ? <-; auto.
Qed.

Lemma both_mapM {X X' Y Y'} (P : X -> X' -> Prop) (Q : Y -> Y' -> Prop) (f : X -> outcome Y) (f' : X' -> outcome Y') l l' :
  (forall x x', P x x' -> both Q (f x) (f' x')) -> Forall2 P l l' -> both (Forall2 Q) (mapM f l) (mapM f' l').
Proof.
  intros H F. induction F as [|x x' l l' q F IH]; simpl; auto.
  apply both_bind with (P := Q); auto. intros z z' r.
  apply both_bind with (P := Forall2 Q); auto. intros; simpl; auto.
Qed.

Lemma both_loop {St St' X X'} (P : St -> St' -> Prop) (Q : X -> X' -> Prop) body body' fuel (s : St) (s' : St') rs :
  (forall s s' rs, P s s' ->
     both (drawn (fun a b => match a, b with inl x, inl y => P x y | inr x, inr y => Q x y | _, _ => False end))
       (body s rs) (body' s' rs)) ->
  P s s' -> both (drawn Q) (loop fuel body s rs) (loop fuel body' s' rs).
Proof.
  intros H. revert s s' rs. induction fuel as [|f IH]; simpl; intros s s' rs p; auto.
  eapply both_bind; [apply H; exact p|].
  intros [a ra] [b rb] [K E]. simpl in K, E. subst rb.
  destruct a, b; try contradiction; auto. simpl; split; auto.
Qed.

Lemma both_vget {X X'} (L : X -> X' -> Prop) l l' i : Forall2 L l l' -> both L (vget l i) (vget l' i).
Proof.
  unfold vget. intros F. revert i. induction F; destruct i; simpl; auto.
Qed.

Lemma Forall2_upd {X X'} (L : X -> X' -> Prop) l l' i x x' :
  Forall2 L l l' -> L x x' -> Forall2 L (upd l i x) (upd l' i x').
Proof. intros F. revert i. induction F; destruct i; simpl; auto. Qed.

Lemma Forall2_len {X X'} (L : X -> X' -> Prop) l l' : Forall2 L l l' -> length l = length l'.
Proof. induction 1; simpl; auto. Qed.

Lemma Forall2_nth {X X'} (L : X -> X' -> Prop) l l' i : Forall2 L l l' -> opt_like L (nth_error l i) (nth_error l' i).
Proof. intros F. revert i. induction F; destruct i; simpl; auto. Qed.

Lemma Forall2_mapped {X X' Y Y'} (L : X -> X' -> Prop) (M : Y -> Y' -> Prop) f f' l l' :
  (forall x x', L x x' -> M (f x) (f' x')) -> Forall2 L l l' -> Forall2 M (map f l) (map f' l').
Proof. intros H. induction 1; simpl; auto. Qed.

Lemma map_alike {X X' Y} (L : X -> X' -> Prop) (f : X -> Y) f' l l' :
  (forall x x', L x x' -> f x = f' x') -> Forall2 L l l' -> map f l = map f' l'.
Proof. intros H. induction 1; simpl; auto. f_equal; auto. Qed.

Lemma both_assoc {X X' Y Y' Z Z'} (Q : Z -> Z' -> Prop) (m : outcome X) (m' : outcome X') (f : X -> outcome Y) (f' : X' -> outcome Y') g g' :
  both Q (bind m (fun x => bind (f x) g)) (bind m' (fun x => bind (f' x) g')) ->
  both Q (bind (bind m f) g) (bind (bind m' f') g').
Proof. destruct m, m'; simpl; auto. Qed.

(** *** Aligned lists *)

Lemma nth_error_ext_ {X} (l l' : list X) : (forall i, nth_error l i = nth_error l' i) -> l = l'.
Proof.
  revert l'. induction l as [|x l IH]; intros [|x' l'] H; auto.
  - specialize (H 0); discriminate.
  - specialize (H 0); discriminate.
  - pose proof (H 0) as H0. injection H0 as <-. f_equal. apply IH. intros i. apply (H (S i)).
Qed.


Lemma aligned_both {X X'} n (L : nat -> X -> X' -> Prop) l l' i : aligned n L l l' -> both (L i) (vget l i) (vget l' i).
Proof.
  intros (N & N' & F). unfold vget.
  destruct (nth_error l i) eqn:E, (nth_error l' i) eqn:E'; simpl; eauto.
  - apply nth_error_None in E'. assert (nth_error l i <> None) by congruence. apply nth_error_Some in H. lia.
  - apply nth_error_None in E. assert (nth_error l' i <> None) by congruence. apply nth_error_Some in H. lia.
Qed.

Lemma aligned_nth {X X'} n (L : nat -> X -> X' -> Prop) l l' i : aligned n L l l' -> opt_like (L i) (nth_error l i) (nth_error l' i).
Proof.
  intros H. pose proof (aligned_both i H) as B. unfold vget in B.
  destruct (nth_error l i), (nth_error l' i); simpl in *; auto.
Qed.

Lemma upd_length_ {X} (l : list X) i x : length (upd l i x) = length l.
Proof. revert i. induction l; destruct i; simpl; auto. Qed.

Lemma nth_upd {X} (l : list X) i x j y : nth_error (upd l i x) j = Some y -> (j = i /\ y = x) \/ (j <> i /\ nth_error l j = Some y).
Proof.
  revert i j. induction l as [|a l IH]; intros [|i] [|j]; simpl; try discriminate; auto.
  - intros [= <-]; auto.
  - intros H. destruct (IH _ _ H) as [[-> ->]|[]]; auto.
Qed.

Lemma aligned_upd {X X'} n (L : nat -> X -> X' -> Prop) l l' i x x' :
  aligned n L l l' -> L i x x' -> aligned n L (upd l i x) (upd l' i x').
Proof.
  intros (N & N' & F) H. unfold aligned. rewrite !upd_length_. splits; auto.
  intros j a a' E E'. apply nth_upd in E, E'.
  destruct E as [[-> ->]|[? E]], E' as [[? ->]|[? E']]; subst; auto; try contradiction; eauto.
Qed.

Lemma aligned_map {X X' Y Y'} n (L : nat -> X -> X' -> Prop) (M : nat -> Y -> Y' -> Prop) f f' l l' :
  (forall i x x', L i x x' -> M i (f x) (f' x')) -> aligned n L l l' -> aligned n M (map f l) (map f' l').
Proof.
  intros H (N & N' & F). unfold aligned. rewrite !map_length. splits; auto.
  intros i a a'. rewrite !nth_error_map. destruct (nth_error l i) eqn:E, (nth_error l' i) eqn:E'; simpl; try discriminate.
  intros [= <-] [= <-]. eauto.
Qed.

Lemma aligned_alike {X X' Y} n (L : nat -> X -> X' -> Prop) (f : X -> Y) f' l l' :
  (forall i x x', L i x x' -> f x = f' x') -> aligned n L l l' -> map f l = map f' l'.
Proof.
  intros H (N & N' & F). apply nth_error_ext_. intros i. rewrite !nth_error_map.
  pose proof (aligned_nth i (conj N (conj N' F))) as K.
  destruct (nth_error l i), (nth_error l' i); simpl in *; try contradiction; auto. f_equal; eauto.
Qed.

Lemma aligned_tail {X X'} n (L : nat -> X -> X' -> Prop) x x' l l' :
  aligned (S n) L (x :: l) (x' :: l') -> L 0 x x' /\ aligned n (fun i => L (S i)) l l'.
Proof.
  intros (N & N' & F). simpl in N, N'. split; [apply F; auto|]. unfold aligned. splits; auto.
Qed.

Lemma aligned_cons {X X'} n (L : nat -> X -> X' -> Prop) x x' l l' :
  L 0 x x' -> aligned n (fun i => L (S i)) l l' -> aligned (S n) L (x :: l) (x' :: l').
Proof.
  intros H (N & N' & F). unfold aligned; simpl. splits; auto.
  intros [|i] a a'; simpl; [intros [= <-] [= <-]; auto|apply F].
Qed.

Lemma aligned_nil {X X'} (L : nat -> X -> X' -> Prop) : aligned 0 L [] [].
Proof. unfold aligned; splits; auto. intros [|i]; simpl; discriminate. Qed.

Lemma both_mapM_at {X X' Y Y'} n (P : nat -> X -> X' -> Prop) (Q : nat -> Y -> Y' -> Prop) (f : X -> outcome Y) (f' : X' -> outcome Y') l l' :
  (forall i x x', P i x x' -> both (Q i) (f x) (f' x')) -> aligned n P l l' -> both (aligned n Q) (mapM f l) (mapM f' l').
Proof.
  revert n P Q l'. induction l as [|x l IH]; intros n P Q [|x' l'] H K; pose proof K as (N & N' & _); simpl in N, N'; subst n; try discriminate; simpl.
  - apply aligned_nil.
  - apply aligned_tail in K as [K0 K]. apply both_bind with (P := Q 0); auto. intros z z' r.
    eapply both_bind; [apply (IH _ _ (fun i => Q (S i)) _ (fun i => H (S i)) K)|].
    intros; simpl. apply aligned_cons; auto.
Qed.

Lemma aligned_seq {X X'} (L : nat -> X -> X' -> Prop) f f' n :
  (forall i, L i (f i) (f' i)) -> aligned n L (map f (seq 0 n)) (map f' (seq 0 n)).
Proof.
  intros H. unfold aligned. rewrite !map_length, !seq_length. splits; auto.
  intros i a a'. rewrite !nth_error_map. destruct (nth_error (seq 0 n) i) eqn:E; simpl; try discriminate.
  assert (i < n) by (rewrite <- (seq_length n 0); apply nth_error_Some; congruence).
  rewrite (nth_error_nth' _ 0) in E by (rewrite seq_length; auto). rewrite seq_nth in E by auto.
  injection E as <-. intros [= <-] [= <-]; auto.
Qed.

(** The cases of two runs that look alike. *)
Ltac alike :=
  repeat first
    [ progress cbv beta zeta
    | match goal with
      | |- both _ (bind ?m _) (bind ?m _) => apply both_refl; intros
      | |- both _ (bind (bind ?m _) _) (bind (bind ?m _) _) => apply both_assoc
      | |- both _ (bind (Done _) _) (bind (Done _) _) => simpl bind
      | |- both _ (if ?b then _ else _) (if ?b then _ else _) => destruct b
      | |- both _ (match ?x with _ => _ end) (match ?x with _ => _ end) => destruct x
      | |- both _ Panic Panic => exact I
      | |- both _ UB UB => exact I
      | |- both _ NoFuel NoFuel => exact I
      end ].

(** ** Containers *)

(** What [AdjContainer] functions do to containers that agree in all but the data. *)
Class AdjLike {T A T' A'} (C : AdjContainer T A) (C' : AdjContainer T' A')
  (R : nat -> T -> T' -> Prop) (L : nat -> A -> A' -> Prop) : Prop := {
  al_new : forall i t t', R i t t' -> L i (ac_new i t) (ac_new i t');
  al_contained : forall i a a', L i a a' -> R i (ac_contained a) (ac_contained a');
  al_set : forall i a a' t t', L i a a' -> R i t t' -> L i (ac_set_contained a t) (ac_set_contained a' t');
  al_neighbors : forall i a a', L i a a' -> ac_neighbors a = ac_neighbors a';
  al_degree : forall i a a', L i a a' -> ac_degree a = ac_degree a';
  al_id : forall i a a', L i a a' -> ac_id a = ac_id a';
  al_sort : forall i a a', L i a a' -> both (L i) (ac_sort_adj a) (ac_sort_adj a');
  al_clear : forall i a a', L i a a' -> L i (ac_clear_edges a) (ac_clear_edges a');
  al_push : forall i j a a' b b', L i a a' -> L j b b' ->
    both (res_like (fun x y => L i (fst x) (fst y) /\ L j (snd x) (snd y))) (ac_push a b) (ac_push a' b');
  al_remove : forall i j a a' b b', L i a a' -> L j b b' ->
    both (res_like (fun x y => L i (fst x) (fst y) /\ L j (snd x) (snd y))) (ac_remove a b) (ac_remove a' b')
}.

Ltac open_like :=
  repeat match goal with
  | c : node_container _ |- _ => destruct c as [? ? ?]
  | c : sw_container _ |- _ => destruct c as [? ? ?]
  | c : ws_container _ |- _ => destruct c as [? ? ? ?]
  | c : spacial_container _ _ |- _ => destruct c as [? ? ? ?]
  | H : nc_like _ _ _ |- _ => destruct H as (? & ? & ?)
  | H : sc_like _ _ _ |- _ => destruct H as (? & ? & ?)
  | H : wc_like _ _ _ |- _ => destruct H as (? & ? & ? & ?)
  | H : spc_like _ _ _ |- _ => destruct H as (? & ? & ? & ?)
  end; simpl in *; subst.

Ltac close_like :=
  simpl; unfold nc_like, sc_like, wc_like, spc_like; simpl; auto 10.

Global Instance nc_alike {T T'} (R : nat -> T -> T' -> Prop) : AdjLike (NodeContainer T) (NodeContainer T') R (fun i => nc_like (R i)).
Proof.
  constructor; simpl; intros; open_like; try solve [close_like].
  - unfold nc_push; simpl. alike; simpl; auto. split; close_like.
  - unfold nc_remove, nc_swap_remove_element; simpl. alike; simpl; auto. alike; simpl; auto.
    split; close_like.
Qed.

Global Instance sc_alike {T T'} (R : nat -> T -> T' -> Prop) : AdjLike (SwContainer T) (SwContainer T') R (fun i => sc_like (R i)).
Proof.
  constructor; simpl; intros; open_like; try solve [close_like].
  - unfold sc_push, sc_is_adjacent, sc_neighbors; simpl. alike; simpl; auto. split; close_like.
  - unfold sc_remove, sc_swap_remove_element, sc_is_adjacent, sc_adj_position, sc_neighbors; simpl.
    alike; simpl; auto. alike; simpl; auto. split; close_like.
Qed.

Global Instance wc_alike {T T'} (R : nat -> T -> T' -> Prop) : AdjLike (WSContainer T) (WSContainer T') R (fun i => wc_like (R i)).
Proof.
  constructor; simpl; intros; open_like; try solve [close_like].
  - unfold wc_sort_adj; simpl. alike; close_like.
  - unfold wc_push; simpl. alike; simpl; auto. split; close_like.
  - unfold wc_remove, wc_swap_remove_elem; simpl. alike; simpl; auto. alike; simpl; auto.
    split; close_like.
Qed.

Global Instance spc_alike {P T T'} (R : nat -> T -> T' -> Prop) :
  AdjLike (SpacialContainer P T) (SpacialContainer P T') R (fun i => spc_like (R i)).
Proof.
  constructor; simpl; intros; open_like; try solve [close_like].
  - unfold spc_push; simpl. alike; simpl; auto. split; close_like.
  - unfold spc_remove, spc_swap_remove_element; simpl. alike; simpl; auto. alike; simpl; auto.
    split; close_like.
Qed.

(** ** Generic graphs *)

Section Generic.
Context {T A T' A' : Type} {C : AdjContainer T A} {C' : AdjContainer T' A'}.
Context {R : nat -> T -> T' -> Prop} {L : nat -> A -> A' -> Prop} {K : AdjLike C C' R L}.
Context {N : nat}.

Notation GL := (graph_like N L).

Lemma like_intro n m vs vs' : aligned N L vs vs' -> GL (mk_graph n m vs) (mk_graph n m vs').
Proof. intros F; unfold graph_like; simpl; auto. Qed.

Lemma like_count g g' : GL g g' -> vertex_count g = vertex_count g'.
Proof. intros (E & _); exact E. Qed.

Lemma like_graph_new mk mk' : (forall i, R i (mk i) (mk' i)) -> GL (graph_new mk N) (graph_new mk' N).
Proof. intros H. apply like_intro, aligned_seq. intros; apply al_new; auto. Qed.

Lemma like_clear g g' : GL g g' -> GL (clear_edges g) (clear_edges g').
Proof.
  intros (E1 & E2 & F). unfold clear_edges. rewrite <- E2. destruct (edge_count g =? 0) eqn:Z.
  - unfold graph_like; auto.
  - rewrite <- E1. apply like_intro. eapply aligned_map; [|exact F]. intros; apply al_clear; auto.
Qed.

Lemma both_sort g g' : GL g g' -> both GL (sort_adj g) (sort_adj g').
Proof.
  intros (E1 & E2 & F). unfold sort_adj. rewrite <- E1, <- E2.
  eapply both_bind; [eapply both_mapM_at; [|exact F]; intros; apply al_sort; eauto|].
  intros; simpl. apply like_intro; auto.
Qed.

Lemma both_container g g' i : GL g g' -> both (L i) (container g i) (container g' i).
Proof. intros (_ & _ & F). apply aligned_both with (1 := F). Qed.

Lemma both_write g g' i t t' : GL g g' -> R i t t' -> both GL (at_mut_set g i t) (at_mut_set g' i t').
Proof.
  intros G r. pose proof G as (E1 & E2 & F). unfold at_mut_set.
  eapply both_bind; [apply both_container; exact G|]. intros c c' l; simpl.
  rewrite <- E1, <- E2. apply like_intro. apply aligned_upd; auto. apply al_set; auto.
Qed.

Lemma both_get_2 p g g' i j : GL g g' ->
  both (fun x y => L i (fst x) (fst y) /\ L j (snd x) (snd y)) (get_2_mut p g i j) (get_2_mut p g' i j).
Proof.
  intros (E1 & E2 & F). unfold get_2_mut. rewrite <- E1.
  pose proof (aligned_nth i F) as H1. pose proof (aligned_nth j F) as H2.
  assert (B : both (fun x y => L i (fst x) (fst y) /\ L j (snd x) (snd y))
    (match nth_error (vertices g) i, nth_error (vertices g) j with
     | Some a, Some b => if i =? j then UB else Done (a, b) | _, _ => UB end)
    (match nth_error (vertices g') i, nth_error (vertices g') j with
     | Some a, Some b => if i =? j then UB else Done (a, b) | _, _ => UB end)).
  { destruct (nth_error (vertices g) i), (nth_error (vertices g') i); try contradiction; simpl; auto.
    destruct (nth_error (vertices g) j), (nth_error (vertices g') j); try contradiction; simpl; auto.
    destruct (i =? j); simpl; auto. }
  destruct p; auto. destruct (_ && _); simpl; auto.
Qed.

Lemma like_put g g' n m i j a b a' b' : GL g g' -> L i a a' -> L j b b' ->
  GL (mk_graph n m (put_2 (vertices g) i j a b)) (mk_graph n m (put_2 (vertices g') i j a' b')).
Proof. intros (_ & _ & F) H1 H2. apply like_intro. unfold put_2. auto using aligned_upd. Qed.

Lemma both_add_edge p g g' i j : GL g g' -> both (told GL) (add_edge p g i j) (add_edge p g' i j).
Proof.
  intros G. unfold add_edge. eapply both_bind; [apply both_get_2; exact G|].
  intros [a b] [a' b'] [H1 H2]; simpl in H1, H2.
  eapply both_bind; [eapply al_push; [exact H1|exact H2]|].
  intros [[x y]|e] [[x' y']|e']; simpl; try contradiction.
  - intros [K1 K2]. split; simpl; auto. destruct G as (E1 & E2 & F). rewrite <- E1, <- E2.
    apply like_put; auto. unfold graph_like; auto.
  - intros <-. split; auto.
Qed.

Lemma both_remove_edge p g g' i j : GL g g' -> both (told GL) (remove_edge p g i j) (remove_edge p g' i j).
Proof.
  intros G. unfold remove_edge. eapply both_bind; [apply both_get_2; exact G|].
  intros [a b] [a' b'] [H1 H2]; simpl in H1, H2.
  eapply both_bind; [eapply al_remove; [exact H1|exact H2]|].
  intros [[x y]|e] [[x' y']|e']; simpl; try contradiction.
  - intros [K1 K2]. pose proof G as (E1 & E2 & F). rewrite <- E2. apply both_refl. intros ec.
    split; simpl; auto. rewrite <- E1. apply like_put; auto.
  - intros <-. split; auto.
Qed.

Lemma both_add_edges p l g g' : GL g g' -> both (told GL) (add_edges_try p g l) (add_edges_try p g' l).
Proof.
  revert g g'. induction l as [|[i j] l IH]; intros g g' G; simpl.
  - split; auto.
  - eapply both_bind; [apply both_add_edge; exact G|].
    intros [r g1] [r' g1'] [E H]; simpl in E, H. subst r'. destruct r; auto. split; auto.
Qed.

Lemma both_init_ring p g g' d : GL g g' -> both (told GL) (init_ring p g d) (init_ring p g' d).
Proof.
  intros G. unfold init_ring. rewrite (like_count (like_clear G)). apply both_add_edges, like_clear, G.
Qed.

Lemma like_degrees g g' : GL g g' -> degree_vec g = degree_vec g'.
Proof. intros (_ & _ & F). unfold degree_vec. eapply aligned_alike; [|exact F]. intros; eapply al_degree; eauto. Qed.

Lemma like_degree g g' i : GL g g' -> degree g i = degree g' i.
Proof.
  intros (_ & _ & F). unfold degree. pose proof (aligned_nth i F) as H.
  destruct (nth_error (vertices g) i), (nth_error (vertices g') i); try contradiction; simpl; auto.
  f_equal; eapply al_degree; eauto.
Qed.

(** *** Walks *)

Lemma both_drain {S I I'} (P : S -> S -> Prop) (Q : I -> I' -> Prop) next next' fuel (s s' : S) :
  (forall s s', P s s' -> both (opt_like (fun x y => Q (fst x) (fst y) /\ P (snd x) (snd y))) (next s) (next' s')) ->
  P s s' -> both (Forall2 Q) (drain next fuel s) (drain next' fuel s').
Proof.
  intros H. revert s s'. induction fuel as [|f IH]; simpl; intros s s' p; auto.
  eapply both_bind; [apply H; exact p|].
  intros [[x y]|] [[x' y']|]; simpl; try contradiction; auto.
  intros [q p']. eapply both_bind; [apply IH; exact p'|]. intros; simpl; auto.
Qed.

Lemma both_dfs_index g g' s : GL g g' ->
  both (opt_like (fun x y => (fst (fst x) = fst (fst y) /\ R (fst (fst x)) (snd (fst x)) (snd (fst y))) /\ snd x = snd y))
    (dfs_index_next g s) (dfs_index_next g' s).
Proof.
  intros (_ & _ & F). unfold dfs_index_next. destruct (dfs_stack s) as [|i rest]; simpl; auto.
  eapply both_bind; [eapply aligned_both; exact F|]. intros c c' l.
  rewrite <- (al_neighbors l). apply both_refl. intros [h new]; simpl. splits; auto. apply al_contained; auto.
Qed.

Lemma both_dfs g g' s : GL g g' ->
  both (opt_like (fun x y => (exists i, R i (fst x) (fst y)) /\ snd x = snd y)) (dfs_next g s) (dfs_next g' s).
Proof.
  intros (_ & _ & F). unfold dfs_next. destruct (dfs_stack s) as [|i rest]; simpl; auto.
  eapply both_bind; [eapply aligned_both; exact F|]. intros c c' l.
  rewrite <- (al_neighbors l). apply both_refl. intros [h new]; simpl. split; auto. exists i. apply al_contained; auto.
Qed.

Lemma both_dfs_index_all g g' i : GL g g' ->
  both (Forall2 (fun x y => fst x = fst y /\ R (fst x) (snd x) (snd y))) (dfs_index_all g i) (dfs_index_all g' i).
Proof.
  intros G. unfold dfs_index_all, dfs_new. rewrite <- (like_count G).
  eapply both_drain with (P := eq); auto. intros s s' <-. eapply both_weaken; [|apply both_dfs_index; exact G].
  intros [x|] [y|]; simpl; auto.
Qed.

Lemma both_dfs_all g g' i : GL g g' -> both (Forall2 (fun t t' => exists i, R i t t')) (dfs_all g i) (dfs_all g' i).
Proof.
  intros G. unfold dfs_all, dfs_new. rewrite <- (like_count G).
  eapply both_drain with (P := eq); auto. intros s s' <-. apply both_dfs; auto.
Qed.

Lemma both_is_connected g g' : GL g g' -> both eq (is_connected g) (is_connected g').
Proof.
  intros G. unfold is_connected. rewrite <- (like_count G). alike; simpl; auto.
  eapply both_bind; [apply both_dfs_all; exact G|]. intros l l' F; simpl. rewrite (Forall2_len F). auto.
Qed.

Lemma both_label g g' ids i cur : GL g g' -> both eq (label_component g ids i cur) (label_component g' ids i cur).
Proof.
  intros G. unfold label_component. eapply both_bind; [apply both_dfs_index_all; exact G|].
  intros l l' F. eapply both_foldM; [|exact F|reflexivity].
  intros s s' x x' <- [E _]. rewrite E. apply both_eq.
Qed.

Lemma both_ids g g' : GL g g' -> both eq (connected_components_ids g) (connected_components_ids g').
Proof.
  intros G. unfold connected_components_ids. rewrite <- (like_count G).
  eapply both_bind with (P := eq); [apply both_foldM_same; auto|].
  - intros [ids cur] s' x <-. unfold ids_pass. alike; simpl; auto.
    eapply both_bind; [apply both_label; exact G|]. intros ? ? <-; simpl; auto.
  - intros [ids cur] s' <-; simpl; auto.
Qed.

Lemma both_suggest g g' : GL g g' -> both eq (suggest_connections g) (suggest_connections g').
Proof.
  intros G. unfold suggest_connections. rewrite <- (like_count G).
  eapply both_bind with (P := eq); [apply both_foldM_same; auto|].
  - intros [[sg ids] cur] s' x <-. unfold suggest_pass. alike; simpl; auto.
    eapply both_bind; [apply both_label; exact G|]. intros ? ? <-; simpl; auto.
  - intros [[sg ids] cur] s' <-; simpl; auto.
Qed.

End Generic.
