(** Theorems about dot output into writers, and about its variants. *)
From Coq Require Import String QArith.
From Verif Require Import Base BaseFacts Containers ContainerSpec ContainerFacts Graph GraphSpec GraphFacts Dot DotSpec DotFacts Spacial DotWriter DotWriterSpec DotWriterFacts Properties_Graph.
Local Open Scope string_scope.
Local Open Scope nat_scope.

(** ** C79: for every writer, failing or not, and every closure that makes labels.  What was
    written is a beginning of the drawing, and all of it for [Ok]; the closure was called
    for the vertices 0, 1, 2, ... in this order, once each, and for all of them for [Ok]. *)
Theorem C79_writer {T A : Type} {C : AdjContainer T A} {L : AdjLaws C} {W F : Type} :
  forall (write : W -> string -> W * bool) (content : W -> string)
    (g : graph A) opts (f : F -> nat -> A -> outcome (F * string)) (s s' : F) labels w,
  let f' := fun s ia => f s (fst ia) (snd ia) in
  let verts := combine (seq 0 (vertex_count g)) (vertices g) in
  writer_law write content -> simple_graph g ->
  calls f' s verts = Done (s', labels) ->
  exists E w' s1 ok, upper_edges g E /\
    w_dot_from_container_index write g w opts f s = Done (w', s1, ok) /\
    (ok = true -> content w' = (content w ++ drawing opts labels E)%string /\ s1 = s') /\
    (ok = false ->
       (exists p q, drawing opts labels E = (p ++ q)%string /\ content w' = (content w ++ p)%string) /\
       exists k ls, k <= vertex_count g /\ calls f' s (firstn k verts) = Done (s1, ls)).
Proof.
  intros write content g opts f s s' labels w f' verts Law Wg E.
  exists (upper g). unfold verts in *. rewrite <- (sg_len Wg), <- enumerate_combine in E.
  pose proof (emits_all Law opts (ix := fst) Wg
    ltac:(rewrite enumerate_indices, (sg_len Wg); reflexivity) E w) as (w' & s1 & ok & Em & p & q & Et & Cw & K).
  exists w', s1, ok. split; [apply upper_listed, Wg|]. split; [exact Em|].
  split; intros ->.
  - destruct K as [-> ->]. rewrite append_nil_r in Et. subst p. auto.
  - split; [eauto|]. rewrite <- (sg_len Wg), <- enumerate_combine. destruct K as (k & ls & Hk & Ek).
    exists k, ls. split; [|exact Ek].
    rewrite <- (map_length fst), enumerate_indices, seq_length in Hk. exact Hk.
Qed.
Print Assumptions C79_writer.

(** The functions that return a string: the same drawing of the same edges; only the
    closure differs.  They panic only if the closure does. *)
Theorem C79_strings {T A : Type} {C : AdjContainer T A} {L : AdjLaws C} :
  forall (g : graph A) opts, simple_graph g ->
  let n := vertex_count g in
  exists E, upper_edges g E /\
  (forall F (f : F -> nat -> A -> outcome (F * string)) s,
     dot_string_from_container_index g opts f s =
     do ' (s', labels) <- calls (fun s ia => f s (fst ia) (snd ia)) s (combine (seq 0 n) (vertices g));
     Done (drawing opts labels E, s')) /\
  (forall F (f : F -> A -> outcome (F * string)) s,
     dot_string_from_container g opts f s =
     do ' (s', labels) <- calls f s (vertices g); Done (drawing opts labels E, s')) /\
  (forall F (f : F -> nat -> T -> outcome (F * string)) s,
     dot_string_from_contained_index g opts f s =
     do ' (s', labels) <- calls (fun s it => f s (fst it) (snd it)) s (combine (seq 0 n) (payloads g));
     Done (drawing opts labels E, s')) /\
  (forall F (f : F -> T -> outcome (F * string)) s,
     dot_string_from_contained g opts f s =
     do ' (s', labels) <- calls f s (payloads g); Done (drawing opts labels E, s')) /\
  (forall F (f : F -> nat -> outcome (F * string)) s,
     dot_string_from_indices g opts f s =
     do ' (s', labels) <- calls f s (seq 0 n); Done (drawing opts labels E, s')) /\
  dot_string_with_indices g opts = Done (drawing opts (map show (seq 0 n)) E, tt) /\
  dot_string g opts = Done (drawing opts (repeat ""%string n) E, tt) /\
  (forall f : T -> nat -> string,
     to_dot_with_labels_from_contained g opts f =
     Done (drawing opts (map (fun it => f (snd it) (fst it)) (combine (seq 0 n) (payloads g))) E, tt)) /\
  (forall f : A -> nat -> string,
     to_dot_with_labels_from_container g opts f =
     Done (drawing opts (map (fun ia => f (snd ia) (fst ia)) (combine (seq 0 n) (vertices g))) E, tt)).
Proof.
  intros g opts W n. exists (upper g). split; [apply upper_listed, W|].
  assert (Lp : length (payloads g) = n) by (unfold payloads; rewrite map_length; apply (sg_len W)).
  assert (CI := fun F f s => @string_container_index T A C L F g opts f s W).
  assert (TI := fun F f s => @string_contained_index T A C L F g opts f s W).
  assert (II := fun F f s => @string_indices T A C L F g opts f s W).
  split; [exact CI|]. split.
  { intros F f s. pose proof (CI F (fun s _ a => f s a) s) as H. cbv beta in H.
    unfold dot_string_from_container. unfold dot_string_from_container_index in H.
    unfold w_dot_from_container. rewrite H.
    rewrite <- (snd_combine (vertices g) 0) at 2. rewrite (sg_len W), calls_map. reflexivity. }
  split; [exact TI|]. split.
  { intros F f s. pose proof (TI F (fun s _ a => f s a) s) as H. cbv beta in H.
    unfold dot_string_from_contained. unfold dot_string_from_contained_index in H.
    unfold w_dot_from_contained. rewrite H.
    rewrite <- (snd_combine (payloads g) 0) at 2. rewrite Lp, calls_map. reflexivity. }
  split; [exact II|]. split; [|split; [|split]].
  - pose proof (II unit (fun s i => Done (s, show i)) tt) as H. rewrite calls_pure in H. exact H.
  - pose proof (II unit (fun s _ => Done (s, ""%string)) tt) as H.
    rewrite (calls_pure (fun _ => ""%string)) in H.
    replace (repeat ""%string n) with (map (fun _ : nat => ""%string) (seq 0 n)); [exact H|].
    rewrite <- (seq_length n 0) at 2. induction (seq 0 n); cbn; congruence.
  - intros f. pose proof (TI unit (fun s i c => Done (s, f c i)) tt) as H.
    cbv beta in H. rewrite (calls_pure (fun it => f (snd it) (fst it))) in H. exact H.
  - intros f. pose proof (CI unit (fun s i c => Done (s, f c i)) tt) as H.
    cbv beta in H. rewrite (calls_pure (fun ia => f (snd ia) (fst ia))) in H. exact H.
Qed.
Print Assumptions C79_strings.

(** What the spacial ensembles write is the drawing of the graph, with the position of each
    vertex behind its label. *)
Theorem C79_spacial {T F : Type} : forall (fmt : option pos -> string) (g : sgraph T) opts
    (f : F -> nat -> outcome (F * string)) s,
  simple_graph g ->
  exists E, upper_edges g E /\
  to_string (fun w => w_spacial_dot_from_indices vec_write fmt g w opts f s) =
  do ' (s', labels) <- calls f s (seq 0 (vertex_count g));
  Done (drawing opts (map (fun lc => fst lc ++ quote ++ " pos=" ++ quote ++ fmt (spc_pos (snd lc)) ++ "!")%string
                        (combine labels (vertices g))) E, s').
Proof.
  intros fmt g opts f s W. exists (upper g). split; [apply upper_listed, W|].
  pose proof (@string_indices T _ _ _ F g opts (fun s i =>
    do ' (s', label) <- f s i;
    do c <- container g i;
    Done (s', (label ++ quote ++ " pos=" ++ quote ++ fmt (spc_pos c) ++ "!")%string)) s W) as H.
  unfold w_spacial_dot_from_indices. unfold dot_string_from_indices in H. rewrite H. clear H.
  rewrite <- (sg_len W).
  assert (G : forall l k s, (forall i c, nth_error l i = Some c -> nth_error (vertices g) (k + i) = Some c) ->
    calls (fun s i => do ' (s', label) <- f s i; do c <- container g i;
      Done (s', (label ++ quote ++ " pos=" ++ quote ++ fmt (spc_pos c) ++ "!")%string)) s (seq k (length l)) =
    do ' (s', labels) <- calls f s (seq k (length l));
    Done (s', map (fun lc => fst lc ++ quote ++ " pos=" ++ quote ++ fmt (spc_pos (snd lc)) ++ "!")%string
                (combine labels l))).
  { induction l as [|c l IH]; intros k s0 H; [reflexivity|]. cbn [length seq calls].
    destruct (f s0 k) as [[s1 y]| | |]; auto. cbn [bind].
    unfold container at 1, vget at 1. pose proof (H 0 c eq_refl) as H0. rewrite Nat.add_0_r in H0. rewrite H0.
    cbn [bind]. rewrite IH.
    - destruct (calls f s1 (seq (S k) (length l))) as [[s2 ys]| | |]; auto.
    - intros i c' Hi. rewrite Nat.add_succ_comm. apply H. exact Hi. }
  rewrite (G (vertices g) 0 s) by auto. destruct (calls f s (seq 0 (length (vertices g)))) as [[s2 ys]| | |]; auto.
Qed.
Print Assumptions C79_spacial.

(** A writer with room for so many characters: it writes what fits and fails if that is
    not all. *)
Fixpoint fits (room : nat) (text : string) : string * string :=
  match room, text with
  | S r, String c t => let '(p, q) := fits r t in (String c p, q)
  | _, _ => (""%string, text)
  end.
Definition short_write (w : string * nat) (text : string) : (string * nat) * bool :=
  let '(p, q) := fits (snd w) text in
  ((fst w ++ p, snd w - String.length p)%string, String.eqb q "").

Example short_law : writer_law short_write fst.
Proof.
  intros [w r] text. unfold short_write. cbn [fst snd].
  assert (H : text = (fst (fits r text) ++ snd (fits r text))%string).
  { revert text. induction r as [|r IH]; intros [|c t]; auto. cbn [fits].
    rewrite (IH t) at 1. destruct (fits r t). reflexivity. }
  destruct (fits r text) as [p q]. exists p, q. split; [exact H|]. split; [reflexivity|].
  apply String.eqb_eq.
Qed.

(** Labels from a counter. *)
Example C79_case :
  simple_graph ex_graph /\
  match dot_string_from_contained_index ex_graph "" (fun k i t => Done (k + 1, show (k + t))) 7 with
  | Done (text, k) => k = 12 /\ String.length text = 151
  | _ => False
  end /\
  match w_dot_from_indices short_write ex_graph (""%string, 30) "x" (fun k i => Done (k + 1, show k)) 7 with
  | Done (w, k, ok) => ok = false /\ k = 8 /\
      fst w = ("graph G{" ++ nl ++ tab ++ "x" ++ nl ++ tab ++ "0 1 2 3 4 ;" ++ nl ++ tab ++ quote ++ "0" ++ quote ++ " ")%string
  | _ => False
  end.
Proof. split; [apply ex_graph_simple|]. vm_compute. auto 20. Qed.
