(** Proofs about dot output into a writer. *)
From Coq Require Import String.
From Verif Require Import Base BaseFacts Containers ContainerSpec ContainerFacts Graph GraphSpec GraphFacts Dot DotSpec DotFacts Spacial DotWriter DotWriterSpec.
Set Implicit Arguments.
Unset Strict Implicit.
Local Open Scope string_scope.

Section Writer.
Context {W : Type} (write : W -> string -> W * bool) (content : W -> string)
  (Law : writer_law write content).

(** [m], from the state [s] of the closure, writes [text] and leaves the state [s']; if
    it is interrupted, the state satisfies [S]. *)
Definition emits {F} (m : W -> F -> @written W F) (s : F) (text : string) (s' : F) (S : F -> Prop) : Prop :=
  forall w, exists w' s1 ok, m w s = Done (w', s1, ok) /\
    exists p q, text = p ++ q /\ content w' = content w ++ p /\
      if ok : bool then q = "" /\ s1 = s' else S s1.

Lemma emits_put {F} (s : F) text : emits (fun w s => put write w s text) s text s (eq s).
Proof.
  intros w. unfold put. destruct (Law w text) as (p & q & E & Cw & Q).
  destruct (write w text) as [w' ok]. cbn [fst snd] in *. exists w', s, ok. split; [reflexivity|].
  exists p, q. destruct ok; auto.
Qed.

Lemma emits_weaken {F} (m : W -> F -> written F) s text s' (S S' : F -> Prop) :
  (forall x, S x -> S' x) -> emits m s text s' S -> emits m s text s' S'.
Proof.
  intros H M w. destruct (M w) as (w' & s1 & ok & E & p & q & Et & Cw & K).
  exists w', s1, ok. split; auto. exists p, q. destruct ok; auto.
Qed.

Lemma emits_then {F} (m : W -> F -> written F) k s text s1 text' s' (S : F -> Prop) :
  emits m s text s1 S -> emits k s1 text' s' S ->
  emits (fun w s => try_then (m w s) k) s (text ++ text') s' S.
Proof.
  intros M K w. unfold try_then. destruct (M w) as (w1 & t1 & ok & -> & p & q & Et & Cw & H).
  cbn [bind]. destruct ok.
  - destruct H as [-> ->]. rewrite append_nil_r in Et. subst p.
    destruct (K w1) as (w2 & t2 & ok & -> & p & q & Et & Cw2 & H).
    exists w2, t2, ok. split; auto. exists (text ++ p), q. subst text'.
    rewrite Cw2, Cw, !append_assoc. auto.
  - exists w1, t1, false. split; auto. exists p, (q ++ text'). subst text.
    rewrite append_assoc. auto.
Qed.

Lemma emits_nil {F} (s : F) S : emits (fun w s => Done (w, s, true)) s "" s S.
Proof.
  intros w. exists w, s, true. split; auto. exists "", "". rewrite (append_nil_r (content w)). auto.
Qed.

Lemma emits_loop {F X} (body : X -> W -> F -> written F) (f : X -> string) s l :
  (forall x, In x l -> emits (body x) s (f x) s (eq s)) ->
  emits (for_each body l) s (cat (map f l)) s (eq s).
Proof.
  induction l as [|x l IH]; intros H.
  - apply emits_nil.
  - cbn [map cat]. apply emits_then with (s1 := s); [apply H; left; auto|].
    apply IH. intros y Hy. apply H. right; auto.
Qed.

Section Generic.
Context {T A : Type} {C : AdjContainer T A} {L : AdjLaws C}.

Lemma emits_head {F} (g : graph A) opts (s : F) :
  emits (write_head write g opts) s
    ("graph G{" ++ nl ++ tab ++ opts ++ nl ++ tab ++ indices_text (vertex_count g) ++ ";" ++ nl) s (eq s).
Proof.
  unfold write_head.
  replace ("graph G{" ++ nl ++ tab ++ opts ++ nl ++ tab ++ indices_text (vertex_count g) ++ ";" ++ nl)
    with (("graph G{" ++ nl ++ tab ++ opts ++ nl ++ tab) ++ (indices_text (vertex_count g) ++ (";" ++ nl)))
    by (rewrite !append_assoc; reflexivity).
  apply emits_then with (s1 := s); [apply emits_put|].
  apply emits_then with (s1 := s); [|apply emits_put].
  apply emits_loop. intros x _. apply emits_put.
Qed.

Lemma emits_edges {F} (g : graph A) (s : F) : simple_graph g ->
  emits (write_edges write g) s (cat (map line (upper g))) s (eq s).
Proof.
  intros Wg. unfold write_edges.
  replace (cat (map line (upper g))) with
    (cat (map (fun i => cat (map (fun j => if Nat.ltb i j then edge_text i j else "") (nbrs g i)))
       (seq 0 (vertex_count g)))).
  2: { unfold upper. induction (seq 0 (vertex_count g)) as [|i l IH]; auto.
       cbn [map cat flat_map]. rewrite map_app, cat_app, IH. f_equal.
       induction (nbrs g i) as [|j l' IH']; auto. cbn [map cat filter].
       destruct (Nat.ltb i j); cbn [map cat]; rewrite IH'; reflexivity. }
  apply emits_loop. intros i Hi. apply in_seq in Hi.
  destruct (@container_lt _ _ _ _ g i Wg) as (c & E & _ & _ & N); [lia|].
  intros w. unfold container, vget. rewrite E. cbn [bind]. rewrite N. revert w.
  apply (@emits_loop F nat (fun j w s => if Nat.ltb i j then put write w s (edge_text i j) else Done (w, s, true))
    (fun j => if Nat.ltb i j then edge_text i j else "")).
  intros j _. destruct (Nat.ltb i j); [apply emits_put|apply emits_nil].
Qed.

(** Calling the closure for a list of elements, with the line for each. *)
Lemma emits_labels {F X} (f : F -> X -> outcome (F * string)) (ix : X -> nat) l : forall s s' labels,
  calls f s l = Done (s', labels) ->
  emits (for_each (fun x w s => do ' (s', label) <- f s x; put write w s' (label_text (ix x) label)) l) s
    (cat (map (fun il => label_text (fst il) (snd il)) (combine (map ix l) labels))) s'
    (fun s1 => exists k ls, k <= length l /\ calls f s (firstn k l) = Done (s1, ls)).
Proof.
  induction l as [|x l IH]; intros s s' labels E; cbn [calls] in E.
  - injection E as <- <-. apply emits_nil.
  - apply bind_done in E as ([s1 y] & E1 & E). apply bind_done in E as ([s2 ys] & E2 & E).
    injection E as <- <-. cbn [map combine cat fst snd].
    apply emits_then with (s1 := s1).
    + intros w. rewrite E1. cbn [bind].
      destruct (@emits_put F s1 (label_text (ix x) y) w) as (w' & t & ok & Ep & p & q & Et & Cw & H).
      exists w', t, ok. split; auto. exists p, q. split; auto. split; auto. destruct ok.
      * destruct H; auto.
      * subst t. exists 1, [y]. split; [cbn [length]; lia|]. cbn [firstn calls]. rewrite E1. reflexivity.
    + eapply emits_weaken; [|apply IH, E2]. intros t (k & ls & Hk & Ek).
      exists (S k), (y :: ls). split; [cbn [length]; lia|].
      cbn [firstn calls]. rewrite E1. cbn [bind]. rewrite Ek. reflexivity.
Qed.

Lemma calls_length {F X Y} (f : F -> X -> outcome (F * Y)) l : forall s s' ys,
  calls f s l = Done (s', ys) -> length ys = length l.
Proof.
  induction l as [|x l IH]; intros s s' ys E; cbn [calls] in E.
  - injection E as <- <-. auto.
  - apply bind_done in E as ([s1 y] & E1 & E). apply bind_done in E as ([s2 zs] & E2 & E).
    injection E as <- <-. cbn [length]. f_equal. eauto.
Qed.

Lemma emits_all {F X} (g : graph A) opts (f : F -> X -> outcome (F * string)) (ix : X -> nat) l s s' labels :
  simple_graph g -> map ix l = seq 0 (vertex_count g) ->
  calls f s l = Done (s', labels) ->
  emits (fun w s =>
    try_then (write_head write g opts w s) (fun w s =>
    try_then (for_each (fun x w s => do ' (s', label) <- f s x; put write w s' (label_text (ix x) label)) l w s)
      (fun w s => try_then (write_edges write g w s) (fun w s => put write w s "}")))) s
    (drawing opts labels (upper g)) s'
    (fun s1 => exists k ls, k <= length l /\ calls f s (firstn k l) = Done (s1, ls)).
Proof.
  intros Wg Hl E. pose proof (calls_length E) as Len.
  assert (N : length l = vertex_count g).
  { apply (f_equal (@length _)) in Hl. rewrite map_length, seq_length in Hl. auto. }
  replace (drawing opts labels (upper g)) with
    (("graph G{" ++ nl ++ tab ++ opts ++ nl ++ tab ++ indices_text (vertex_count g) ++ ";" ++ nl) ++
     (cat (map (fun il => label_text (fst il) (snd il)) (combine (map ix l) labels)) ++
      (cat (map line (upper g)) ++ "}"))).
  2: { unfold drawing. rewrite Len, N, Hl. unfold indices_text, label_text, line, edge_text.
       rewrite !append_assoc. reflexivity. }
  assert (Q0 : forall x, s = x -> exists k ls, k <= length l /\ calls f s (firstn k l) = Done (x, ls)).
  { intros x <-. exists 0, []. split; [lia|reflexivity]. }
  assert (Q1 : forall x, s' = x -> exists k ls, k <= length l /\ calls f s (firstn k l) = Done (x, ls)).
  { intros x <-. exists (length l), labels. split; [lia|]. rewrite firstn_all. auto. }
  apply emits_then with (s1 := s); [refine (emits_weaken (S := eq s) Q0 _); apply emits_head|].
  apply emits_then with (s1 := s'); [apply emits_labels, E|].
  apply emits_then with (s1 := s'); [refine (emits_weaken (S := eq s') Q1 _); apply emits_edges, Wg|].
  refine (emits_weaken (S := eq s') Q1 _). apply emits_put.
Qed.

End Generic.
End Writer.

Lemma enumerate_combine {X} (l : list X) : enumerate l = combine (seq 0 (length l)) l.
Proof.
  unfold enumerate. generalize 0. induction l as [|x l IH]; intros k; auto.
  cbn [length seq combine enumerate_from]. rewrite IH. reflexivity.
Qed.

Lemma enumerate_indices {X} (l : list X) : map fst (enumerate l) = seq 0 (length l).
Proof.
  unfold enumerate. generalize 0. induction l as [|x l IH]; intros k; auto.
  cbn [length seq map enumerate_from fst]. rewrite IH. reflexivity.
Qed.

Lemma vec_law : writer_law vec_write (fun w => w).
Proof. intros w text. exists text, "". rewrite append_nil_r. auto. Qed.

Lemma calls_ext {F X Y} (f f' : F -> X -> outcome (F * Y)) l : forall s,
  (forall s x, In x l -> f s x = f' s x) -> calls f s l = calls f' s l.
Proof.
  induction l as [|x l IH]; intros s H; auto. cbn [calls]. rewrite H by (left; auto).
  destruct (f' s x) as [[s1 y]| | |]; auto. cbn [bind]. rewrite (IH s1); auto.
  intros t z Hz. apply H. right; auto.
Qed.

Lemma calls_map {F X X' Y} (f : F -> X' -> outcome (F * Y)) (h : X -> X') l : forall s,
  calls f s (map h l) = calls (fun s x => f s (h x)) s l.
Proof.
  induction l as [|x l IH]; intros s; auto. cbn [map calls].
  destruct (f s (h x)) as [[s1 y]| | |]; auto. cbn [bind]. rewrite IH. auto.
Qed.

Lemma calls_pure {F X Y} (f : X -> Y) l : forall s : F,
  calls (fun s x => Done (s, f x)) s l = Done (s, map f l).
Proof. induction l as [|x l IH]; intros s; auto. cbn [calls bind map]. rewrite IH. auto. Qed.

(** ** Into a vector *)

Lemma vec_loop {F X} (body : X -> string -> F -> written F) (f : X -> string) l : forall w s,
  (forall x w s, In x l -> body x w s = Done (w ++ f x, s, true)) ->
  for_each body l w s = Done (w ++ cat (map f l), s, true).
Proof.
  induction l as [|x l IH]; intros w s H; cbn [for_each map cat].
  - rewrite append_nil_r. reflexivity.
  - rewrite H by (left; auto). unfold try_then. cbn [bind]. rewrite IH.
    + rewrite append_assoc. reflexivity.
    + intros y w' s' Hy. apply H. right; auto.
Qed.

Lemma vec_labels {F X} (f : F -> X -> outcome (F * string)) (ix : X -> nat) l : forall w s,
  for_each (fun x w s => do ' (s', label) <- f s x; put vec_write w s' (label_text (ix x) label)) l w s =
  do ' (s', labels) <- calls f s l;
  Done (w ++ cat (map (fun il => label_text (fst il) (snd il)) (combine (map ix l) labels)), s', true).
Proof.
  induction l as [|x l IH]; intros w s; cbn [for_each calls].
  - cbn [bind map combine cat]. rewrite append_nil_r. reflexivity.
  - unfold try_then. destruct (f s x) as [[s1 y]| | |]; auto. cbn [bind put vec_write].
    unfold put, vec_write. cbn [bind]. fold vec_write. rewrite IH.
    destruct (calls f s1 l) as [[s2 ys]| | |]; auto. cbn [bind map combine cat fst snd].
    rewrite append_assoc. reflexivity.
Qed.

Section Strings.
Context {T A : Type} {C : AdjContainer T A} {L : AdjLaws C}.

Lemma vec_all {F X} (g : graph A) opts (f : F -> X -> outcome (F * string)) (ix : X -> nat) l s :
  simple_graph g -> map ix l = seq 0 (vertex_count g) ->
  to_string (fun w =>
    try_then (write_head vec_write g opts w s) (fun w s =>
    try_then (for_each (fun x w s => do ' (s', label) <- f s x; put vec_write w s' (label_text (ix x) label)) l w s)
      (fun w s => try_then (write_edges vec_write g w s) (fun w s => put vec_write w s "}")))) =
  do ' (s', labels) <- calls f s l; Done (drawing opts labels (upper g), s').
Proof.
  intros Wg Hl. unfold to_string.
  assert (H : forall w (s : F), exists w', write_head vec_write g opts w s = Done (w', s, true)).
  { intros w s0. unfold write_head, put, try_then, vec_write. cbn [bind]. fold vec_write.
    rewrite (@vec_loop F nat _ (fun i => show i ++ " ")) by reflexivity. cbn [bind]. eauto. }
  assert (E : forall w (s : F), exists w', write_edges vec_write g w s = Done (w', s, true)).
  { intros w s0. unfold write_edges. eexists.
    apply (@vec_loop F nat _ (fun i => cat (map (fun j => if Nat.ltb i j then edge_text i j else "") (nbrs g i)))).
    intros i w0 s1 Hi. apply in_seq in Hi.
    destruct (@container_lt _ _ _ _ g i Wg) as (c & Ec & _ & _ & N); [lia|].
    unfold container, vget. rewrite Ec. cbn [bind]. rewrite N.
    apply (@vec_loop F nat _ (fun j => if Nat.ltb i j then edge_text i j else "")).
    intros j w1 s2 _. destruct (Nat.ltb i j); [reflexivity|]. rewrite append_nil_r. reflexivity. }
  destruct (calls f s l) as [[s' labels]| | |] eqn:Ec.
  - pose proof (emits_all vec_law opts Wg Hl Ec) as M.
    destruct (M "") as (w' & s1 & ok & Em & p & q & Et & Cw & K). clear M.
    rewrite Em. cbn [bind]. destruct ok.
    + destruct K as [-> ->]. rewrite append_nil_r in Et. cbn in Cw. subst. reflexivity.
    + exfalso. unfold try_then in Em. destruct (H "" s) as [w1 E1]. rewrite E1 in Em. cbn [bind] in Em.
      rewrite vec_labels, Ec in Em. cbn [bind] in Em.
      match type of Em with context [write_edges vec_write g ?w ?s] => destruct (E w s) as [w2 E2] end.
      rewrite E2 in Em. discriminate.
  - unfold try_then at 1. destruct (H "" s) as [w1 E1]. rewrite E1. cbn [bind].
    unfold try_then at 1. rewrite vec_labels, Ec. reflexivity.
  - unfold try_then at 1. destruct (H "" s) as [w1 E1]. rewrite E1. cbn [bind].
    unfold try_then at 1. rewrite vec_labels, Ec. reflexivity.
  - unfold try_then at 1. destruct (H "" s) as [w1 E1]. rewrite E1. cbn [bind].
    unfold try_then at 1. rewrite vec_labels, Ec. reflexivity.
Qed.

Lemma string_container_index {F} (g : graph A) opts (f : F -> nat -> A -> outcome (F * string)) s :
  simple_graph g ->
  dot_string_from_container_index g opts f s =
  do ' (s', labels) <- calls (fun s ia => f s (fst ia) (snd ia)) s (combine (seq 0 (vertex_count g)) (vertices g));
  Done (drawing opts labels (upper g), s').
Proof.
  intros Wg. rewrite <- (sg_len Wg), <- enumerate_combine. unfold dot_string_from_container_index.
  apply (@vec_all F (nat * A) g opts (fun s ia => f s (fst ia) (snd ia)) fst); auto.
  rewrite enumerate_indices, (sg_len Wg). reflexivity.
Qed.

Lemma combine_payloads (g : graph A) :
  combine (seq 0 (vertex_count g)) (payloads g) =
  map (fun ia => (fst ia, ac_contained (snd ia))) (combine (seq 0 (vertex_count g)) (vertices g)).
Proof.
  unfold payloads. generalize (seq 0 (vertex_count g)). induction (vertices g) as [|a l IH]; intros [|i k]; auto.
  cbn [map combine fst snd]. rewrite IH. reflexivity.
Qed.

Lemma string_contained_index {F} (g : graph A) opts (f : F -> nat -> T -> outcome (F * string)) s :
  simple_graph g ->
  dot_string_from_contained_index g opts f s =
  do ' (s', labels) <- calls (fun s it => f s (fst it) (snd it)) s (combine (seq 0 (vertex_count g)) (payloads g));
  Done (drawing opts labels (upper g), s').
Proof.
  intros Wg. rewrite combine_payloads, calls_map. cbn [fst snd].
  apply (@string_container_index F g opts (fun s i a => f s i (ac_contained a))), Wg.
Qed.

Lemma string_indices {F} (g : graph A) opts (f : F -> nat -> outcome (F * string)) s :
  simple_graph g ->
  dot_string_from_indices g opts f s =
  do ' (s', labels) <- calls f s (seq 0 (vertex_count g)); Done (drawing opts labels (upper g), s').
Proof.
  intros Wg. apply (@vec_all F nat g opts f (fun i => i)); auto. apply map_id.
Qed.

Lemma snd_combine {X} (l : list X) : forall k, map snd (combine (seq k (length l)) l) = l.
Proof. induction l as [|x l IH]; intros k; auto. cbn [length seq combine map snd]. rewrite IH. auto. Qed.

End Strings.
