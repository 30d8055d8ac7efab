(** Vocabulary for the statements about the configuration model. *)
From Verif Require Import Base Containers ContainerSpec ContainerFacts Graph GraphSpec Config.
Set Implicit Arguments.

(** The graph has the degrees listed in [v]. *)
Definition has_degrees {T A} {C : AdjContainer T A} (v : list nat) (g : graph A) : Prop :=
  vertex_count g = length v /\ forall i, length (nbrs g i) = nth i v 0.

(** Some simple graph has these degrees. *)
Definition graphical (v : list nat) : Prop :=
  exists R : nat -> nat -> bool,
    (forall i, R i i = false) /\ (forall i j, R i j = R j i) /\
    forall i, i < length v -> count (R i) (seq 0 (length v)) = nth i v 0.

(** The documented conditions on a degree vector. *)
Definition valid_degrees (v : list nat) : Prop :=
  1 < length v /\ (forall d, In d v -> d <= length v - 2) /\ Nat.Even (list_sum v).

(** A consistent model with degrees [v]. *)
Record cm_ok {T} (v : list nat) (e : config T) : Prop := {
  co_simple : simple_graph (cm_graph e);
  co_degrees : has_degrees v (cm_graph e);
  co_vec : cm_degrees e = v;
  (* every vertex is listed as often as its degree says *)
  co_backup : forall i, count_occ Nat.eq_dec (cm_backup e) i = nth i v 0
}.

(** Same up to the order of neighbours. *)
Definition cm_like {T} (e h : config T) : Prop :=
  same_topology (cm_graph e) (cm_graph h) /\
  cm_degrees h = cm_degrees e /\ cm_halfs h = cm_halfs e /\ cm_backup h = cm_backup e.

(** The ends of the edge [e] are [x] and [y]. *)
Definition ends (e : nat * nat) (x y : nat) : Prop :=
  (x = fst e /\ y = snd e) \/ (x = snd e /\ y = fst e).

(** A step as [m_step] makes them: two edges given by their ends, which can be
    joined crosswise. *)
Definition step_shape (n : nat) (s : cm_step) : Prop :=
  match s with
  | Cm_Error => True
  | Cm_Added (a, b) (c, d) =>
      a < n /\ b < n /\ c < n /\ d < n /\ a <> b /\ c <> d /\ a <> c /\ b <> d
  end.

(** What a step does. *)
Definition step_effect {T} (e : config T) (s : cm_step) (e' : config T) : Prop :=
  match s with
  | Cm_Error => e' = e
  | Cm_Added (a, b) (c, d) =>
      adj (cm_graph e) a b /\ adj (cm_graph e) c d /\
      ~ adj (cm_graph e) a c /\ ~ adj (cm_graph e) b d /\ a <> c /\ b <> d /\
      (forall x y, adj (cm_graph e') x y <->
         (adj (cm_graph e) x y /\ ~ ends (a, b) x y /\ ~ ends (c, d) x y) \/
         ends (a, c) x y \/ ends (b, d) x y) /\
      payloads (cm_graph e') = payloads (cm_graph e) /\
      cm_degrees e' = cm_degrees e /\ cm_halfs e' = cm_halfs e /\ cm_backup e' = cm_backup e
  end.

(** What a user can do with a model. *)
Inductive cm_history {T} (p : profile) : list nat -> config T -> Prop :=
| cmh_from_vec mk v rs e rs' : cm_from_vec p mk v rs = Done (Some (e, rs')) -> cm_history p v e
| cmh_from_const mk c n rs e rs' : cm_from_const p mk c n rs = Done (Some (e, rs')) ->
    cm_history p (repeat c n) e
| cmh_unchecked mk v rs e rs' : cm_from_vec_unchecked p mk v rs = Done (e, rs') -> cm_history p v e
| cmh_clone {A} {C : AdjContainer T A} {L : AdjLaws C} (g : graph A) v :
    simple_graph g -> has_degrees v g -> cm_history p v (cm_clone_from_generic_graph g)
| cmh_swap v w e rs x e' rs' : cm_history p v e ->
    cm_swap_degree_vec_unchecked p e w rs = Done (x, e', rs') -> cm_history p w e'
| cmh_randomize v e rs e' rs' : cm_history p v e ->
    cm_randomize p e rs = Done (e', rs') -> cm_history p v e'
| cmh_step v e rs s e' rs' : cm_history p v e ->
    cm_m_step p e rs = Done (s, e', rs') -> cm_history p v e'
| cmh_undo v e s r e' : cm_history p v e -> step_shape (length v) s ->
    cm_undo_step p e s = Done (r, e') -> cm_history p v e'
| cmh_undo_quiet v e s e' : cm_history p v e -> step_shape (length v) s ->
    cm_undo_step_quiet p e s = Done e' -> cm_history p v e'
| cmh_sort v e g' : cm_history p v e -> sort_adj (cm_graph e) = Done g' ->
    cm_history p v (mk_cm g' (cm_degrees e) (cm_halfs e) (cm_backup e)).
