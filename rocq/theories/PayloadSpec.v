(** Vocabulary for the data of the vertices: two runs that go alike, and graphs and ensembles
    that differ in the data only. *)
From Verif Require Import Base Containers Graph Rng ErC ErM Sw Ws Config Ba Spacial Dog SafeSpec.
From Coq Require Import QArith.
Set Implicit Arguments.
Local Open Scope nat_scope.

(** Both runs return, with results related by [R], or both end in the same way. *)
Definition both {X X'} (R : X -> X' -> Prop) (m : outcome X) (m' : outcome X') : Prop :=
  match m, m' with
  | Done x, Done x' => R x x'
  | Panic, Panic | UB, UB | NoFuel, NoFuel => True
  | _, _ => False
  end.

(** Results with a generator: the same draws are left. *)
Definition drawn {X X'} (R : X -> X' -> Prop) (s : X * list nat) (s' : X' * list nat) : Prop :=
  R (fst s) (fst s') /\ snd s = snd s'.

(** Results with a step: the same step was made. *)
Definition told {S X X'} (R : X -> X' -> Prop) (s : S * X) (s' : S * X') : Prop :=
  fst s = fst s' /\ R (snd s) (snd s').

(** Results with a step and a generator. *)
Definition told_drawn {S X X'} (R : X -> X' -> Prop) (s : S * X * list nat) (s' : S * X' * list nat) : Prop :=
  fst (fst s) = fst (fst s') /\ R (snd (fst s)) (snd (fst s')) /\ snd s = snd s'.

Definition opt_like {X X'} (R : X -> X' -> Prop) (o : option X) (o' : option X') : Prop :=
  match o, o' with Some x, Some x' => R x x' | None, None => True | _, _ => False end.

Definition res_like {X X' E} (R : X -> X' -> Prop) (r : result X E) (r' : result X' E) : Prop :=
  match r, r' with Ok x, Ok x' => R x x' | Err e, Err e' => e = e' | _, _ => False end.

Section Like.
Context {T T' : Type}.
Variable R : T -> T' -> Prop.

(** ** Containers that agree in all but the data; the data are related by [R] *)

Definition nc_like (c : node_container T) (c' : node_container T') : Prop :=
  nc_id c = nc_id c' /\ nc_adj c = nc_adj c' /\ R (nc_node c) (nc_node c').
Definition sc_like (c : sw_container T) (c' : sw_container T') : Prop :=
  sc_id c = sc_id c' /\ sc_adj c = sc_adj c' /\ R (sc_node c) (sc_node c').
Definition wc_like (c : ws_container T) (c' : ws_container T') : Prop :=
  wc_id c = wc_id c' /\ wc_to c = wc_to c' /\ wc_original c = wc_original c' /\ R (wc_node c) (wc_node c').
Definition spc_like {P} (c : spacial_container P T) (c' : spacial_container P T') : Prop :=
  spc_id c = spc_id c' /\ spc_adj c = spc_adj c' /\ spc_pos c = spc_pos c' /\ R (spc_node c) (spc_node c').

End Like.

(** [n] vertices each, those with the same number related. *)
Definition aligned {A A'} (n : nat) (L : nat -> A -> A' -> Prop) (l : list A) (l' : list A') : Prop :=
  length l = n /\ length l' = n /\
  forall i a a', nth_error l i = Some a -> nth_error l' i = Some a' -> L i a a'.

Definition graph_like {A A'} (n : nat) (L : nat -> A -> A' -> Prop) (g : graph A) (g' : graph A') : Prop :=
  next_id g = next_id g' /\ edge_count g = edge_count g' /\ aligned n L (vertices g) (vertices g').

Section Ensembles.
Context {T T' : Type}.
(** [R i]: how the data of vertex [i] are related. *)
Variable n : nat.
Variable R : nat -> T -> T' -> Prop.

(** ** Ensembles that agree in all but the data *)

Definition erc_like (e : er_c T) (e' : er_c T') : Prop :=
  graph_like n (fun i => nc_like (R i)) (erc_graph e) (erc_graph e') /\
  erc_prob e = erc_prob e' /\ erc_c_target e = erc_c_target e'.
Definition erm_like (e : er_m T) (e' : er_m T') : Prop :=
  graph_like n (fun i => nc_like (R i)) (erm_graph e) (erm_graph e') /\ erm_m e = erm_m e' /\
  erm_all e = erm_all e' /\ erm_possible e = erm_possible e' /\ erm_current e = erm_current e'.
Definition cm_like (e : config T) (e' : config T') : Prop :=
  graph_like n (fun i => nc_like (R i)) (cm_graph e) (cm_graph e') /\ cm_degrees e = cm_degrees e' /\
  cm_halfs e = cm_halfs e' /\ cm_backup e = cm_backup e'.
Definition sw_like (e : sw_ensemble T) (e' : sw_ensemble T') : Prop :=
  graph_like n (fun i => sc_like (R i)) (sw_graph e) (sw_graph e') /\ sw_r_prob e = sw_r_prob e'.
Definition ws_like (e : ws_ensemble T) (e' : ws_ensemble T') : Prop :=
  graph_like n (fun i => wc_like (R i)) (ws_graph e) (ws_graph e') /\
  ws_rewire_prob e = ws_rewire_prob e' /\ ws_distance e = ws_distance e'.
(** The source has [k] vertices, with data of their own. *)
Definition ba_like (k : nat) (R2 : nat -> T -> T' -> Prop) (e : ba T) (e' : ba T') : Prop :=
  graph_like k (fun i => nc_like (R2 i)) (ba_source e) (ba_source e') /\
  graph_like n (fun i => nc_like (R i)) (ba_graph e) (ba_graph e') /\
  ba_m e = ba_m e' /\ ba_weights e = ba_weights e'.
Definition sp_like (e : spacial T) (e' : spacial T') : Prop :=
  graph_like n (fun i => spc_like (R i)) (sp_graph e) (sp_graph e') /\ sp_accept e = sp_accept e'.
Definition dog_like (e : dog T) (e' : dog T') : Prop :=
  graph_like n (fun i => spc_like (R i)) (dog_graph e) (dog_graph e') /\
  dog_accept e = dog_accept e' /\ dog_tau e = dog_tau e' /\ dog_lambda e = dog_lambda e'.

(** ** The same call, with other data to be written *)

Definition erc_call_like (c : erc_call T) (c' : erc_call T') : Prop :=
  match c, c' with
  | Ec_randomize, Ec_randomize | Ec_step, Ec_step | Ec_connect, Ec_connect | Ec_sort, Ec_sort => True
  | Ec_undo s, Ec_undo s' | Ec_undo_quiet s, Ec_undo_quiet s' => s = s'
  | Ec_target q, Ec_target q' => q = q'
  | Ec_write i t, Ec_write i' t' => i = i' /\ R i t t'
  | _, _ => False
  end.
Definition erm_call_like (c : erm_call T) (c' : erm_call T') : Prop :=
  match c, c' with
  | Em_randomize, Em_randomize | Em_step, Em_step | Em_sort, Em_sort => True
  | Em_undo s, Em_undo s' | Em_undo_quiet s, Em_undo_quiet s' => s = s'
  | Em_write i t, Em_write i' t' => i = i' /\ R i t t'
  | _, _ => False
  end.
Definition sp_call_like (c : sp_call T) (c' : sp_call T') : Prop :=
  match c, c' with
  | Sc_randomize, Sc_randomize | Sc_step, Sc_step | Sc_sort, Sc_sort => True
  | Sc_steps_quiet k, Sc_steps_quiet k' => k = k'
  | Sc_undo s, Sc_undo s' | Sc_undo_quiet s, Sc_undo_quiet s' => s = s'
  | Sc_write i t, Sc_write i' t' => i = i' /\ R i t t'
  | _, _ => False
  end.
Definition cm_call_like (c : cm_call T) (c' : cm_call T') : Prop :=
  match c, c' with
  | Cc_randomize, Cc_randomize | Cc_step, Cc_step | Cc_sort, Cc_sort => True
  | Cc_undo s, Cc_undo s' | Cc_undo_quiet s, Cc_undo_quiet s' => s = s'
  | Cc_swap v, Cc_swap v' | Cc_swap_unchecked v, Cc_swap_unchecked v' => v = v'
  | Cc_write i t, Cc_write i' t' => i = i' /\ R i t t'
  | _, _ => False
  end.
Definition sw_call_like (c : sw_call T) (c' : sw_call T') : Prop :=
  match c, c' with
  | Wc_randomize, Wc_randomize | Wc_step, Wc_step | Wc_sort, Wc_sort => True
  | Wc_undo s, Wc_undo s' | Wc_undo_quiet s, Wc_undo_quiet s' => s = s'
  | Wc_connect k, Wc_connect k' => k = k'
  | Wc_prob q, Wc_prob q' => q = q'
  | Wc_write i t, Wc_write i' t' => i = i' /\ R i t t'
  | _, _ => False
  end.
Definition plain_call_like (c : plain_call T) (c' : plain_call T') : Prop :=
  match c, c' with
  | Pc_randomize, Pc_randomize | Pc_sort, Pc_sort => True
  | Pc_write i t, Pc_write i' t' => i = i' /\ R i t t'
  | _, _ => False
  end.

End Ensembles.

(** ** Assignments to the data *)

(** The vertex a call assigns to, and what it assigns. *)
Definition erc_writes {T} (c : erc_call T) : option (nat * T) := match c with Ec_write i t => Some (i, t) | _ => None end.
Definition erm_writes {T} (c : erm_call T) : option (nat * T) := match c with Em_write i t => Some (i, t) | _ => None end.
Definition sp_writes {T} (c : sp_call T) : option (nat * T) := match c with Sc_write i t => Some (i, t) | _ => None end.
Definition cm_writes {T} (c : cm_call T) : option (nat * T) := match c with Cc_write i t => Some (i, t) | _ => None end.
Definition sw_writes {T} (c : sw_call T) : option (nat * T) := match c with Wc_write i t => Some (i, t) | _ => None end.
Definition plain_writes {T} (c : plain_call T) : option (nat * T) := match c with Pc_write i t => Some (i, t) | _ => None end.

(** The program without its assignments. *)
Definition without {Call W} (writes : Call -> option W) (l : list Call) : list Call :=
  filter (fun c => match writes c with Some _ => false | None => true end) l.

(** All assignments of the program go to vertices that exist. *)
Definition writes_in {Call T} (writes : Call -> option (nat * T)) (n : nat) (l : list Call) : Prop :=
  Forall (fun c => match writes c with Some (i, _) => i < n | None => True end) l.

(** What a program assigns to vertex [i] last; [t] if it assigns nothing to it. *)
Fixpoint last_write {Call T} (writes : Call -> option (nat * T)) (l : list Call) (i : nat) (t : T) : T :=
  match l with
  | [] => t
  | c :: l' =>
      last_write writes l' i
        (match writes c with Some (j, u) => if j =? i then u else t | None => t end)
  end.

(** Vertex [i] of the graph holds [d i]. *)
Definition holds {T A} {C : AdjContainer T A} (d : nat -> T) (g : graph A) : Prop :=
  forall i a, nth_error (vertices g) i = Some a -> ac_contained a = d i.

(** Any data are related to any others. *)
Definition any {X Y : Type} (_ : nat) (_ : X) (_ : Y) : Prop := True.
