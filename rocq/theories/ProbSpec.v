(** Vocabulary for the statements about probabilities in floating point arithmetic. *)
From Verif Require Import Base Rng ErC Sw Ws FloatSpec Prob.
From Coq Require Import ZArith QArith SpecFloat.
Set Implicit Arguments.
Local Open Scope nat_scope.

(** An [f64]: the mantissa has its proper length and the exponent is in range. *)
Definition is_f64 (x : spec_float) : Prop := valid_binary 53 1024 x = true.

(** With the probability [x], the random numbers accepted are the first [k] of the 2^53. *)
Definition accepts_first (x : spec_float) (k : Z) : Prop :=
  forall r, SFleb (unit_f64 r) x = true <-> (Z.of_nat r mod 2 ^ 53 < k)%Z.

(** A rational number that is as good as [x] for a probability. *)
Definition prob_value (x : spec_float) : Q :=
  match fval x with
  | Some q => q
  | None => match x with S754_infinity false => 1 | _ => -1 end
  end%Q.

(** The ensembles with a rational probability. *)
Definition erc_exact {T} (e : er_c64 T) : er_c T :=
  mk_erc (erc64_graph e) (prob_value (erc64_prob e)) (prob_value (erc64_c_target e)).
Definition sw_exact {T} (e : sw_ensemble64 T) : sw_ensemble T :=
  mk_swe (sw64_graph e) (prob_value (sw64_r_prob e)).
Definition ws_exact {T} (e : ws_ensemble64 T) : ws_ensemble T :=
  mk_wse (ws64_graph e) (prob_value (ws64_rewire_prob e)) (ws64_distance e).

(** Two computations end in the same way, and their results are related. *)
Definition same_outcome {X Y} (R : X -> Y -> Prop) (a : outcome X) (b : outcome Y) : Prop :=
  match a, b with
  | Done x, Done y => R x y
  | Panic, Panic | UB, UB | NoFuel, NoFuel => True
  | _, _ => False
  end.

(** The ensemble [e'] that came from [e] is [f], and its numbers are those of [e]. *)
Definition erc_follows {T} (e e' : er_c64 T) (f : er_c T) : Prop :=
  f = erc_exact e' /\ erc64_prob e' = erc64_prob e /\ erc64_c_target e' = erc64_c_target e.
Definition sw_follows {T} (e e' : sw_ensemble64 T) (f : sw_ensemble T) : Prop :=
  f = sw_exact e' /\ sw64_r_prob e' = sw64_r_prob e.
Definition ws_follows {T} (e e' : ws_ensemble64 T) (f : ws_ensemble T) : Prop :=
  f = ws_exact e' /\ ws64_rewire_prob e' = ws64_rewire_prob e /\ ws64_distance e' = ws64_distance e.

(** The same for a result with the rest of the random numbers, and for a [Result]. *)
Definition with_rest {X Y} (R : X -> Y -> Prop) (a : X * rng) (b : Y * rng) : Prop :=
  R (fst a) (fst b) /\ snd a = snd b.
Definition with_step {S X Y} (R : X -> Y -> Prop) (a : S * X * rng) (b : S * Y * rng) : Prop :=
  fst (fst a) = fst (fst b) /\ R (snd (fst a)) (snd (fst b)) /\ snd a = snd b.
Definition same_result {X Y E} (R : X -> Y -> Prop) (a : result X E) (b : result Y E) : Prop :=
  match a, b with
  | Ok x, Ok y => R x y
  | Err e, Err e' => e = e'
  | _, _ => False
  end.
