(** Specification vocabulary for stochastic value functions, SuccessorStateQ, RandomPolicy and ModelUpdater. *)
From Coq Require Import List Bool Arith Reals.
From Verif Require Import PyCommon UtilsSpec DistSpec QModel.
Import ListNotations.
Local Open Scope R_scope.

(** Centre of the k-th of n equal bins of an interval. *)
Definition centre (n : nat) (lo hi : R) (k : nat) : R := lo + (2 * INR k + 1) * ((hi - lo) / (2 * INR n)).
(** What an action-dependent function says about state s and action a, whatever its model type. *)
Definition at_action {St V : Type} (d : V) (enc : nat -> list R) (q : qfun St V) (s : St) (a : nat) : V :=
  match q with Type1 f => f s (enc a) | Type2 f => nth a (f s) d end.
(** A type-2 function has one output (of the right shape) per action. *)
Definition per_action {St V : Type} (shape : V -> Prop) (n : nat) (q : qfun St V) : Prop := match q with Type1 _ => True | Type2 f => forall s, length (f s) = n /\ forall x, In x (f s) -> shape x end.
(** A linear combination of outputs that picks the entry of a one-hot vector. *)
Definition picks {V : Type} (d : V) (shape : V -> Prop) (n : nat) (enc : nat -> list R) (mix : list R -> list V -> V) : Prop :=
  (forall a, (a < n)%nat -> length (enc a) = n) /\ forall a l, (a < n)%nat -> length l = n -> (forall x, In x l -> shape x) -> mix (enc a) l = nth a l d.
(** The one-step return with the expected value of the next state, for finitely many next states with probabilities ps and values vs. *)
Definition one_step (r gamma : R) (ps vs : list R) : R := r + gamma * expect ps (fun k => nth k vs 0).
(** The density of the uniform distribution on a box. *)
Definition box_density (low high : list R) : R := product (map (fun lh => / (snd lh - fst lh)) (combine low high)).
(** A finite law for a random number: probabilities and values; centred with variance one. *)
Definition law_expect (law : list (R * R)) (w : R -> R) : R := total (map (fun pe => fst pe * w (snd pe)) law).
Definition standard_noise (law : list (R * R)) : Prop :=
  (forall pe, In pe law -> 0 <= fst pe) /\ law_expect law (fun _ => 1) = 1 /\ law_expect law (fun e => e) = 0 /\ law_expect law (fun e => e * e) = 1.
