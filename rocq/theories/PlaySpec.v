(** Specifications for PlayModel.v: what a played episode is worth. *)
From Coq Require Import List Bool Arith Reals.
From Verif Require Import PyCommon DistModel QModel TDModel TDSpec PolicyModel PolicySpec LearnSpec PlayModel.
Import ListNotations.
Set Implicit Arguments.
Local Open Scope R_scope.

Fixpoint discounted (gamma : R) (l : list R) : R := match l with [] => 0 | r :: l' => r + gamma * discounted gamma l' end.
Definition gain (gamma : R) (h : list (nat * nat * R * bool)) : R := discounted gamma (map (fun x => snd (fst x)) h).
(** 1 + gamma + ... + gamma^(n-1). *)
Fixpoint geometric (gamma : R) (n : nat) : R := match n with O => 0 | S n' => 1 + gamma * geometric gamma n' end.

(** An episode of at most n steps that starts in s and follows the environment. *)
Inductive episode_of (dyn : nat -> nat -> nat * R * bool) : nat -> nat -> list (nat * nat * R * bool) -> Prop :=
| ep_stop : forall s, episode_of dyn 0 s []
| ep_end : forall n s a, ends dyn s a = true -> episode_of dyn (S n) s [(s, a, reward dyn s a, true)]
| ep_on : forall n s a h, ends dyn s a = false -> episode_of dyn n (next dyn s a) h -> episode_of dyn (S n) s ((s, a, reward dyn s a, false) :: h).

(** A q-function whose calls give numbers at most D away from q; g is the inverse of its value transform. *)
Definition close_to (nS nA : nat) (g : R -> R) (f : qfun nat R) (q : nat -> nat -> R) (D : R) : Prop :=
  width nA f /\ forall s a, (s < nS)%nat -> (a < nA)%nat -> exists x, q_call_a (Some nA) (one_hot nA) g f s a = Ok x /\ Rabs (x - q s a) <= D.
Definition rising (g : R -> R) : Prop := forall x y, x < y -> g x < g y.

(** The policies that the package derives from a q-function. *)
Inductive value_based (nA : nat) (f : qfun nat R) : (nat -> outcome (list R)) -> Prop :=
| vb_eps : forall eps, 0 <= eps < 1 -> value_based nA f (eps_greedy nA eps f)
| vb_boltzmann : forall t, 0 < t -> value_based nA f (boltzmann_policy nA t f).

(** The draws of the steps: n numbers for each. *)
Fixpoint per_step (n T : nat) (us : list R) : list (list R) := match T with O => [] | S T' => firstn n us :: per_step n T' (skipn n us) end.

(** An agent that uses the mode or the mean of a policy. *)
Inductive greedy_agent (nA : nat) (policy : nat -> outcome (list R)) : (nat -> list R -> outcome nat) -> Prop :=
| ga_mode : forall tau, 0 < tau -> greedy_agent nA policy (mode_agent nA tau policy)
| ga_mean : greedy_agent nA policy (mean_agent nA policy).
(** [F] is the discounted sum of rewards of a play, as a function of the uniform draws. *)
Definition sampled_gain (nA : nat) (gamma tau : R) (policy : nat -> outcome (list R)) (dyn : nat -> nat -> nat * R * bool) (s : nat) (gss : list (list R)) (F : list R -> R) : Prop :=
  forall us, length us = (length gss * nA)%nat -> (forall u, In u us -> 0 < u < 1) ->
  exists h, play (draw_agent nA tau policy) dyn s (combine (per_step nA (length gss) us) gss) = Ok h /\ F us = gain gamma h.
