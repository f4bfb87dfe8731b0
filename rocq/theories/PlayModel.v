(** Model of an agent that plays an episode with a value-based policy: doc/examples/frozen_lake/qlearning.py:61-77 and the loops of the
    other examples, without what they do besides playing. *)
From Coq Require Import List Bool Arith Reals.
From Verif Require Import PyCommon DistModel QModel TDModel PolicyModel.
Import ListNotations.
Set Implicit Arguments.
Local Open Scope R_scope.

(** [a = pi.mode(s)] and [a = pi.mean(s)] (qlearning.py:71, base_stochastic_func_type2.py:36-46, value_based_policy.py:185-198, 250-257):
    [policy] gives the logits in a state, [gs] is the tie-breaking noise. *)
Definition mode_agent (n : nat) (tau : R) (policy : nat -> outcome (list R)) (s : nat) (gs : list R) : outcome nat :=
  bind (policy s) (fun z => policy_mode n tau z gs).
Definition mean_agent (n : nat) (policy : nat -> outcome (list R)) (s : nat) (gs : list R) : outcome nat :=
  bind (policy s) (fun z => policy_mean n z gs).
(** [a = pi(s)] (qlearning.py:38, base_stochastic_func_type2.py:30-34): [us] are the uniform draws of the sample. *)
Definition draw_agent (n : nat) (tau : R) (policy : nat -> outcome (list R)) (s : nat) (x : list R * list R) : outcome nat :=
  bind (policy s) (fun z => bind (policy_call n tau z (fst x) (snd x)) (fun p => Ok (fst p))).

(** qlearning.py:65-77: for t in range(max_episode_steps), with one noise per step; the list of (s, a, r, done) of the steps taken.  [dyn] is
    env.step without truncation (the range ends the loop). *)
Fixpoint play {X : Type} (choose : nat -> X -> outcome nat) (dyn : nat -> nat -> nat * R * bool) (s : nat) (xs : list X) : outcome (list (nat * nat * R * bool)) :=
  match xs with
  | [] => Ok []
  | x :: xs' => bind (choose s x) (fun a =>
      let '(s', r, d) := dyn s a in
      if d then Ok [(s, a, r, d)] else bind (play choose dyn s' xs') (fun h => Ok ((s, a, r, d) :: h)))
  end.
