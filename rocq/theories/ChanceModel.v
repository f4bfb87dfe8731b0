(** Model of an agent that plays an episode in a stochastic environment: doc/examples/frozen_lake/qlearning.py:61-77 and the loops of the
    other examples, as PlayModel.v, with an environment whose answers are random (gymnasium's FrozenLake is, unless is_slippery=False). *)
From Coq Require Import List Bool Arith Reals.
From Verif Require Import PyCommon PlayModel.
Import ListNotations.
Set Implicit Arguments.
Local Open Scope R_scope.

(** qlearning.py:65-77: for t in range(max_episode_steps); each step has what the agent draws and what the environment draws, [dyn w] is
    env.step when the environment draws w, without truncation (the range ends the loop). *)
Fixpoint chance_play {X W : Type} (choose : nat -> X -> outcome nat) (dyn : W -> nat -> nat -> nat * R * bool) (s : nat) (xs : list (X * W)) : outcome (list (nat * nat * R * bool)) :=
  match xs with
  | [] => Ok []
  | (x, w) :: xs' => bind (choose s x) (fun a =>
      let '(s', r, d) := dyn w s a in
      if d then Ok [(s, a, r, d)] else bind (chance_play choose dyn s' xs') (fun h => Ok ((s, a, r, d) :: h)))
  end.
