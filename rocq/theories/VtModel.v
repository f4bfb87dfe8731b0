(** Model of the training of q-functions that have a value transform: coax/_core/q.py:74-131 (the parameter
    value_transform), coax/td_learning/_qlearning.py:111-146, _expectedsarsa.py:100-118, _softqlearning.py:95-106 and _base.py:393-447.  The network, the
    loss and the bootstrapped maximum work with transformed values; the targets are transformed before they enter the loss; users who call
    q get values to which the inverse was applied.

    Simplifications: those of LearnModel.v; q_targ has the same value transform as q (it is made by q.copy()). *)
From Coq Require Import List Bool Arith Reals.
From Verif Require Import PyCommon DistModel QModel TDModel LearnModel.
Import ListNotations.
Set Implicit Arguments.
Local Open Scope R_scope.

Section Targets.
Variable nA : nat.
Variable net : list R -> qfun nat R.
(** q.value_transform: the transformation f and its inverse g. *)
Variables f g : R -> R.
(** _qlearning.py:111-146 for Discrete actions: [f] of q, [f_inv] of q_targ. *)
Definition target_q_t (th0 targ : list R) (b : tbatch nat) : outcome (list R) := q_learning (Some nA) (one_hot nA) f g nA (net targ) (net targ) b.
(** _expectedsarsa.py:100-118. *)
Definition target_expected_t (pi : nat -> list R) (th0 targ : list R) (b : tbatch nat) : outcome (list R) := expected_sarsa (Some nA) f g pi (net targ) b.
(** _softqlearning.py:95-106. *)
Definition target_soft_t (temp : R) (th0 targ : list R) (b : tbatch nat) : outcome (list R) := soft_q (Some nA) (one_hot nA) f g nA temp (net targ) b.
End Targets.
