(** Specification of the training loop with a prioritized buffer. *)
From Coq Require Import List Bool Arith ZArith Reals.
From Verif Require Import PyCommon ReplayModel TracerModel PipeModel LearnSpec DqnSpec PerModel.
Import ListNotations.
Set Implicit Arguments.

Section Spec.
Variables nS nA : nat.

(** The time steps recorded by a program. *)
Fixpoint steps_of (os : list trop) : list (envstep nat nat) :=
  match os with [] => [] | TRecord e :: os' => e :: steps_of os' | _ :: os' => steps_of os' end.
(** Arguments that the calls accept, batches of 1 to B rows. *)
Definition trop_ok (B : nat) (o : trop) : Prop :=
  match o with
  | TBeta b => (0 < b)%R
  | TRecord _ => True
  | TLearn us => (1 <= length us <= B)%nat /\ forall u, In u us -> (0 <= u < 1)%R
  | TSync tau => (0 <= tau <= 1)%R
  end.
(** One of the sampled batches has a row with this state and this action. *)
Definition picks (es : list event) (s a : nat) : Prop :=
  exists out x w i, In (EvBatch out) es /\ In (x, w, i) out /\ x_s x = s /\ x_a x = a.
(** Consecutive parts of the training; in each, every pair is sampled and then the target network is synchronised with at least tau0. *)
Definition per_sweeps (tau0 : R) (N : nat) (log : list event) : Prop :=
  exists parts rest, log = concat parts ++ rest /\ length parts = N /\
    forall part, In part parts -> exists es1 tau es2, part = es1 ++ EvSync tau :: es2 /\ (tau0 <= tau)%R /\
      forall s a, (s < nS)%nat -> (a < nA)%nat -> picks es1 s a.
End Spec.
