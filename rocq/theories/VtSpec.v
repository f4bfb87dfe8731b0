(** Specifications for VtModel.v. *)
From Coq Require Import List Bool Arith Reals.
From Verif Require Import PyCommon DistModel QModel CoreModel LearnModel.
Import ListNotations.
Set Implicit Arguments.
Local Open Scope R_scope.

(** The q-function with these parameters, called by a user, returns numbers at most D away from q; g is the inverse transform. *)
Definition called_within (nS nA : nat) (g : R -> R) (net : list R -> qfun nat R) (p : ptree) (q : nat -> nat -> R) (D : R) : Prop :=
  exists th, p = Node [0%nat] [Node [0%nat] [Leaf th]] /\ length th = (nS * nA)%nat /\
  forall s a, (s < nS)%nat -> (a < nA)%nat -> exists x, q_call_a (Some nA) (one_hot nA) g (net th) s a = Ok x /\ Rabs (x - q s a) <= D.
(** The slopes of f between numbers at most D away from the same value of q are between m and M. *)
Definition slopes (nS nA : nat) (f : R -> R) (q : nat -> nat -> R) (D m M : R) : Prop := forall s a x y, (s < nS)%nat -> (a < nA)%nat ->
  q s a - D <= x -> x <= y -> y <= q s a + D -> m * (y - x) <= f y - f x <= M * (y - x).
