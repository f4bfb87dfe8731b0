(** Specifications for DblModel.v. *)
From Coq Require Import List Bool Arith Reals.
From Verif Require Import PyCommon UtilsSpec DistModel LossModel QModel TDModel TDSpec CoreModel LearnModel LearnSpec DblModel.
Import ListNotations.
Set Implicit Arguments.
Local Open Scope R_scope.

Section Env.
Variables nS nA : nat.
(** The q-function with these parameters returns numbers between lo and hi. *)
Definition inside (net : list R -> qfun nat R) (p : ptree) (lo hi : nat -> nat -> R) : Prop :=
  exists th, p = Node [0%nat] [Node [0%nat] [Leaf th]] /\ length th = (nS * nA)%nat /\
  forall s a, (s < nS)%nat -> (a < nA)%nat -> exists x, q_call_a (Some nA) (one_hot nA) (fun x => x) (net th) s a = Ok x /\ lo s a <= x <= hi s a.
Variable dyn : nat -> nat -> nat * R * bool.
Variable gamma : R.
(** Lower bounds of what can be earned whatever the later actions are; upper bounds. *)
Definition floor (lo : nat -> nat -> R) : Prop := forall s a c, (s < nS)%nat -> (a < nA)%nat -> (c < nA)%nat ->
  lo s a <= reward dyn s a + (if ends dyn s a then 0 else gamma * lo (next dyn s a) c).
Definition ceiling (hi : nat -> nat -> R) : Prop := forall s a c, (s < nS)%nat -> (a < nA)%nat -> (c < nA)%nat ->
  reward dyn s a + (if ends dyn s a then 0 else gamma * hi (next dyn s a) c) <= hi s a.

(** The gradients of the losses of learners that share their target networks, as in LearnSpec.differentiates. *)
Definition shared_differentiates (K : nat) (net : list R -> qfun nat R) (loss : list R -> list R -> option (list R) -> outcome (option R))
    (cgrads : list R -> list (list R) -> fbatch nat -> list R) : Prop :=
  forall th targs rows b, length th = (nS * nA)%nat -> length targs = K -> (forall t, In t targs -> length t = (nS * nA)%nat) -> genuine nS nA dyn gamma rows b ->
  gradient (fun p => loss_value (q_loss (Some nA) net (fun _ _ => target_clipped nA net targs) loss th [] b p)) th (cgrads th targs b).

(** Programs with K learners. *)
Definition cop_ok (K : nat) (lr wl : R) (B : nat) (o : cop) : Prop :=
  match o with
  | CUpdate i b => (i < K)%nat /\ op_ok nS nA dyn gamma lr wl B (YUpdate b)
  | CSync i tau => (i < K)%nat /\ 0 <= tau <= 1
  end.
Definition cvisits (o : cop) (i s a : nat) : Prop := match o with CUpdate j b => j = i /\ visits nA (YUpdate b) s a | CSync _ _ => False end.
(** A part of a program that updates every pair of every learner and then synchronises every target network with at least tau0. *)
Definition c_round (K : nat) (lr wl tau0 : R) (B : nat) (os : list cop) : Prop :=
  (forall o, In o os -> cop_ok K lr wl B o) /\
  exists os1 os2, os = os1 ++ os2 /\ (forall i s a, (i < K)%nat -> (s < nS)%nat -> (a < nA)%nat -> exists o, In o os1 /\ cvisits o i s a) /\
  forall i, (i < K)%nat -> exists tau, In (CSync i tau) os2 /\ tau0 <= tau.
(** A table as the q-function, a loss that pulls at distances up to M, and the constants. *)
Definition scene (net : list R -> qfun nat R) (loss : list R -> list R -> option (list R) -> outcome (option R)) (lr wl cl M : R) (B : nat) : Prop :=
  (1 <= nA)%nat /\ closed nS nA dyn /\ 0 <= gamma <= 1 /\ (net = table1 nS \/ net = table2 nS nA) /\ pulls loss M cl /\ 0 < lr /\ 0 < wl /\ lr * wl <= 1 /\ (1 <= B)%nat.
End Env.
(** The least of the values, for all pairs of q-functions (the given ones, as functions of the action), of the greedy actions of one of them
    according to the other. *)
Definition least_value (nA : nat) (hs : list (nat -> R)) (m : R) : Prop :=
  (exists h h', In h hs /\ In h' hs /\ greedy_avg nA h h' m) /\ forall h h' x, In h hs -> In h' hs -> greedy_avg nA h h' x -> m <= x.
(** Learners that use SGD and have target networks. *)
Definition sgd_learners (K : nat) (lr : R) (sub : nat -> nat -> bool) (ys : list sys) : Prop :=
  length ys = K /\ forall y, In y ys -> sgd_learner lr sub y /\ y_targ y <> None.
