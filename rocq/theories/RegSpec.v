(** Specifications for RegModel.v: values with a bonus for the entropy of the policy. *)
From Coq Require Import List Bool Arith Reals.
From Verif Require Import PyCommon UtilsSpec DistModel LossModel LossSpec QModel TDModel TDSpec CoreModel CoreSpec LearnModel LearnSpec WorkerModel RegModel.
Import ListNotations.
Set Implicit Arguments.
Local Open Scope R_scope.

(** Entropy and Kullback-Leibler divergence of action probabilities. *)
Definition entropy_of (nA : nat) (p : nat -> R) : R := expectation nA p (fun a => - ln (p a)).
Definition divergence_of (nA : nat) (p p0 : nat -> R) : R := expectation nA p (fun a => ln (p a) - ln (p0 a)).
(** What a regularizer adds to the reward in state s: beta times the entropy of the policy, or minus beta times the divergence from the
    prior. *)
Definition bonus (nA : nat) (r : regularizer) (s : nat) : R :=
  match r with
  | EntropyReg beta pi => beta * entropy_of nA (boltzmann nA (pi s))
  | KLReg beta pi prior => - beta * divergence_of nA (boltzmann nA (pi s)) (boltzmann nA prior)
  end.
Definition reg_ok (nA : nat) (r : regularizer) : Prop :=
  match r with EntropyReg _ pi => forall s, length (pi s) = nA | KLReg _ pi prior => (forall s, length (pi s) = nA) /\ length prior = nA end.

(** The environment that pays the bonus of the state with every reward. *)
Definition with_bonus (nA : nat) (r : regularizer) (dyn : nat -> nat -> nat * R * bool) (s a : nat) : nat * R * bool :=
  (fst (fst (dyn s a)), snd (fst (dyn s a)) + bonus nA r s, snd (dyn s a)).

(** [grads] computes the gradients of the loss, for genuine batches. *)
Definition rdifferentiates (nS nA : nat) (dyn : nat -> nat -> nat * R * bool) (gamma : R) (r : regularizer) (net : list R -> qfun nat R) (target : list R -> list R -> tbatch nat -> outcome (list R))
    (loss : list R -> list R -> option (list R) -> outcome (option R)) (grads : list R -> list R -> fbatch nat -> list R) : Prop :=
  forall th targ rows b, length th = (nS * nA)%nat -> length targ = (nS * nA)%nat -> genuine nS nA dyn gamma rows b ->
  gradient (fun p => loss_value (q_loss_reg nA r net target loss th targ b p)) th (grads th targ b).
Definition rsetting (nS nA : nat) (dyn : nat -> nat -> nat * R * bool) (gamma : R) (r : regularizer) (net : list R -> qfun nat R) (target : list R -> list R -> tbatch nat -> outcome (list R)) (val : valuation)
    (loss : list R -> list R -> option (list R) -> outcome (option R)) (grads : list R -> list R -> fbatch nat -> list R) (lr wl cl D : R) (B : nat) : Prop :=
  (1 <= nA)%nat /\ closed nS nA dyn /\ reg_ok nA r /\ 0 <= gamma <= 1 /\ (net = table1 nS \/ net = table2 nS nA) /\ algorithm nA net target val /\ pulls loss ((1 + gamma) * D) cl /\
  rdifferentiates nS nA dyn gamma r net target loss grads /\ 0 < lr /\ 0 < wl /\ lr * wl <= 1 /\ (1 <= B)%nat /\ 0 <= D.

(** The soft Bellman equation of the literature (soft actor-critic): the bonus of the next state, not of this one; none after the end. *)
Definition soft_bellman (nS nA : nat) (dyn : nat -> nat -> nat * R * bool) (gamma beta : R) (pi : nat -> list R) (q : nat -> nat -> R) : Prop :=
  forall s a, (s < nS)%nat -> (a < nA)%nat ->
  q s a = reward dyn s a + (if ends dyn s a then 0 else gamma * (expectation nA (boltzmann nA (pi (next dyn s a))) (q (next dyn s a)) + beta * entropy_of nA (boltzmann nA (pi (next dyn s a))))).
(** The expected discounted sum of the rewards and entropy bonuses of the first n steps when the policy acts, from state s. *)
Fixpoint soft_return (nA : nat) (dyn : nat -> nat -> nat * R * bool) (gamma beta : R) (pi : nat -> list R) (n : nat) (s : nat) : R :=
  match n with
  | O => 0
  | S n' => beta * entropy_of nA (boltzmann nA (pi s)) + expectation nA (boltzmann nA (pi s)) (fun a => reward dyn s a + (if ends dyn s a then 0 else gamma * soft_return nA dyn gamma beta pi n' (next dyn s a)))
  end.
