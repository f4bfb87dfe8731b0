(** Specifications for LearnModel.v: finite deterministic environments, their optimal values, genuine batches. *)
From Coq Require Import List Bool Arith Reals.
From Verif Require Import PyCommon UtilsSpec DistModel LossModel LossSpec QModel TDModel TDSpec CoreModel CoreSpec LearnModel WorkerModel.
Import ListNotations.
Set Implicit Arguments.
Local Open Scope R_scope.

(** How a state is valued from the q-values of its actions: by their maximum, their expectation under a policy given by logits, their
    soft maximum. *)
Definition valuation : Type := nat -> (nat -> R) -> R -> Prop.
Definition by_max (nA : nat) : valuation := fun _ h m => is_maximum nA h m.
Definition by_policy (nA : nat) (pi : nat -> list R) : valuation := fun s h m => m = expectation nA (boltzmann nA (pi s)) h.
Definition by_soft (nA : nat) (t : R) : valuation := fun _ h m => m = soft_maximum nA t h.
(** QLearning, ExpectedSarsa with a policy given by logits, SoftQLearning. *)
Inductive algorithm (nA : nat) (net : list R -> qfun nat R) : (list R -> list R -> tbatch nat -> outcome (list R)) -> valuation -> Prop :=
| alg_q : algorithm nA net (target_q nA net) (by_max nA)
| alg_expected : forall pi, (forall s, length (pi s) = nA) -> algorithm nA net (target_expected nA net pi) (by_policy nA pi)
| alg_soft : forall t, 0 < t -> algorithm nA net (target_soft nA net t) (by_soft nA t).

(** How strongly a loss pulls a prediction to its target when they are at most M apart: its derivative is at least cl times the
    distance.  The squared loss: cl = 1.  The Huber loss: cl * M <= delta. *)
Definition pulls (loss : list R -> list R -> option (list R) -> outcome (option R)) (M cl : R) : Prop :=
  (loss = mse /\ cl = 1) \/ (exists delta, loss = huber delta /\ 0 < delta /\ 0 < cl <= 1 /\ cl * M <= delta).

Section Env.
Variables nS nA : nat.
(** What an action does in a state: next state, reward, terminated. *)
Variable dyn : nat -> nat -> nat * R * bool.
Definition next (s a : nat) : nat := fst (fst (dyn s a)).
Definition reward (s a : nat) : R := snd (fst (dyn s a)).
Definition ends (s a : nat) : bool := snd (dyn s a).
Definition closed : Prop := forall s a, (s < nS)%nat -> (a < nA)%nat -> (next s a < nS)%nat.

(** The discounted return of the first n rewards when the actions are acts 0, acts 1, ... *)
Fixpoint partial_sum (gamma : R) (n : nat) (s : nat) (acts : nat -> nat) : R :=
  match n with
  | O => 0
  | S n' => reward s (acts 0%nat) + (if ends s (acts 0%nat) then 0 else gamma * partial_sum gamma n' (next s (acts 0%nat)) (fun k => acts (S k)))
  end.
Definition legal (acts : nat -> nat) : Prop := forall k, (acts k < nA)%nat.
(** q(s, a) is the largest discounted return of all action sequences that begin with a. *)
Definition optimal (gamma : R) (q : nat -> nat -> R) : Prop := forall s a, (s < nS)%nat -> (a < nA)%nat ->
  (forall acts, legal acts -> acts 0%nat = a -> forall eps, 0 < eps -> exists N, forall n, (N <= n)%nat -> partial_sum gamma n s acts <= q s a + eps) /\
  (exists acts, legal acts /\ acts 0%nat = a /\ forall eps, 0 < eps -> exists N, forall n, (N <= n)%nat -> Rabs (partial_sum gamma n s acts - q s a) <= eps).

(** The Bellman equation. *)
Definition bellman (gamma : R) (val : valuation) (q : nat -> nat -> R) : Prop := forall s a, (s < nS)%nat -> (a < nA)%nat ->
  exists m, val (next s a) (q (next s a)) m /\ q s a = reward s a + (if ends s a then 0 else gamma * m).

(** The rows of a batch are true transitions of the environment, with the state-action pairs [rows]. *)
Definition genuine (gamma : R) (rows : list (nat * nat)) (b : fbatch nat) : Prop :=
  rows <> [] /\ fb_S b = map fst rows /\ fb_A b = map (fun r => one_hot nA (snd r)) rows /\ length (fb_W b) = length rows /\
  length (tb_Rn (fb_t b)) = length rows /\ length (tb_In (fb_t b)) = length rows /\ length (tb_Snext (fb_t b)) = length rows /\
  forall i s a s', nth_error rows i = Some (s, a) -> nth_error (tb_Snext (fb_t b)) i = Some s' ->
    (s < nS)%nat /\ (a < nA)%nat /\ (s' < nS)%nat /\ nth i (tb_Rn (fb_t b)) 0 = reward s a /\
    (if ends s a then nth i (tb_In (fb_t b)) 0 = 0 else nth i (tb_In (fb_t b)) 0 = gamma /\ s' = next s a).
(** The importance weights, clipped to [0.1, 10], are at least wl, and small enough for the learning rate. *)
Definition weights_fit (lr wl : R) (b : fbatch nat) : Prop := forall w, In w (fb_W b) -> wl <= Rmax (1/10) (Rmin w 10) /\ lr * Rmax (1/10) (Rmin w 10) <= 1.

(** [grads] computes the gradients of the loss with respect to the parameters, for genuine batches and tables of the right size. *)
Definition differentiates (gamma : R) (net : list R -> qfun nat R) (target : list R -> list R -> tbatch nat -> outcome (list R))
    (loss : list R -> list R -> option (list R) -> outcome (option R)) (grads : list R -> list R -> fbatch nat -> list R) : Prop :=
  forall th targ rows b, length th = (nS * nA)%nat -> length targ = (nS * nA)%nat -> genuine gamma rows b ->
  gradient (fun p => loss_value (q_loss (Some nA) net target loss th targ b p)) th (grads th targ b).

(** The q-function with these parameters returns numbers at most D away from q. *)
Definition within (net : list R -> qfun nat R) (p : ptree) (q : nat -> nat -> R) (D : R) : Prop :=
  exists th, p = Node [0%nat] [Node [0%nat] [Leaf th]] /\ length th = (nS * nA)%nat /\
  forall s a, (s < nS)%nat -> (a < nA)%nat -> exists x, q_call_a (Some nA) (one_hot nA) (fun x => x) (net th) s a = Ok x /\ Rabs (x - q s a) <= D.

(** Programs: updates on genuine batches of at most B rows, and synchronisations. *)
Definition op_ok (gamma lr wl : R) (B : nat) (o : yop) : Prop :=
  match o with
  | YUpdate b => exists rows, genuine gamma rows b /\ weights_fit lr wl b /\ (length rows <= B)%nat
  | YSync tau => 0 <= tau <= 1
  end.
Definition visits (o : yop) (s a : nat) : Prop :=
  match o with YUpdate b => exists i, nth_error (fb_S b) i = Some s /\ nth_error (fb_A b) i = Some (one_hot nA a) | YSync _ => False end.
Definition covers (os : list yop) : Prop := forall s a, (s < nS)%nat -> (a < nA)%nat -> exists o, In o os /\ visits o s a.

(** A part of a program that updates every pair and then, if there is a target network, synchronises with at least tau0. *)
Definition one_round (gamma lr wl tau0 : R) (B : nat) (y : sys) (os : list yop) : Prop :=
  (forall o, In o os -> op_ok gamma lr wl B o) /\
  match y_targ y with
  | None => covers os /\ forall o, In o os -> exists b, o = YUpdate b
  | Some _ => exists os1 tau os2, os = os1 ++ YSync tau :: os2 /\ covers os1 /\ tau0 <= tau
  end.

(** The calls made in one episode: they follow the environment and only the last one is done. *)
Fixpoint plays (cs : list (call nat nat)) : Prop :=
  match cs with
  | [] => False
  | c :: cs' =>
      (c_s c < nS)%nat /\ (c_a c < nA)%nat /\ c_logp c <= 0 /\ c_r c = reward (c_s c) (c_a c) /\ c_done c = ends (c_s c) (c_a c) /\
      match cs' with [] => c_done c = true | c' :: _ => c_done c = false /\ c_s c' = next (c_s c) (c_a c) /\ plays cs' end
  end.
(** Episodes in which every pair occurs. *)
Definition explores (es : list (list (call nat nat))) : Prop :=
  (forall cs, In cs es -> plays cs) /\ forall s a, (s < nS)%nat -> (a < nA)%nat -> exists cs c, In cs es /\ In c cs /\ c_s c = s /\ c_a c = a.
(** A table as the q-function, one of the algorithms, one of the losses, gradients, and the constants. *)
Definition setting (gamma : R) (net : list R -> qfun nat R) (target : list R -> list R -> tbatch nat -> outcome (list R)) (val : valuation)
    (loss : list R -> list R -> option (list R) -> outcome (option R)) (grads : list R -> list R -> fbatch nat -> list R) (lr wl cl D : R) (B : nat) : Prop :=
  (1 <= nA)%nat /\ closed /\ 0 <= gamma <= 1 /\ (net = table1 nS \/ net = table2 nS nA) /\ algorithm nA net target val /\ pulls loss ((1 + gamma) * D) cl /\
  differentiates gamma net target loss grads /\ 0 < lr /\ 0 < wl /\ lr * wl <= 1 /\ (1 <= B)%nat /\ 0 <= D.
End Env.
(** A learner that uses SGD; its target network, if any, was made by copying. *)
Definition sgd_learner (lr : R) (sub : nat -> nat -> bool) (y : sys) : Prop :=
  l_opt (y_learner y) = sgd lr /\
  match y_targ y with None => True | Some t => sub (f_cls (l_func (y_learner y))) (f_cls t) = true /\ shape (f_state t) = shape (f_state (l_func (y_learner y))) end.
