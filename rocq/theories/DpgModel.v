(** Model of a DDPG training loop with discrete actions: DeterministicPG updates of the policy, Q-learning updates of the critic, target
    networks.  doc/examples/frozen_lake/ddpg.py:15-80, coax/policy_objectives/_deterministic_pg.py:58-137,
    coax/policy_objectives/_base.py:45-176, coax/td_learning/_qlearning.py:92-146.

    Simplifications, for the whole file: those of LearnModel.v and PgModel.v. *)
From Coq Require Import List Bool Arith Reals.
From Verif Require Import PyCommon UtilsModel DistModel LossModel QModel TDModel CoreModel TracerModel WorkerModel PolicyModel LearnModel.
Import ListNotations.
Set Implicit Arguments.
Local Open Scope R_scope.

Section Dpg.
Variable nA : nat.
(** gumbel_softmax_tau of the policy's CategoricalDist. *)
Variable tau : R.
(** The policy network: parameters and observation to logits; the q-function network. *)
Variable net : list R -> nat -> list R.
Variable qnet : list R -> qfun nat R.
(** jax.grad of the loss: policy parameters, parameters of the q-function, batch. *)
Variable grads : list R -> list R -> fbatch nat -> list R.

(** _deterministic_pg.py:62-66 (modeltype check) and 87-114 [objective_func] as a function of the policy parameters: the mode of the
    policy is a relaxed one-hot vector, which the type-1 q-function takes as its action. *)
Definition dpg_objective (qth : list R) (b : fbatch nat) (th : list R) : outcome (option R) :=
  match qnet qth with
  | Type2 _ => Err EType
  | Type1 f => bind (collect (fun s => bind (cat_mode nA tau (net th s)) (fun a => Ok (f s a))) (fb_S b)) (weighted_q (fb_W b))
  end.
(** _base.py:45-75 [loss_func] without regularizer. *)
Definition dpg_loss (qth : list R) (b : fbatch nat) (th : list R) : outcome (option R) := policy_loss (dpg_objective qth b th) (fb_W b) None.
(** _base.py:77-86 [grads_and_metrics_func]; the parameters of the q-function are a hyperparameter (_deterministic_pg.py:81-85). *)
Definition dpg_grads_and_metrics (qp : ptree) (b : fbatch nat) (p fs : ptree) (key : nat) : outcome (gtree * ptree * unit) :=
  match unwrap p, unwrap qp with
  | Some th, Some qth => bind (dpg_loss qth b th) (fun _ => Ok (wrap (map (@Some R) (grads th qth b)), fs, tt))
  | _, _ => Err EKey
  end.
(** _deterministic_pg.py:116-137 [update] (Adv is not used), _base.py:128-153. *)
Definition dpg_update (qp : ptree) (b : fbatch nat) (l : learner) : learner * outcome unit := update (dpg_grads_and_metrics qp b) l.
End Dpg.

(** * The loop *)

(** The critic with its target network, the policy, and the target network of the policy. *)
Record ddpg : Type := mkD { d_q : sys; d_pi : learner; d_pi_targ : func }.
(** qlearning.update or q_targ.soft_update; determ_pg.update(batch); pi_targ.soft_update(pi, tau). *)
Inductive dop : Type := DQ (o : yop) | DPi (b : fbatch nat) | DSync (t : R).

Section Loop.
Variable nA : nat.
Variable tau : R.
Variable net : list R -> nat -> list R.
Variable qnet : list R -> qfun nat R.
Variable loss : list R -> list R -> option (list R) -> outcome (option R).
Variable qgrads : list R -> list R -> fbatch nat -> list R.
Variable grads : list R -> list R -> fbatch nat -> list R.
Variable sub : nat -> nat -> bool.
(** Whether DeterministicPG was given the target network of the critic (its parameter is called q_targ) or, as in ddpg.py:43, the critic. *)
Variable use_targ : bool.
(** ddpg.py:66-71, in any order and number.  With discrete actions QLearning does not look at pi_targ (_qlearning.py:107-128). *)
Definition dstep (d : ddpg) (o : dop) : ddpg * outcome unit :=
  match o with
  | DQ o => let (y, r) := ystep nA qnet (target_q nA qnet) loss qgrads sub (d_q d) o in (mkD y (d_pi d) (d_pi_targ d), r)
  | DPi b => let (l, r) := dpg_update nA tau net qnet grads (if use_targ then targ_params (d_q d) else q_params (d_q d)) b (d_pi d) in (mkD (d_q d) l (d_pi_targ d), r)
  | DSync t => let (f, r) := soft_update sub (d_pi_targ d) (l_func (d_pi d)) t in (mkD (d_q d) (d_pi d) f, r)
  end.
(** A program stops at the first exception. *)
Fixpoint drun (d : ddpg) (os : list dop) : ddpg * outcome unit :=
  match os with
  | [] => (d, Ok tt)
  | o :: os' => match dstep d o with (d1, Ok _) => drun d1 os' | (d1, Err e) => (d1, Err e) end
  end.
End Loop.
