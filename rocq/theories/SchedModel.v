(** Model of an optimizer with a learning rate schedule: learners take any optax optimizer (td_learning/_base.py:36-45, 93-116), also
    optax.sgd(schedule), where schedule is a function of the number of updates made so far.

    optax is not part of the repository (requirements.txt: optax>=0.1.3); the formulas are those of its documentation: the state is
    (EmptyState(), ScaleByScheduleState(count)), an update multiplies the gradients by -schedule(count) and then increments count. *)
From Coq Require Import List Bool Arith Reals.
From Verif Require Import PyCommon UtilsModel DistModel CoreModel LearnModel.
Import ListNotations.
Set Implicit Arguments.
Local Open Scope R_scope.

(** optax.sgd(schedule); count is an array of one number. *)
Definition sgd_schedule (schedule : R -> R) : optimizer :=
  mkOpt (fun _ => Node [] [Node [] []; Node [0%nat] [Leaf [0]]])
    (fun g os _ =>
      match os with
      | Node ks [e; Node ks' [Leaf [count]]] => Ok (scaled (- schedule count) g, Node ks [e; Node ks' [Leaf [count + 1]]])
      | _ => Err EValue
      end).
(** QLearning(q, q_targ, loss_function=mse, optimizer=optax.sgd(schedule)) and the like, td_learning/_base.py:24-45. *)
Definition scheduled (schedule : R -> R) (f : func) (t : option func) : sys := mkSys (new_learner KTD f (sgd_schedule schedule)) t.
