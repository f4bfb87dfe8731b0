(** Model of a policy-gradient training loop: policy network, VanillaPG with an SGD optimizer, Monte-Carlo tracer.
    doc/examples/stubs/reinforce.py:27-52, doc/examples/frozen_lake/reinforce.py:22-53, coax/policy_objectives/_base.py:45-153,
    coax/policy_objectives/_vanilla_pg.py:37-57.

    Simplifications, for the whole file:
    - observations and actions are numbers (Discrete spaces); the network [net] is any function from parameters and observation to logits;
    - its parameters are {'linear': {'w': th}}, th a flat array; function_state is carried along and not used;
    - optax.sgd without momentum in the place of optax.adam; no regularizer; metrics are left out. *)
From Coq Require Import List Bool Arith Reals.
From Verif Require Import PyCommon UtilsModel DistModel LossModel QModel TDModel CoreModel TracerModel WorkerModel PolicyModel LearnModel.
Import ListNotations.
Set Implicit Arguments.
Local Open Scope R_scope.

(** doc/examples/frozen_lake/reinforce.py:14-16: hk.Linear(env.action_space.n) on the one-hot encoded observation, without and with the
    bias (parameters: the bias, then the weights). *)
Definition logit_table (nS nA : nat) (w : list R) (s : nat) : list R := linear nA w (one_hot nS s).
Definition logit_table_b (nS nA : nat) (w : list R) (s : nat) : list R := zipw Rplus (firstn nA w) (linear nA (skipn nA w) (one_hot nS s)).

Section Reinforce.
Variable nA : nat.
Variable net : list R -> nat -> list R.
(** jax.grad of the loss: th, batch, Adv to the gradient at th. *)
Variable grads : list R -> fbatch nat -> list R -> list R.

(** _vanilla_pg.py:37-57 [objective_func] as a function of the parameters: forward pass, log-probabilities of the (one-hot encoded)
    actions, objective. *)
Definition pg_objective (b : fbatch nat) (Adv : list R) (th : list R) : outcome (option R) :=
  bind (vmap2 (fun s a => (s, a)) (fb_S b) (fb_A b)) (fun SA =>
  bind (collect (fun sa => cat_log_proba nA (net th (fst sa)) (snd sa)) SA) (fun logpi => vanilla_objective (fb_W b) Adv logpi)).
(** _base.py:45-75 [loss_func]. *)
Definition pg_loss (b : fbatch nat) (Adv : list R) (th : list R) : outcome (option R) := policy_loss (pg_objective b Adv th) (fb_W b) None.
(** _base.py:77-86 [grads_and_metrics_func]. *)
Definition pg_grads_and_metrics (b : fbatch nat) (Adv : list R) (p fs : ptree) (key : nat) : outcome (gtree * ptree * unit) :=
  match unwrap p with
  | Some th => bind (pg_loss b Adv th) (fun _ => Ok (wrap (map (@Some R) (grads th b Adv)), fs, tt))
  | None => Err EKey
  end.
(** _base.py:128-153 [update]. *)
Definition pg_update (b : fbatch nat) (Adv : list R) (l : learner) : learner * outcome unit := update (pg_grads_and_metrics b Adv) l.

Variable gamma : R.
(** reinforce.py:43-46: while tracer: transition_batch = tracer.pop(); vanilla_pg.update(transition_batch, Adv=transition_batch.Rn).  Each
    pop shortens the cache; the number of iterations is at most its length. *)
Fixpoint rf_drain (fuel : nat) (l : learner) (t : mstate nat nat) : learner * mstate nat nat * outcome unit :=
  match fuel with
  | O => (l, t, Ok tt)
  | S fuel' =>
      if mc_bool t then
        match mc_pop gamma t with
        | (t1, Err e) => (l, t1, Err e)
        | (t1, Ok x) =>
            let b := batch_of nA [x] in
            match pg_update b (tb_Rn (fb_t b)) l with
            | (l1, Err e) => (l1, t1, Err e)
            | (l1, Ok _) => rf_drain fuel' l1 t1
            end
        end
      else (l, t, Ok tt)
  end.
(** reinforce.py:36-46 for the step described by [c]; add has the default w = 1.0. *)
Definition rf_step (l : learner) (t : mstate nat nat) (c : call nat nat) : learner * mstate nat nat * outcome unit :=
  match mc_add t (mkStep (c_s c) (c_a c) (c_logp c) 1 true) (c_r c) (c_done c) with
  | (t1, Some e) => (l, t1, Err e)
  | (t1, None) => rf_drain (mc_len t1) l t1
  end.
(** reinforce.py:29-52: any number of steps of any number of episodes. *)
Fixpoint rf_loop (l : learner) (t : mstate nat nat) (cs : list (call nat nat)) : learner * mstate nat nat * outcome unit :=
  match cs with
  | [] => (l, t, Ok tt)
  | c :: cs' => match rf_step l t c with (l1, t1, Err e) => (l1, t1, Err e) | (l1, t1, Ok _) => rf_loop l1 t1 cs' end
  end.
End Reinforce.
