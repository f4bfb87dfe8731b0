(** Model of PPOClip updates: policy network, objective, learner.
    coax/policy_objectives/_ppo_clip.py:52-88, coax/policy_objectives/_base.py:45-153; doc/examples/stubs/ppo.py:49-66.

    Simplifications, for the whole file: those of PgModel.v. *)
From Coq Require Import List Bool Arith Reals.
From Verif Require Import PyCommon UtilsModel DistModel LossModel QModel TDModel CoreModel TracerModel WorkerModel PolicyModel LearnModel PgModel AcModel.
Import ListNotations.
Set Implicit Arguments.
Local Open Scope R_scope.

(** A TransitionBatch with its field logP. *)
Record pbatch : Type := mk_pb { pb_b : fbatch nat; pb_logP : list R }.
(** Single transitions as one batch. *)
Definition pbatch_of (nA : nat) (xs : list (single nat nat)) : pbatch := mk_pb (batch_of nA xs) (map (@x_logp nat nat) xs).

Section Ppo.
Variable nA : nat.
Variable net : list R -> nat -> list R.
(** jax.grad of the loss: th, batch, Adv to the gradient at th. *)
Variable grads : list R -> pbatch -> list R -> list R.
(** _ppo_clip.py:54-56: the hyperparameter epsilon. *)
Variable eps : R.

(** _ppo_clip.py:66-88 [objective_func] as a function of the parameters. *)
Definition ppo_batch_objective (b : pbatch) (Adv : list R) (th : list R) : outcome (option R) :=
  bind (vmap2 (fun s a => (s, a)) (fb_S (pb_b b)) (fb_A (pb_b b))) (fun SA =>
  bind (collect (fun sa => cat_log_proba nA (net th (fst sa)) (snd sa)) SA) (fun logpi => ppo_objective eps (fb_W (pb_b b)) Adv (pb_logP b) logpi)).
(** _base.py:45-75 [loss_func] without regularizer. *)
Definition ppo_loss (b : pbatch) (Adv : list R) (th : list R) : outcome (option R) := policy_loss (ppo_batch_objective b Adv th) (fb_W (pb_b b)) None.
(** _base.py:77-86 [grads_and_metrics_func]. *)
Definition ppo_grads_and_metrics (b : pbatch) (Adv : list R) (p fs : ptree) (key : nat) : outcome (gtree * ptree * unit) :=
  match unwrap p with
  | Some th => bind (ppo_loss b Adv th) (fun _ => Ok (wrap (map (@Some R) (grads th b Adv)), fs, tt))
  | None => Err EKey
  end.
(** _base.py:128-153 [update]. *)
Definition ppo_update (b : pbatch) (Adv : list R) (l : learner) : learner * outcome unit := update (ppo_grads_and_metrics b Adv) l.
(** stubs/ppo.py:65: the updates of one round, from one batch after the other, with the given advantages; stops at an exception. *)
Fixpoint ppo_updates (bs : list (pbatch * list R)) (l : learner) : learner * outcome unit :=
  match bs with
  | [] => (l, Ok tt)
  | (b, Adv) :: bs' => match ppo_update b Adv l with (l1, Err e) => (l1, Err e) | (l1, Ok _) => ppo_updates bs' l1 end
  end.
End Ppo.
