(** Model of TD learning with a policy regularizer: td_learning/_base.py:374-443 with regularizers/_base.py:69-89, _entropy.py:31-50,
    _kl_div.py:41-61 (users: entropy-regularised and SAC-style agents, policy_regularizer=EntropyRegularizer(pi, beta)).

    Simplifications: those of LearnModel.v (tables, SGD, Discrete spaces); the policy of the regularizer is a Policy with categorical
    actions, given by its logits, and does not change while the program runs. *)
From Coq Require Import List Bool Arith Reals.
From Verif Require Import PyCommon UtilsModel DistModel LossModel QModel TDModel PolicyModel CoreModel TracerModel WorkerModel LearnModel.
Import ListNotations.
Set Implicit Arguments.
Local Open Scope R_scope.

(** The argument policy_regularizer: _entropy.py:31-33, _kl_div.py:41-44 ([prior]: the one row of logits that is broadcast over the
    batch, by default zeros, _categorical.py:126-127). *)
Inductive regularizer : Type := EntropyReg (beta : R) (pi : nat -> list R) | KLReg (beta : R) (pi : nat -> list R) (prior : list R).

(** _base.py:398-406: regularizer.batch_eval(...), one number per row; evaluated at the states S of the batch. *)
Definition reg_rows (nA : nat) (r : regularizer) (S : list nat) (A : list (list R)) : outcome (list R) :=
  match r with
  | EntropyReg beta pi => bind (batch_eval (entropy_reg nA beta) (SType2 pi) S A) (collect (fun o => o))
  | KLReg beta pi prior => bind (batch_eval (fun z => kl_reg nA beta z prior) (SType2 pi) S A) (collect (fun o => o))
  end.

(** _base.py:374-443 [loss_func] with policy_regularizer, deterministic q: G -= regularizer (line 441). *)
Definition q_loss_reg (nA : nat) (r : regularizer) (net : list R -> qfun nat R) (target : list R -> list R -> tbatch nat -> outcome (list R))
    (loss : list R -> list R -> option (list R) -> outcome (option R)) (th0 targ : list R) (b : fbatch nat) (th : list R) : outcome (option R) :=
  bind (reg_rows nA r (fb_S b) (fb_A b)) (fun rg =>
  bind (eval1 (Some nA) (net th) (fb_S b) (fb_A b)) (fun Q =>
  bind (target th0 targ (fb_t b)) (fun G => td_loss loss G rg Q (fb_W b)))).

Section Loop.
Variable nA : nat.
Variable r : regularizer.
Variable net : list R -> qfun nat R.
Variable target : list R -> list R -> tbatch nat -> outcome (list R).
Variable loss : list R -> list R -> option (list R) -> outcome (option R).
(** jax.grad of the loss. *)
Variable grads : list R -> list R -> fbatch nat -> list R.
Variable sub : nat -> nat -> bool.

(** _base.py:456-468, 118-150, as LearnModel.grads_and_metrics. *)
Definition rgrads_and_metrics (tp : ptree) (b : fbatch nat) (p fs : ptree) (key : nat) : outcome (gtree * ptree * unit) :=
  match unwrap p, unwrap tp with
  | Some th, Some targ => bind (q_loss_reg nA r net target loss th targ b th) (fun _ => Ok (wrap (map (@Some R) (grads th targ b)), fs, tt))
  | _, _ => Err EKey
  end.
(** qlearning.update(batch), q_targ.soft_update(q, tau=tau), as LearnModel.ystep. *)
Definition rstep (y : sys) (o : yop) : sys * outcome unit :=
  match o with
  | YUpdate b => let (l, res) := update (rgrads_and_metrics (targ_params y) b) (y_learner y) in (mkSys l (y_targ y), res)
  | YSync tau =>
      match y_targ y with
      | None => (y, Err EAttribute)
      | Some t => let (t', res) := soft_update sub t (l_func (y_learner y)) tau in (mkSys (y_learner y) (Some t'), res)
      end
  end.
(** A program stops at the first exception. *)
Fixpoint rrun (y : sys) (os : list yop) : sys * outcome unit :=
  match os with
  | [] => (y, Ok tt)
  | o :: os' => match rstep y o with (y1, Ok _) => rrun y1 os' | (y1, Err e) => (y1, Err e) end
  end.
End Loop.
