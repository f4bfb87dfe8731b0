(** Model of TD learning with a quantile StochasticQ (value_range=None, so EmpiricalQuantileDist) in training:
    doc/examples/cartpole/iqn.py; coax/td_learning/_base.py:379-511 (class BaseTDLearningQ, the branches for stochastic q with
    EmpiricalQuantileDist), _sarsa.py:114-127, _qlearning.py:111-146, coax/_core/base_func.py:86-112 (soft_update).

    Simplifications, for the whole file:
    - observations and actions are numbers (Discrete spaces), one-hot encoded by the default preprocessors;
    - q is a type-1 function; its 'values' are a linear layer without bias on kron(S, A), i.e. a table with K values for every pair, and do not
      depend on the quantile fractions (in iqn.py they do, by an embedding); the 'quantile_fractions' are drawn anew in each call
      (iqn.py:39-41) and are arguments here;
    - no value transform; no regularizer;
    - optax.sgd without momentum; parameters are {'linear': {'w': th}}, function_state is carried along and not used. *)
From Coq Require Import List Bool Arith Reals.
From Verif Require Import PyCommon UtilsModel DistModel LossModel QModel TDModel CoreModel LearnModel MbModel CatModel.
Import ListNotations.
Set Implicit Arguments.
Local Open Scope R_scope.

Section Qr.
(** Numbers of states and actions; num_bins of the StochasticQ, the number of quantiles. *)
Variables nS nA K : nat.

(** iqn.py:33-49: the 'values' for a batch of states and (encoded) actions. *)
Definition qd_values (w : list R) (S : list nat) (A : list (list R)) : outcome (list (list R)) :=
  function_type1 (Some nA) (vmix K) (p_net K w) (map (one_hot nS) S) A.
(** q.mean(s, a), base_stochastic_func_type1.py:59-70 with _empirical_quantile.py:26-28: the mean of the values. *)
Definition qd_mean (w : list R) (s : nat) (a : list R) : R := eq_mean (linear K w (kron (one_hot nS s) a)).

(** The next actions: given by the batch (_sarsa.py:117) or greedy for q_targ (_qlearning.py:118-129). *)
Definition qd_next (alg : calg) (targ : list R) (b : tbatch nat) : outcome (list (list R)) :=
  match alg with
  | CSarsa => Ok (tb_Anext b)
  | CQ => bind (check_width nA (map (fun s => map (fun a => qd_mean targ s (one_hot nA a)) (seq 0 nA)) (tb_Snext b))) (fun Q => Ok (map greedy_mix Q))
  end.
(** _base.py:493-511 [_get_target_dist_params]: affine_transform with scale = In and shift = Rn, row by row
    (_empirical_quantile.py:41-66; check_shape is the check of the number of values; the reshapes, lines 53-54, raise TypeError when the
    numbers of rows differ; single-item arrays, which lines 48-51 broadcast, are not distinguished). *)
Fixpoint qd_affine (In Rn : list R) (Z : list (list R)) : outcome (list (list R)) :=
  match In, Rn, Z with
  | [], [], [] => Ok []
  | i :: In', r :: Rn', z :: Z' => if Nat.eqb (length z) K then bind (qd_affine In' Rn' Z') (fun l => Ok (eq_affine (fun x => x) (fun x => x) i r z :: l)) else Err EAssertion
  | _, _, _ => Err EType
  end.
Definition qd_target (alg : calg) (targ : list R) (b : tbatch nat) : outcome (list (list R)) :=
  bind (qd_next alg targ b) (fun A => bind (qd_values targ (tb_Snext b) A) (qd_affine (tb_In b) (tb_Rn b))).
(** _base.py:410-427: the weighted quantile Huber loss; [taus] are the quantile fractions of the call of q. *)
Definition qd_loss (alg : calg) (targ : list R) (taus : list (list R)) (b : fbatch nat) (w : list R) : outcome (option R) :=
  bind (qd_values w (fb_S b) (fb_A b)) (fun Z => bind (qd_target alg targ (fb_t b)) (fun T => td_loss_quantile T Z taus (fb_W b))).

(** * Training *)
Variable alg : calg.
(** jax.grad of the loss: target parameters, quantile fractions, batch and parameters to gradient. *)
Variable g : list R -> list (list R) -> fbatch nat -> list R -> list R.
Variable sub : nat -> nat -> bool.
(** updater.update(b) with these quantile fractions, q_targ.soft_update(q, tau); q and q_targ as in CatModel.v. *)
Inductive qop : Type := QU (b : fbatch nat) (taus : list (list R)) | QSync (tau : R).
Definition qstep (y : csys) (o : qop) : csys * outcome unit :=
  match o with
  | QU b taus =>
      match unwrap (match c_targ y with Some f => f_params f | None => f_params (l_func (c_q y)) end) with
      | None => (y, Err EKey)
      | Some targ => let (l, r) := update (gm (qd_loss alg targ taus b) (g targ taus b)) (c_q y) in (mkC l (c_targ y), r)
      end
  | QSync tau =>
      match c_targ y with
      | None => (y, Err EAttribute)
      | Some f => let (f', r) := soft_update sub f (l_func (c_q y)) tau in (mkC (c_q y) (Some f'), r)
      end
  end.
Fixpoint qrun (y : csys) (os : list qop) : csys * outcome unit :=
  match os with
  | [] => (y, Ok tt)
  | o :: os' => match qstep y o with (y1, Ok _) => qrun y1 os' | (y1, Err e) => (y1, Err e) end
  end.
(** q.dist_params(s, a)['values'] and q.mean(s, a). *)
Definition call_values (y : csys) (s a : nat) : outcome (list R) :=
  match unwrap (f_params (l_func (c_q y))) with Some w => Ok (linear K w (kron (one_hot nS s) (one_hot nA a))) | None => Err EKey end.
Definition call_qmean (y : csys) (s a : nat) : outcome R :=
  match unwrap (f_params (l_func (c_q y))) with Some w => Ok (qd_mean w s (one_hot nA a)) | None => Err EKey end.
End Qr.
