(** Model of distributional TD learning with a categorical StochasticQ (DiscretizedIntervalDist) in training:
    doc/examples/frozen_lake/stochastic_sarsa.py, stochastic_qlearning.py; coax/td_learning/_base.py:379-511 (class BaseTDLearningQ,
    the branches for stochastic q), _sarsa.py:114-127, _qlearning.py:111-146, coax/_core/base_func.py:86-112 (soft_update).

    Simplifications, for the whole file:
    - observations and actions are numbers (Discrete spaces), one-hot encoded by the default preprocessors;
    - q is a type-1 function whose logits are a linear layer without bias on kron(S, A), as in the examples (hk.Linear there has a bias);
    - no value transform; no regularizer;
    - optax.sgd without momentum; parameters are {'linear': {'w': th}}, function_state is carried along and not used. *)
From Coq Require Import List Bool Arith Reals.
From Verif Require Import PyCommon UtilsModel DistModel LossModel QModel TDModel CoreModel LearnModel MbModel.
Import ListNotations.
Set Implicit Arguments.
Local Open Scope R_scope.

Section Cat.
(** Numbers of states and actions; num_bins and value_range of the StochasticQ. *)
Variables nS nA K : nat.
Variables lo hi : R.

(** stochastic_qlearning.py:15-18: the logits of a batch of states and (encoded) actions. *)
Definition cd_logits (w : list R) (S : list nat) (A : list (list R)) : outcome (list (list R)) :=
  function_type1 (Some nA) (vmix K) (p_net K w) (map (one_hot nS) S) A.
(** q.mean(s, a), base_stochastic_func_type1.py:48-66 with _discretized_interval.py:150-160: the mean of the atoms. *)
Definition cd_value (w : list R) (s : nat) (a : list R) : outcome R := bind (cat_mean K (linear K w (kron (one_hot nS s) a))) (di_post K lo hi).
(** q.mean_func_type2 and postprocess_variate, one state: the means for all actions. *)
Definition cd_values (w : list R) (s : nat) : outcome (list R) := collect (fun a => cd_value w s (one_hot nA a)) (seq 0 nA).

(** The next actions: given by the batch (_sarsa.py:117) or greedy for q_targ (_qlearning.py:118-129). *)
Inductive calg : Type := CSarsa | CQ.
Definition cd_next (alg : calg) (targ : list R) (b : tbatch nat) : outcome (list (list R)) :=
  match alg with
  | CSarsa => Ok (tb_Anext b)
  | CQ => bind (collect (cd_values targ) (tb_Snext b)) (fun Q => bind (check_width nA Q) (fun Q => Ok (map greedy_mix Q)))
  end.
(** _base.py:493-508 [_get_target_dist_params]; affine_transform with scale = In and shift = Rn, row by row
    (_discretized_interval.py:69-84; single-item arrays, which are broadcast there, are not distinguished). *)
Fixpoint cd_affine (In Rn : list R) (Z : list (list R)) : outcome (list (list R)) :=
  match In, Rn, Z with
  | [], [], [] => Ok []
  | i :: In', r :: Rn', z :: Z' => bind (di_affine K lo hi (fun x => x) (fun x => x) i r z) (fun t => bind (cd_affine In' Rn' Z') (fun l => Ok (t :: l)))
  | _, _, _ => Err EAssertion
  end.
Definition cd_target (alg : calg) (targ : list R) (b : tbatch nat) : outcome (list (list R)) :=
  bind (cd_next alg targ b) (fun A => bind (cd_logits targ (tb_Snext b) A) (cd_affine (tb_In b) (tb_Rn b))).
(** _expectedsarsa.py:104-121 for a stochastic q: the action propensities of pi_targ, given here by its logits at the next states. *)
Definition cd_target_exp (pi : nat -> list R) (targ : list R) (b : tbatch nat) : outcome (list (list R)) :=
  bind (cd_logits targ (tb_Snext b) (map (fun s => softmax (pi s)) (tb_Snext b))) (cd_affine (tb_In b) (tb_Rn b)).
(** _base.py:410-452: the cross-entropies and their mean; W only has to have the right shape (line 444). *)
Definition cd_loss (alg : calg) (targ : list R) (b : fbatch nat) (w : list R) : outcome (option R) :=
  bind (cd_logits w (fb_S b) (fb_A b)) (fun Z => bind (cd_target alg targ (fb_t b)) (fun T =>
  bind (vmap2 (cat_cross_entropy K) T Z) (fun ces => bind (collect (fun c => c) ces) (fun ce =>
  if Nat.eqb (length (fb_W b)) (length ce) then Ok (td_loss_discretized ce (clip_w (fb_W b))) else Err EAssertion)))).

(** * Training *)
Variable alg : calg.
(** jax.grad of the loss: target parameters, batch and parameters to gradient. *)
Variable g : list R -> fbatch nat -> list R -> list R.
Variable sub : nat -> nat -> bool.
(** The updater with q, and q_targ (None: q_targ is q, _base.py:39). *)
Record csys : Type := mkC { c_q : learner; c_targ : option func }.
(** updater.update(b), q_targ.soft_update(q, tau). *)
Inductive cop : Type := CU (b : fbatch nat) | CSync (tau : R).
Definition cstep (y : csys) (o : cop) : csys * outcome unit :=
  match o with
  | CU b =>
      match unwrap (match c_targ y with Some f => f_params f | None => f_params (l_func (c_q y)) end) with
      | None => (y, Err EKey)
      | Some targ => let (l, r) := update (gm (cd_loss alg targ b) (g targ b)) (c_q y) in (mkC l (c_targ y), r)
      end
  | CSync tau =>
      match c_targ y with
      | None => (y, Err EAttribute)
      | Some f => let (f', r) := soft_update sub f (l_func (c_q y)) tau in (mkC (c_q y) (Some f'), r)
      end
  end.
Fixpoint crun (y : csys) (os : list cop) : csys * outcome unit :=
  match os with
  | [] => (y, Ok tt)
  | o :: os' => match cstep y o with (y1, Ok _) => crun y1 os' | (y1, Err e) => (y1, Err e) end
  end.
(** q.dist_params(s, a) as probabilities (softmax of the logits, stochastic_qlearning.py:66-67), and q.mean(s, a). *)
Definition call_probs (y : csys) (s a : nat) : outcome (list R) :=
  match unwrap (f_params (l_func (c_q y))) with Some w => cat_mean K (linear K w (kron (one_hot nS s) (one_hot nA a))) | None => Err EKey end.
Definition call_mean (y : csys) (s a : nat) : outcome R :=
  match unwrap (f_params (l_func (c_q y))) with Some w => cd_value w s (one_hot nA a) | None => Err EKey end.
End Cat.
