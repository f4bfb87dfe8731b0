(** Model of a model-based agent: a table v learnt by SimpleTD, tables p and r learnt by ModelUpdater, and the composite q-function
    SuccessorStateQ(v, p, r, gamma) that an EpsilonGreedy policy uses.  doc/examples/cartpole/model_based.py:36-70,
    coax/model_updaters/_model_updater.py:56-170, coax/td_learning/_base.py:222-318 (class BaseTDLearningV), _simple_td.py:71-81,
    coax/_core/successor_state_q.py:105-243.

    Simplifications, for the whole file:
    - observations and actions are numbers (Discrete spaces), one-hot encoded by the default preprocessors (transition_model.py:69-74
      and value_func preprocessors give the same encoding); v, r and p are linear layers without bias on the encodings;
    - v_targ is v (as in the example); no value transforms; no regularizers;
    - optax.sgd without momentum; parameters are {'linear': {'w': th}}, function_state is carried along and not used. *)
From Coq Require Import List Bool Arith Reals.
From Verif Require Import PyCommon UtilsModel DistModel LossModel QModel TDModel CoreModel StochModel LearnModel.
Import ListNotations.
Set Implicit Arguments.
Local Open Scope R_scope.

(** * The networks, on preprocessed observations *)

(** The transition model: hk.Linear(nS)(kron(S, A)). *)
Definition p_net (nS : nat) (w : list R) : qfun (list R) (list R) := Type1 (fun s a => linear nS w (kron s a)).
(** The reward function: hk.Linear(1)(kron(S, A)), raveled. *)
Definition r_net (w : list R) : qfun (list R) R := Type1 (fun s a => nth 0 (linear 1 w (kron s a)) 0).
(** The state values: hk.Linear(1)(S), raveled. *)
Definition v_net (w s : list R) : R := nth 0 (linear 1 w s) 0.

Section Agent.
Variables nS nA : nat.

(** * The losses *)

(** _model_updater.py:71-104 for a TransitionModel, with an elementwise loss function l. *)
Definition p_loss (l : R -> R -> R) (b : fbatch nat) (w : list R) : outcome (option R) :=
  bind (function_type1 (Some nA) (vmix nS) (p_net nS w) (map (one_hot nS) (fb_S b)) (fb_A b)) (fun pred =>
  mu_loss l (fun x => x) None (tb_Rn (fb_t b)) (map (one_hot nS) (tb_Snext (fb_t b))) (fb_W b) (MTransition pred)).
(** The same for a RewardFunction. *)
Definition r_loss (l : R -> R -> R) (b : fbatch nat) (w : list R) : outcome (option R) :=
  bind (function_type1 (Some nA) dot (r_net w) (map (one_hot nS) (fb_S b)) (fb_A b)) (fun pred =>
  mu_loss l (fun x => x) None (tb_Rn (fb_t b)) (map (one_hot nS) (tb_Snext (fb_t b))) (fb_W b) (MReward pred)).
(** td_learning/_base.py:243-295 [loss_func] of a deterministic v: the target uses the parameters targ, which are not differentiated. *)
Definition v_loss (loss : list R -> list R -> option (list R) -> outcome (option R)) (targ : list R) (b : fbatch nat) (w : list R) : outcome (option R) :=
  bind (simple_td (fun x => x) (fun x => x) (fun s => v_net targ (one_hot nS s)) (fb_t b)) (fun G =>
  td_loss loss G (map (fun _ => 0) G) (map (fun s => v_net w (one_hot nS s)) (fb_S b)) (fb_W b)).

(** * The updaters *)

(** grads_and_metrics of an updater (_model_updater.py:106-115, 154-175; _base.py:300-318, 118-150), without metrics: g is jax.grad of the loss. *)
Definition gm (loss : list R -> outcome (option R)) (g : list R -> list R) (p fs : ptree) (key : nat) : outcome (gtree * ptree * unit) :=
  match unwrap p with
  | Some th => bind (loss th) (fun _ => Ok (wrap (map (@Some R) (g th)), fs, tt))
  | None => Err EKey
  end.
Variables (lp lr : R -> R -> R) (lv : list R -> list R -> option (list R) -> outcome (option R)).
(** jax.grad of the three losses: batch and parameters to gradient. *)
Variables gp gr gv : fbatch nat -> list R -> list R.
Record agent : Type := mk_agent { ag_v : learner; ag_p : learner; ag_r : learner }.
(** simple_td.update(b), ModelUpdater(p).update(b), ModelUpdater(r).update(b). *)
Inductive aop : Type := AV (b : fbatch nat) | AP (b : fbatch nat) | AR (b : fbatch nat).
Definition astep (y : agent) (o : aop) : agent * outcome unit :=
  match o with
  | AV b => let (l, r) := update (gm (fun th => v_loss lv th b th) (gv b)) (ag_v y) in (mk_agent l (ag_p y) (ag_r y), r)
  | AP b => let (l, r) := update (gm (p_loss lp b) (gp b)) (ag_p y) in (mk_agent (ag_v y) l (ag_r y), r)
  | AR b => let (l, r) := update (gm (r_loss lr b) (gr b)) (ag_r y) in (mk_agent (ag_v y) (ag_p y) l, r)
  end.
Fixpoint arun (y : agent) (os : list aop) : agent * outcome unit :=
  match os with
  | [] => (y, Ok tt)
  | o :: os' => match astep y o with (y1, Ok _) => arun y1 os' | (y1, Err e) => (y1, Err e) end
  end.

(** * The composite q-function *)

(** successor_state_q.py:217-243: q(s, a) and q(s) with q = SuccessorStateQ(v, p, r, gamma). *)
Definition ag_call_a (gamma : R) (y : agent) (s a : nat) : outcome R :=
  match unwrap (f_params (l_func (ag_v y))), unwrap (f_params (l_func (ag_p y))), unwrap (f_params (l_func (ag_r y))) with
  | Some wv, Some wp, Some wr =>
      ssq_call_a (Some nA) (vmix nS) dot (fun x => x) (fun x => x) (v_net wv) (fun x => x) (fun x => x) gamma (p_net nS wp) (r_net wr) (one_hot nS s) (one_hot nA a)
  | _, _, _ => Err EKey
  end.
Definition ag_call_s (gamma : R) (y : agent) (s : nat) : outcome (list R) :=
  match unwrap (f_params (l_func (ag_v y))), unwrap (f_params (l_func (ag_p y))), unwrap (f_params (l_func (ag_r y))) with
  | Some wv, Some wp, Some wr =>
      ssq_call_s (Some nA) (one_hot nA) (fun x => x) (fun x => x) (v_net wv) (fun x => x) (fun x => x) gamma (p_net nS wp) (r_net wr) (one_hot nS s)
  | _, _, _ => Err EKey
  end.
End Agent.
