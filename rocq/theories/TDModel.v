(** Model of the TD-learning targets and losses: coax/td_learning/*.py.  Networks are arbitrary functions acting row by row (QModel);
    a target policy is the function from states to its logits, its mode or its sample. *)
From Coq Require Import List Bool Arith Reals.
From Verif Require Import PyCommon UtilsModel DistModel LossModel QModel.
Import ListNotations.
Set Implicit Arguments.
Local Open Scope R_scope.

(** The fields of a TransitionBatch that the targets use; all lists have the batch size as length. *)
Record tbatch (St : Type) : Type := mk_tb { tb_Rn : list R; tb_In : list R; tb_Snext : list St; tb_Anext : list (list R) }.
Arguments mk_tb {St}.

(** f(Rn + In * f_inv(X)), elementwise; the last line of every target_func. *)
Fixpoint bootstrap (f f_inv : R -> R) (Rn In X : list R) : outcome (list R) :=
  match Rn, In, X with
  | [], [], [] => Ok []
  | r :: Rn', i :: In', x :: X' => bind (bootstrap f f_inv Rn' In' X') (fun l => Ok (f (r + i * f_inv x) :: l))
  | _, _, _ => Err EValue
  end.

(** max along axis 1, one row. *)
Definition rowmax (l : list R) : R := match l with [] => 0 | x :: l' => rmax_list x l' end.
(** _qlearning.py:128-129: (Q_s == max).astype / sum, one row ("there may be ties"); max of an empty axis raises ValueError, but then
    action_space.n = 0, which gymnasium does not allow. *)
Definition greedy_mix (q : list R) : list R :=
  let e := map (fun x => if Req_EM_T x (rowmax q) then 1 else 0) q in map (fun x => x / rsum e) e.
(** _qlearning.py:124-125 and similar: the row width must be the number of actions. *)
Definition check_width (n : nat) (Q : list (list R)) : outcome (list (list R)) := if forallb (fun q => Nat.eqb (length q) n) Q then Ok Q else Err EAssertion.

Section Targets.
Variable St : Type.
Variable discrete : option nat.
Variable enc : nat -> list R.
Notation qf := (qfun St R).
(** Value transforms: [f] of the function being learnt, [g] the inverse function of the target function. *)
Variables f g : R -> R.
Implicit Types b : tbatch St.

Definition eval1 (q : qf) (S : list St) (A : list (list R)) := function_type1 discrete dot q S A.
Definition eval2 (q : qf) (S : list St) := function_type2 discrete enc q S.
Definition finish b (X : list R) := bootstrap f g (tb_Rn b) (tb_In b) X.

(** _simple_td.py:71-81. *)
Definition simple_td (v : St -> R) b := finish b (map v (tb_Snext b)).
(** _sarsa.py:69-80. *)
Definition sarsa (q_targ : qf) b := bind (eval1 q_targ (tb_Snext b) (tb_Anext b)) (finish b).
(** _expectedsarsa.py:100-118: [pi] gives the logits of pi_targ. *)
Definition expected_sarsa (pi : St -> list R) (q_targ : qf) b := bind (eval1 q_targ (tb_Snext b) (map (fun s => softmax (pi s)) (tb_Snext b))) (finish b).
(** _qlearning.py:111-146, discrete actions: greedy with respect to q_targ's type-2 view, evaluated by q's forward pass with
    q_targ's parameters ([q_at_targ]; equal to q_targ when q_targ is a copy of q). *)
Definition q_learning (n : nat) (q_targ q_at_targ : qf) b :=
  bind (eval2 q_targ (tb_Snext b)) (fun Q => bind (check_width n Q) (fun Q => bind (eval1 q_at_targ (tb_Snext b) (map greedy_mix Q)) (finish b))).
(** _qlearning.py:131-146, other action spaces: [pi] gives the mode of pi_targ. *)
Definition q_learning_pi (pi : St -> list R) (q_at_targ : qf) b := bind (eval1 q_at_targ (tb_Snext b) (map pi (tb_Snext b))) (finish b).
(** _doubleqlearning.py:99-134: greedy with respect to q_targ, evaluated on q. *)
Definition double_q (n : nat) (q_targ q : qf) b := q_learning n q_targ q b.
(** _softqlearning.py:95-106. *)
Definition soft_q (n : nat) (temperature : R) (q_targ : qf) b :=
  bind (eval2 q_targ (tb_Snext b)) (fun Q => bind (check_width n Q) (fun Q => finish b (map (fun q => temperature * ln (sumexp (map (fun x => x / temperature) q))) Q))).

(** _clippeddoubleqlearning.py:232-298, discrete actions: all pairs, i outer and j inner, of the values of q_j at the greedy action of
    q_i, each un-transformed with q_j's own inverse function. *)
Fixpoint collect {A B : Type} (h : A -> outcome B) (l : list A) : outcome (list B) :=
  match l with [] => Ok [] | x :: l' => bind (h x) (fun y => bind (collect h l') (fun r => Ok (y :: r))) end.
Definition clipped_pairs (qs : list (qf * (R -> R))) (S : list St) : outcome (list (list R * list (list R))) :=
  bind (collect (fun qi => bind (eval2 (fst qi) S) (fun Q => let A := map greedy_mix Q in
    collect (fun qj => bind (eval1 (fst qj) S A) (fun X => Ok (map (snd qj) X, A))) qs)) qs) (fun ll => Ok (concat ll)).
(** The same for other action spaces (267-293); [acts] are the modes (ClippedDoubleQLearning) or samples (SoftClippedDoubleQLearning,
    _softclippeddoubleqlearning.py:55-81) of the target policies. *)
Definition clipped_pairs_pi (acts : list (St -> list R)) (qs : list (qf * (R -> R))) (S : list St) : outcome (list (list R * list (list R))) :=
  bind (collect (fun pi => collect (fun qj => bind (eval1 (fst qj) S (map pi S)) (fun X => Ok (map (snd qj) X, map pi S))) qs) acts) (fun ll => Ok (concat ll)).
(** jnp.min over the pairs for batch row b (330). *)
Fixpoint rmin_list (x : R) (l : list R) : R := match l with [] => x | y :: l' => rmin_list (Rmin x y) l' end.
Definition rowmin (l : list R) : R := match l with [] => 0 | x :: l' => rmin_list x l' end.
Definition pair_row (ps : list (list R * list (list R))) (k : nat) : list R := map (fun p => nth k (fst p) 0) ps.
(** 330-333. *)
Definition clipped_finish b (ps : list (list R * list (list R))) := bootstrap f (fun x => x) (tb_Rn b) (tb_In b) (map (fun k => rowmin (pair_row ps k)) (seq 0 (length (tb_Snext b)))).
(** _clippeddoubleqlearning.py:109-118 (constructor check) and 229-333 (target_func), deterministic q. *)
Definition clipped_double_q (qs : list (qf * (R -> R))) b :=
  if Nat.ltb (length qs) 2 then Err EValue else bind (clipped_pairs qs (tb_Snext b)) (clipped_finish b).
Definition clipped_double_q_pi (acts : list (St -> list R)) (qs : list (qf * (R -> R))) b :=
  if Nat.ltb (length qs * length acts) 2 then Err EValue else bind (clipped_pairs_pi acts qs (tb_Snext b)) (clipped_finish b).

(** 300-310: for a stochastic q the row k of the batch uses the parameters of target q-function number [argmin % len(q_targ_list)] and
    the next action number [argmin]. *)
Definition jargmin_aux := fix go (l : list R) (i : nat) (best : nat) (m : R) : nat := match l with [] => best | x :: l' => if Rlt_dec x m then go l' (S i) i x else go l' (S i) best m end.
Definition jargmin (l : list R) : nat := match l with [] => 0%nat | x :: l' => jargmin_aux l' 1%nat 0%nat x end.
Definition clipped_choice (n_q : nat) (ps : list (list R * list (list R))) (k : nat) : nat * list R :=
  let j := jargmin (pair_row ps k) in (Nat.modulo j n_q, nth k (snd (nth j ps ([], []))) []).
End Targets.

(** * Loss and TD-error *)

(** _base.py:240, 396: W = clip(W, 0.1, 10). *)
Definition clip_w (W : list R) : list R := map (fun w => clip w (1/10) 10) W.
(** _base.py:281-286, 438-443 (deterministic functions): G -= regularizer; loss_function(G, Q, W). *)
Definition td_loss (loss : list R -> list R -> option (list R) -> outcome (option R)) (G reg Q W : list R) : outcome (option R) := loss (zipw Rminus G reg) Q (Some (clip_w W)).
(** _base.py:264-269, 421-426 (stochastic functions): DiscretizedIntervalDist: the mean of the cross entropies [ce], one per row, without
    weights; EmpiricalQuantileDist: the weighted quantile Huber loss. *)
Definition td_loss_discretized (ce W : list R) : option R := jmean ce.
Definition td_loss_quantile (target pred taus : list (list R)) (W : list R) := quantile_huber 1 target pred taus (Some (clip_w W)).
(** _base.py:294-295, 451-452: minus batch size times the gradient of the unweighted loss with respect to the prediction.  [grad] is
    jax.grad of the scalar loss; the theorems require only that it has the partial derivatives as entries. *)
Definition td_error (grad : list R) (Q : list R) : list R := map (fun d => - INR (length Q) * d) grad.
(** _base.py:299, 456: metric 'td_error'. *)
Definition td_error_metric (W td : list R) : option R := jmean (zipw Rmult (clip_w W) td).
(** _base.py:300, 457: metric 'td_error_targ'; [grad] is the gradient of the weighted loss with respect to the target prediction, with
    the prediction as the label. *)
Definition td_error_targ_metric (grad : list R) : option R := jmean (map Ropp grad).
