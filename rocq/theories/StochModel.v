(** Model of the stochastic value functions (coax/_core/stochastic_v.py, stochastic_q.py, stochastic_reward_function.py), of
    coax/_core/successor_state_q.py, coax/_core/random_policy.py and of the loss in coax/model_updaters/_model_updater.py.
    Forward passes are arbitrary functions applied row by row. *)
From Coq Require Import List Bool Arith Reals.
From Verif Require Import PyCommon UtilsModel DistModel LossModel QModel TDModel.
Import ListNotations.
Set Implicit Arguments.
Local Open Scope R_scope.

(** * Stochastic value functions *)

(** A value transform: None, or a pair (f, f_inv). *)
Definition vtransform : Type := option ((R -> R) * (R -> R)).
(** The argument value_range: a pair of numbers, or anything else. *)
Inductive range_arg : Type := RangePair (lo hi : R) | RangeOther.
(** stochastic_v.py:211-219 [_check_value_range]; stochastic_q.py:253-261. *)
Definition check_value_range (r : range_arg) : outcome (R * R) :=
  match r with RangePair lo hi => if Rlt_dec lo hi then Ok (lo, hi) else Err EType | RangeOther => Err EType end.
(** The distribution of a stochastic value function. *)
Inductive vdist : Type := DInterval (num_bins : nat) (lo hi : R) | DQuantile (num_quantiles : nat).
(** stochastic_v.py:203-209 [_get_proba_dist]: the range is transformed by f. *)
Definition interval_dist (tr : vtransform) (num_bins : nat) (lo hi : R) : vdist :=
  match tr with Some (f, _) => DInterval num_bins (f lo) (f hi) | None => DInterval num_bins lo hi end.
(** stochastic_v.py:66-88 [StochasticV.__init__]. *)
Definition stochastic_v (tr : vtransform) (num_bins : nat) (r : range_arg) : outcome vdist :=
  bind (check_value_range r) (fun lh => Ok (interval_dist tr num_bins (fst lh) (snd lh))).
(** The arguments of StochasticQ besides func and env; preprocessors and seeds are represented by names. *)
Record sq_args : Type := mkSQ { sq_range : option (R * R); sq_bins : nat; sq_obs : option nat; sq_act : option nat; sq_tr : vtransform; sq_seed : option nat }.
(** What the constructor stores. *)
Record sq_obj : Type := mkSO { so_dist : vdist; so_obs : nat; so_act : nat; so_f : R -> R; so_finv : R -> R; so_seed : option nat }.
(** stochastic_q.py:79-104 [StochasticQ.__init__], 242-251 [_get_proba_dist]; d_obs and d_act name default_preprocessor of the two
    spaces.  The range is not checked; lo > hi is accepted by the Box of some gymnasium versions. *)
Definition stochastic_q (d_obs d_act : nat) (a : sq_args) : sq_obj :=
  mkSO (match sq_range a with Some (lo, hi) => interval_dist (sq_tr a) (sq_bins a) lo hi | None => DQuantile (sq_bins a) end)
    (match sq_obs a with Some x => x | None => d_obs end) (match sq_act a with Some x => x | None => d_act end)
    (match sq_tr a with Some (f, _) => f | None => fun x => x end) (match sq_tr a with Some (_, g) => g | None => fun x => x end) (sq_seed a).
(** stochastic_reward_function.py:68-75 [StochasticRewardFunction.__init__]: (value_range or env.reward_range), and literals for the
    rest. *)
Definition stochastic_reward (reward_range : R * R) (d_obs d_act : nat) (a : sq_args) : sq_obj :=
  stochastic_q d_obs d_act (mkSQ (Some (match sq_range a with Some r => r | None => reward_range end)) 51 None None None None).

(** A row of distribution parameters is a list: logits, or quantile values.  _discretized_interval.py (inherits mean, mode, sample of
    the categorical), base_stochastic_func_type2.py:30-47 [__call__], [mean], [mode]: postprocess_variate of the raw variate; the
    inverse value transform is not applied.  us are the uniform draws behind the Gumbel noise. *)
Definition sv_mean (d : vdist) (z : list R) : outcome R :=
  match d with DInterval n lo hi => bind (cat_mean n z) (di_post n lo hi) | DQuantile _ => Ok (eq_mean z) end.
Definition sv_mode (tau : R) (d : vdist) (z : list R) : outcome R :=
  match d with DInterval n lo hi => bind (cat_mode n tau z) (di_post n lo hi) | DQuantile _ => Err EAttribute end.
Definition sv_sample (tau : R) (us : list R) (n : nat) (lo hi : R) (z : list R) : outcome R := bind (cat_sample n tau z us) (di_post n lo hi).
(** base_stochastic_func_type1.py:59-70 [mean] with an action: function_type1, mean, postprocess_variate of the first row. *)
Definition sq_mean_a {St : Type} (d : vdist) (mix : list R -> list (list R) -> list R) (discrete : option nat) (enc : nat -> list R) (q : qfun St (list R)) (s : St) (a : nat) : outcome R :=
  bind (function_type1 discrete mix q [s] [enc a]) (fun P => match P with z :: _ => sv_mean d z | [] => Err EIndex end).
(** Lines 59-66 [mean] without an action, 360-377 [mean_func_type2]: the means of all actions, then postprocess_variate(X, index=i) for
    each i.  DiscretizedIntervalDist.postprocess_variate (150-160) takes row i; EmpiricalQuantileDist inherits
    proba_dists/_base.py:264-301, which takes the first row whatever the index. *)
Fixpoint collect_means (d : vdist) (zs : list (list R)) : outcome (list R) :=
  match zs with [] => Ok [] | z :: zs' => bind (sv_mean d z) (fun x => bind (collect_means d zs') (fun r => Ok (x :: r))) end.
Definition post_index (d : vdist) (X : list R) (i : nat) : outcome R :=
  match nth_error X (match d with DInterval _ _ _ => i | DQuantile _ => 0%nat end) with Some x => Ok x | None => Err EIndex end.
Definition sq_mean_s {St : Type} (d : vdist) (discrete : option nat) (enc : nat -> list R) (q : qfun St (list R)) (s : St) : outcome (list R) :=
  bind (function_type2 discrete enc q [s]) (fun P =>
  match discrete with
  | None => Err EAssertion   (* 446, [_reshape_to_replicas]; needs a type-2 function, which the constructor refuses *)
  | Some n => match P with zs :: _ => bind (collect_means d zs) (fun X => collect (post_index d X) (seq 0 n)) | [] => Err EIndex end
  end).

(** * SuccessorStateQ *)
Section Successor.
Variables St P Q' : Type.
(** The models as row-wise functions of the preprocessed observations: p gives parameters of type P (the next observation itself for a
    deterministic model), pmean is proba_dist.mean (the identity for a deterministic model); r likewise, with rmean the mean followed by
    postprocess_variate(batch_mode=True) (the identity for a deterministic one); v is V.function, or mean and postprocess_variate of
    StochasticV.function. *)
Variable discrete : option nat.
Variable enc : nat -> list R.
Variable mixP : list R -> list P -> P.
Variable mixQ : list R -> list Q' -> Q'.
Variable pmean : P -> St.
Variable rmean : Q' -> R.
Variable v : St -> R.
Variable f f_inv : R -> R.
Variable gamma : R.
(** successor_state_q.py:142-143, 199-200. *)
Definition ssq_row (r : R) (s' : St) : R := f (r + gamma * f_inv (v s')).
(** Lines 105-154 [function_type1]. *)
Definition ssq_type1 (p : qfun St P) (r : qfun St Q') (S : list St) (A : list (list R)) : outcome (list R) :=
  bind (function_type1 discrete mixP p S A) (fun D => bind (function_type1 discrete mixQ r S A) (fun Rd => vmap2 ssq_row (map rmean Rd) (map pmean D))).
(** base_stochastic_func_type1.py:444-451 [_reshape_to_replicas]. *)
Definition to_replicas {A : Type} (n : nat) (l : list (list A)) : outcome (list A) := if forallb (fun x => Nat.eqb (length x) n) l then Ok (concat l) else Err EAssertion.
(** Lines 156-216 [function_type2]. *)
Definition ssq_type2 (p : qfun St P) (r : qfun St Q') (S : list St) : outcome (list (list R)) :=
  bind (function_type2 discrete enc p S) (fun D =>
  match discrete with
  | None => Err EAssertion   (* [_reshape_to_replicas], as above *)
  | Some n =>
      bind (to_replicas n D) (fun D => bind (function_type2 discrete enc r S) (fun Rd => bind (to_replicas n Rd) (fun Rd =>
        bind (vmap2 ssq_row (map rmean Rd) (map pmean D)) (fun Qr => jreshape n Qr))))
  end).
(** Lines 217-243 [__call__] = Q.__call__ (q.py:98-131). *)
Definition ssq_call_a (p : qfun St P) (r : qfun St Q') (s : St) (a : list R) : outcome R :=
  bind (ssq_type1 p r [s] [a]) (fun Q => match map f_inv Q with x :: _ => Ok x | [] => Err EIndex end).
Definition ssq_call_s (p : qfun St P) (r : qfun St Q') (s : St) : outcome (list R) :=
  bind (ssq_type2 p r [s]) (fun Q => match map (map f_inv) Q with x :: _ => Ok x | [] => Err EIndex end).
End Successor.

(** * RandomPolicy *)

Inductive aspace : Type := SDiscrete (n : nat) | SBox (low high : list R) | SOther.
Inductive action : Type := AInt (a : nat) | AVec (x : list R) | AOther.
(** random_policy.py:38-56 [__call__]; a is what action_space.sample() returned.  self.num_actions does not exist. *)
Definition rp_call (sp : aspace) (a : action) (return_logp : bool) : outcome (action * option R) :=
  if negb return_logp then Ok (a, None) else
  match sp with
  | SDiscrete _ => Err EAttribute
  | SBox low high => Ok (a, Some (- rsum (map ln (zipw Rminus high low))))
  | SOther => Err ENotImplemented
  end.
(** Lines 58-60 [mode]. *)
Definition rp_mode (sp : aspace) (a : action) : outcome action := bind (rp_call sp a false) (fun x => Ok (fst x)).
(** Lines 62-75 [dist_params]. *)
Inductive rparams : Type := RLogits (z : list R) | RNormal (p : nparams).
Definition rp_dist_params (sp : aspace) : outcome rparams :=
  match sp with
  | SDiscrete n => Ok (RLogits (repeat 0 n))
  | SBox low _ => Ok (RNormal (mkN (repeat 0 (length low)) (repeat 15 (length low))))
  | SOther => Err ENotImplemented
  end.

(** * ModelUpdater *)

(** numpy broadcasting of a rank-1 array y against a matrix, entry by entry: y is stretched along the rows. *)
Definition bcast_row (l : R -> R -> R) (y p : list R) : outcome (list R) :=
  if Nat.eqb (length y) (length p) then Ok (zipw l y p)
  else match y, p with [x], _ => Ok (map (l x) p) | _, [x] => Ok (map (fun y => l y x) y) | _, _ => Err EValue end.
(** An elementwise loss of coax.value_losses on a rank-1 y_true and a rank-2 y_pred. *)
Definition loss_1_2 (l : R -> R -> R) (y : list R) (P : list (list R)) (w : list R) : outcome (option R) := bind (collect (bcast_row l y) P) (fun L => mean_w L (Some w)).
(** The same on two matrices of the same shape (broadcasting of matrices is not modelled: TypeError). *)
Fixpoint zip_rows (l : R -> R -> R) (Y P : list (list R)) : outcome (list (list R)) :=
  match Y, P with
  | [], [] => Ok []
  | y :: Y', p :: P' => if Nat.eqb (length y) (length p) then bind (zip_rows l Y' P') (fun L => Ok (zipw l y p :: L)) else Err EType
  | _, _ => Err EType
  end.
Definition loss_2_2 (l : R -> R -> R) (Y P : list (list R)) (w : list R) : outcome (option R) := bind (zip_rows l Y P) (fun L => mean_w L (Some w)).

(** The model of the updater together with its forward pass on the batch: predictions of a deterministic model, or variates sampled
    from a stochastic one (raw: bins for a StochasticRewardFunction, vectors for a transition model). *)
Inductive mmodel : Type :=
| MReward (pred : list R)                  (* RewardFunction *)
| MStochReward (X : list (list R))         (* StochasticRewardFunction *)
| MTransition (pred : list (list R))       (* TransitionModel *)
| MStochTransition (X : list (list R)).    (* StochasticTransitionModel *)
Definition m_stochastic (m : mmodel) : bool := match m with MStochReward _ | MStochTransition _ => true | _ => false end.
(** _model_updater.py:71-104 [loss_func]: l is the elementwise loss, f the transform of the reward function, Rn and S_next (preprocessed)
    the targets, reg the rows of the regularizer function if there is one.  dist_params is unbound for deterministic models. *)
Definition mu_loss (l : R -> R -> R) (f : R -> R) (reg : option (list R)) (Rn : list R) (S_next : list (list R)) (W : list R) (m : mmodel) : outcome (option R) :=
  let W := clip_w W in
  bind (match m with
        | MReward p => zip_loss l (map f Rn) p (Some W)
        | MStochReward X => loss_1_2 l (map f Rn) X W
        | MTransition P => loss_2_2 l S_next P W
        | MStochTransition X => loss_2_2 l S_next X W
        end)
    (fun loss => match reg with
                 | None => Ok loss
                 | Some r => if m_stochastic m then
                               match loss, jmean (zipw Rmult W r) with Some x, Some y => Ok (Some (x + y)) | _, _ => Ok None end
                             else Err EUnbound
                 end).
