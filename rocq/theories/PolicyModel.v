(** Model of coax/policy_objectives, coax/regularizers, coax/_core/value_based_policy.py and of the sampling methods of a policy over
    discrete actions (coax/_core/base_stochastic_func_type2.py).  Arrays of rank 1 are lists with one entry per batch row; floats are
    exact reals; networks enter through the values they return. *)
From Coq Require Import List Bool Arith Reals.
From Verif Require Import PyCommon UtilsModel DistModel LossModel QModel TDModel TracerModel.
Import ListNotations.
Set Implicit Arguments.
Local Open Scope R_scope.

(** chex.assert_equal_shape for arrays of rank 1. *)
Definition equal_shape (n : nat) (ls : list (list R)) : bool := forallb (fun l => Nat.eqb (length l) n) ls.
(** Elementwise operation; jax raises TypeError on arrays of different sizes (broadcasting of one-element arrays is not modelled). *)
Definition jzip (h : R -> R -> R) (a b : list R) : outcome (list R) := if Nat.eqb (length a) (length b) then Ok (zipw h a b) else Err EType.

(** * Policy objectives *)

(** _vanilla_pg.py:37-57 [VanillaPG.objective_func]: [logpi] are the log-probabilities of the batch actions. *)
Definition vanilla_objective (W Adv logpi : list R) : outcome (option R) :=
  let W := clip_w W in
  if equal_shape (length W) [Adv; logpi] then Ok (jmean (zipw Rmult (zipw Rmult W Adv) logpi)) else Err EAssertion.
(** _ppo_clip.py:66-88 [PPOClip.objective_func]. *)
Definition ppo_objective (eps : R) (W Adv logP logpi : list R) : outcome (option R) :=
  bind (jzip (fun a b => exp (a - b)) logpi logP) (fun ratio =>
    let ratio_clip := map (fun r => clip r (1 - eps) (1 + eps)) ratio in
    let W := clip_w W in
    if equal_shape (length W) [Adv; ratio; ratio_clip]
    then Ok (jmean (zipw Rmult W (zipw Rmin (zipw Rmult Adv ratio) (zipw Rmult Adv ratio_clip)))) else Err EAssertion).
(** _deterministic_pg.py:106-114: mean(W * Q). *)
Definition weighted_q (W Q : list R) : outcome (option R) :=
  let W := clip_w W in if equal_shape (length W) [Q] then Ok (jmean (zipw Rmult W Q)) else Err EAssertion.
(** _deterministic_pg.py:62-66 (the modeltype check) and 87-114 [objective_func]; [mode] gives the mode of the policy; the q-function is
    deterministic. *)
Definition deterministic_pg {St : Type} (mode : St -> list R) (q : qfun St R) (W : list R) (S : list St) : outcome (option R) :=
  match q with
  | Type2 _ => Err EType
  | Type1 f => weighted_q W (map (fun s => f s (mode s)) S)
  end.
(** _soft_pg.py:12-15, 63-71 (the list check) and 24-61 [objective_func]; [sample] gives the sampled action; deterministic q-functions. *)
Definition soft_pg {St : Type} (discrete : option nat) (sample : St -> list R) (qs : list (qfun St R)) (W : list R) (S : list St) : outcome (option R) :=
  match qs with
  | [] => Err EValue
  | _ => bind (collect (fun q => eval1 discrete q S (map sample S)) qs) (fun Qs =>
           weighted_q W (map (fun k => rowmin (map (fun Q => nth k Q 0) Qs)) (seq 0 (length S))))
  end.
(** _base.py:45-75 [loss_func]: the sign is flipped and the weighted mean of the regularizer is added. *)
Definition policy_loss (objective : outcome (option R)) (W : list R) (reg : option (list R)) : outcome (option R) :=
  bind objective (fun o =>
    match reg with
    | None => Ok (option_map Ropp o)
    | Some r => bind (jzip Rmult (clip_w W) r) (fun wr =>
        Ok (match o, jmean wr with Some o, Some m => Some (- o + m) | _, _ => None end))
    end).
(** _base.py:56-57: metric kl_div_old. *)
Definition kl_div_old (logP logpi : list R) : outcome (option R) := bind (jzip (fun p q => exp p * (p - q)) logP logpi) (fun l => Ok (jmean l)).

(** * Regularizers *)

(** _entropy.py:35-37 and _kl_div.py:46-48 for one row of a categorical distribution. *)
Definition entropy_reg (n : nat) (beta : R) (z : list R) : outcome R := bind (cat_entropy n z) (fun h => Ok (- beta * h)).
Definition kl_reg (n : nat) (beta : R) (z prior : list R) : outcome R := bind (cat_kl n z prior) (fun k => Ok (beta * k)).
(** regularizers/_base.py:69-89 [Regularizer.batch_eval]: a stochastic function of type 1 gives distribution parameters from states and
    actions, one of type 2 from states.  The two if statements are modelled in order; the else belongs to the second one only. *)
Inductive sfun (St P : Type) : Type := SType1 (f : St -> list R -> P) | SType2 (f : St -> P).
Definition batch_eval {St P T : Type} (reg : P -> T) (f : sfun St P) (S : list St) (A : list (list R)) : outcome (list T) :=
  let dist_params := match f with SType1 g => Some (map (fun p => g (fst p) (snd p)) (combine S A)) | SType2 _ => None end in
  bind (match f with SType2 g => Ok (Some (map g S)) | SType1 _ => Err EType end) (fun dist_params =>
    match dist_params with Some d => Ok (map reg d) | None => Err EUnbound end).

(** _nstep_entropy.py:114-131 [valid_from_done], one batch row. *)
Fixpoint cumsum (acc : nat) (l : list bool) : list nat := match l with [] => [] | d :: l' => let acc := (acc + if d then 1 else 0)%nat in acc :: cumsum acc l' end.
Definition valid_from_done (dones : list bool) : list R :=
  match dones with [] => [] | _ => 1 :: map (fun c => 1 - Rmin (INR c) 1) (cumsum 0 (removelast dones)) end.
(** jnp.take along the first axis; None for an index out of range (nan for floats). *)
Definition take {T : Type} (l : list T) (ns : list nat) : list (option T) := map (nth_error l) ns.
(** _nstep_entropy.py:45-55 (constructor): the discounts; [n] is given as natural numbers. *)
Definition nse_gammas (gamma : R) (ns : list nat) : outcome (list (option R)) :=
  match ns with [] => Err EValue | _ => Ok (take (map (fun k => gamma ^ k) (seq 0 (last ns 0%nat + 1))) ns) end.
(** 57-60: the sum of gamma * entropy * valid; None is nan. *)
Fixpoint osum (l : list (option R)) : option R := match l with [] => Some 0 | x :: l' => match x, osum l' with Some a, Some b => Some (a + b) | _, _ => None end end.
Fixpoint all_some {T : Type} (l : list (option T)) : option (list T) := match l with [] => Some [] | x :: l' => match x, all_some l' with Some a, Some r => Some (a :: r) | _, _ => None end end.
Definition ozip (a b : list (option R)) : list (option R) := map (fun p => match p with (Some x, Some y) => Some (x * y) | _ => None end) (combine a b).
Definition nse_sum (gammas : list (option R)) (ents : list (option R)) (valid : list R) : option R := osum (ozip (ozip gammas ents) (map Some valid)).
(** 62-64 and 79-108: one batch row; [H s] is the entropy of the policy in state s, [es] the recorded extra_info (n-step tracer) of the
    row, [keys] the number of entries of the dist_params dict, on which line 63 asserts (2 for a normal distribution, 1 for a categorical
    one).  An offset beyond the recorded steps makes the row nan. *)
Definition nstep_entropy {S A : Type} (keys : nat) (beta gamma : R) (ns : list nat) (H : S -> R) (info : option (list (entry S A))) : outcome (option R) :=
  bind (nse_gammas gamma ns) (fun gammas =>
    match info with
    | None => Err EType
    | Some es =>
        if Nat.eqb keys 2 then
          match all_some (take (map (@e_done S A) es) ns) with
          | None => Ok None
          | Some dones => Ok (option_map (fun x => - beta * x) (nse_sum gammas (take (map (fun e => H (st_s (e_step e))) es) ns) (valid_from_done dones)))
          end
        else Err EAssertion
    end).

(** * Policies over discrete actions *)

(** value_based_policy.py:185-198 [EpsilonGreedy]: logits for one row of q-values; 250-257 [BoltzmannPolicy]. *)
Definition eps_greedy_mix (n : nat) (eps : R) (q : list R) : list R := map (fun g => g * (1 - eps) + eps / INR n) (greedy_mix q).
Definition eps_greedy_logits (n : nat) (eps : R) (q : list R) : list R := map (fun p => ln (p + eps15)) (eps_greedy_mix n eps q).
Definition boltzmann_logits (temperature : R) (q : list R) : list R := map (fun x => x / temperature) q.
(** value_based_policy.py:22-46: the q-values of one state, by the type-2 view of the q-function. *)
Definition q_row {St : Type} (n : nat) (q : qfun St R) (s : St) : outcome (list R) :=
  bind (eval2 (Some n) (one_hot n) q [s]) (fun Q => bind (check_width n Q) (fun Q => match Q with x :: _ => Ok x | [] => Err EIndex end)).
Definition eps_greedy {St : Type} (n : nat) (eps : R) (q : qfun St R) (s : St) : outcome (list R) := bind (q_row n q s) (fun x => Ok (eps_greedy_logits n eps x)).
Definition boltzmann_policy {St : Type} (n : nat) (t : R) (q : qfun St R) (s : St) : outcome (list R) := bind (q_row n q s) (fun x => Ok (boltzmann_logits t x)).

(** base_stochastic_func_type2.py:30-34, 65-71 [__call__] with return_logp=True for a categorical distribution with logits [z]: the
    log-propensity is computed for the variate X before X is mapped to an action.  [us] are the uniform draws of the sample, [gs] the
    tie-breaking noise of argmax. *)
Definition policy_call (n : nat) (tau : R) (z us gs : list R) : outcome (nat * R) :=
  bind (cat_sample n tau z us) (fun X => bind (cat_log_proba n z X) (fun logp => bind (cat_post n X gs) (fun a => Ok (a, logp)))).
(** base_stochastic_func_type2.py:36-46 [mean], [mode]. *)
Definition policy_mode (n : nat) (tau : R) (z gs : list R) : outcome nat := bind (cat_mode n tau z) (fun X => cat_post n X gs).
Definition policy_mean (n : nat) (z gs : list R) : outcome nat := bind (cat_mean n z) (fun X => cat_post n X gs).
