(** Model of a call of a stochastic function with return_logp=True (coax/_core/base_stochastic_func_type2.py:30-34, 64-70) on top of
    CompModel; one state. *)
From Coq Require Import List Reals.
From Verif Require Import PyCommon DistModel CompModel.
Import ListNotations.
Local Open Scope R_scope.

(** base_stochastic_func_type2.py:30-34 with return_logp=True and 64-70 [sample_func]: the log-probability is that of the raw variate. *)
Definition c_call (d : pdist) (p : pv) (us gs : list R) : outcome (clean * R) :=
  bind (c_sample d p us) (fun xu => bind (c_log_proba d p (fst xu)) (fun r => bind (c_post d (fst xu) gs) (fun cg => Ok (fst cg, r)))).
