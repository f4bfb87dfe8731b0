(** Model of the optimizer that learners use by default: optax.adam(1e-3), td_learning/_base.py:36-45, policy_objectives/_base.py:42-43 and
    86-91, model_updaters/_model_updater.py:63-72.

    optax is not part of the repository (requirements.txt: optax>=0.1.3); the formulas are those of its documentation (scale_by_adam
    followed by scale(-learning_rate), eps_root = 0).  Floats are exact reals; nan gradients are refused before (_base.py:87-88). *)
From Coq Require Import List Bool Arith Reals.
From Verif Require Import PyCommon UtilsModel DistModel CoreModel.
Import ListNotations.
Set Implicit Arguments.
Local Open Scope R_scope.

Definition number (o : option R) : R := match o with Some v => v | None => 0 end.
(** optax update_moment(updates, moments, decay, order): (1 - decay) * g ** order + decay * m, leaf by leaf. *)
Definition update_moment (g : gtree) (m : ptree) (decay : R) (order : nat) : outcome ptree :=
  tmap2 (fun x y => jop (fun x y => (1 - decay) * x ^ order + decay * y) (map number x) y) g m.
(** jax.tree_map(jnp.zeros_like, params). *)
Fixpoint zeros_like (p : ptree) : ptree := match p with Leaf x => Leaf (map (fun _ => 0) x) | Node ks cs => Node ks (map zeros_like cs) end.
(** optax.adam(lr, b1, b2, eps).  The state is (ScaleByAdamState(count, mu, nu), EmptyState()); count is an array of one number.  Bias
    correction divides by 1 - decay ** count. *)
Definition adam (lr b1 b2 eps : R) : optimizer :=
  mkOpt (fun p => Node [] [Node [0; 1; 2]%nat [Leaf [0]; zeros_like p; zeros_like p]; Node [] []])
    (fun g os _ =>
      match os with
      | Node ks [Node ks' [Leaf [count]; mu; nu]; e] =>
          bind (update_moment g mu b1 1) (fun mu =>
          bind (update_moment g nu b2 2) (fun nu =>
          let count := count + 1 in
          bind (tmap2 (jop (fun m v => - lr * (m / (1 - Rpower b1 count) / (sqrt (v / (1 - Rpower b2 count)) + eps)))) mu nu) (fun u =>
          Ok (u, Node ks [Node ks' [Leaf [count]; mu; nu]; e]))))
      | _ => Err EValue
      end).
(** td_learning/_base.py:36, policy_objectives/_base.py:42, _model_updater.py:63: [optax.adam(1e-3) if optimizer is None else optimizer]. *)
Definition learner_of (k : kind) (f : func) (o : option optimizer) : learner :=
  new_learner k f (match o with None => adam (1 / 1000) (9 / 10) (999 / 1000) (1 / 100000000) | Some o => o end).
