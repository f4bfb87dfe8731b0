(** Model of a whole training loop, put together from the other models: environment steps, reward tracer, TD learner with an SGD
    optimizer, target network.  doc/examples/frozen_lake/qlearning.py:15-54 (also sarsa.py, expected_sarsa.py there and
    doc/examples/stubs/dqn.py), coax/td_learning/_base.py:60-150, 374-463.

    Simplifications, for the whole file:
    - observations and actions are numbers (Discrete spaces) and are one-hot encoded by the default preprocessors;
    - the q-function is a linear layer on the one-hot encodings without bias (the examples leave the bias on; see C103_bias_refuted);
    - its parameters are {'linear': {'w': th}}, th flattened row by row; function_state is carried along and not used;
    - optax.sgd without momentum in the place of optax.adam. *)
From Coq Require Import List Bool Arith Reals.
From Verif Require Import PyCommon UtilsModel DistModel LossModel QModel TDModel CoreModel TracerModel WorkerModel.
Import ListNotations.
Set Implicit Arguments.
Local Open Scope R_scope.

(** * The networks *)

(** jnp.kron of two vectors. *)
Definition kron (s a : list R) : list R := flat_map (fun x => map (Rmult x) a) s.
(** hk.Linear(nout, with_bias=False): x @ w with w of shape (length x, nout). *)
Definition linear (nout : nat) (w x : list R) : list R :=
  map (fun j => dot x (map (fun i => nth (i * nout + j) w 0) (seq 0 (length x)))) (seq 0 nout).
(** doc/examples/frozen_lake/qlearning.py:15-18: the type-1 q-function. *)
Definition table1 (nS : nat) (w : list R) : qfun nat R := Type1 (fun s a => nth 0 (linear 1 w (kron (one_hot nS s) a)) 0).
(** The type-2 q-function hk.Linear(env.action_space.n)(S). *)
Definition table2 (nS nA : nat) (w : list R) : qfun nat R := Type2 (fun s => linear nA w (one_hot nS s)).
(** The same as table1 with the bias, parameters b :: w. *)
Definition table1b (nS : nat) (w : list R) : qfun nat R :=
  Type1 (fun s a => match w with b :: w' => nth 0 (linear 1 w' (kron (one_hot nS s) a)) 0 + b | [] => 0 end).

(** * The loss *)

(** A TransitionBatch: S, A, W and the fields used by the targets. *)
Record fbatch (St : Type) : Type := mk_fb { fb_S : list St; fb_A : list (list R); fb_W : list R; fb_t : tbatch St }.
Arguments mk_fb {St}.
(** _base.py:374-443 [loss_func] for deterministic q without regularizer: a function of params alone is differentiated (line 462); the
    target is computed from target_params = {'q': th0, 'q_targ': targ}, which are other arguments. *)
Definition q_loss {St Pa : Type} (D : option nat) (net : Pa -> qfun St R) (target : Pa -> Pa -> tbatch St -> outcome (list R))
    (loss : list R -> list R -> option (list R) -> outcome (option R)) (th0 targ : Pa) (b : fbatch St) (th : Pa) : outcome (option R) :=
  bind (eval1 D (net th) (fb_S b) (fb_A b)) (fun Q =>
  bind (target th0 targ (fb_t b)) (fun G => td_loss loss G (map (fun _ => 0) G) Q (fb_W b))).

(** The targets of TDModel, for q-functions given by a network and parameters. *)
Section TableTargets.
Variables nS nA : nat.
Variable net : list R -> qfun nat R.
Definition target_q (th0 targ : list R) (b : tbatch nat) := q_learning (Some nA) (one_hot nA) (fun x => x) (fun x => x) nA (net targ) (net targ) b.
Definition target_expected (pi : nat -> list R) (th0 targ : list R) (b : tbatch nat) := expected_sarsa (Some nA) (fun x => x) (fun x => x) pi (net targ) b.
Definition target_soft (temp : R) (th0 targ : list R) (b : tbatch nat) := soft_q (Some nA) (one_hot nA) (fun x => x) (fun x => x) nA temp (net targ) b.
End TableTargets.

(** * The learner *)

(** {'linear': {'w': th}}. *)
Definition wrap {L : Type} (th : L) : CoreModel.tree L := Node [0%nat] [Node [0%nat] [Leaf th]].
Definition unwrap (p : ptree) : option (list R) := match p with Node [0%nat] [Node [0%nat] [Leaf th]] => Some th | _ => None end.
(** optax.sgd(lr): updates are -lr * grads, no optimizer state.  (nan gradients are refused before, _base.py:87-88.) *)
Fixpoint scaled (c : R) (g : gtree) : ptree :=
  match g with
  | Leaf x => Leaf (map (fun o => match o with Some v => c * v | None => 0 end) x)
  | Node ks cs => Node ks (map (scaled c) cs)
  end.
Definition sgd (lr : R) : optimizer := mkOpt (fun _ => Node [] []) (fun g os _ => Ok (scaled (- lr) g, os)).

(** The learner and its target network (None: q_targ is q itself, _base.py:27). *)
Record sys : Type := mkSys { y_learner : learner; y_targ : option func }.
Definition q_params (y : sys) : ptree := f_params (l_func (y_learner y)).
(** _base.py:485-490 [target_params], key 'q_targ'. *)
Definition targ_params (y : sys) : ptree := match y_targ y with None => q_params y | Some t => f_params t end.

Section Loop.
Variable nA : nat.
Variable net : list R -> qfun nat R.
Variable target : list R -> list R -> tbatch nat -> outcome (list R).
Variable loss : list R -> list R -> option (list R) -> outcome (option R).
(** jax.grad of the loss: th, targ, batch to the gradient at th. *)
Variable grads : list R -> list R -> fbatch nat -> list R.
Variable sub : nat -> nat -> bool.

(** _base.py:456-468 [grads_and_metrics_func] and 118-150 [grads_and_metrics], without metrics. *)
Definition grads_and_metrics (tp : ptree) (b : fbatch nat) (p fs : ptree) (key : nat) : outcome (gtree * ptree * unit) :=
  match unwrap p, unwrap tp with
  | Some th, Some targ => bind (q_loss (Some nA) net target loss th targ b th) (fun _ => Ok (wrap (map (@Some R) (grads th targ b)), fs, tt))
  | _, _ => Err EKey
  end.
(** Calls of a program: qlearning.update(batch), q_targ.soft_update(q, tau=tau). *)
Inductive yop : Type := YUpdate (b : fbatch nat) | YSync (tau : R).
Definition ystep (y : sys) (o : yop) : sys * outcome unit :=
  match o with
  | YUpdate b => let (l, r) := update (grads_and_metrics (targ_params y) b) (y_learner y) in (mkSys l (y_targ y), r)
  | YSync tau =>
      match y_targ y with
      | None => (y, Err EAttribute)
      | Some t => let (t', r) := soft_update sub t (l_func (y_learner y)) tau in (mkSys (y_learner y) (Some t'), r)
      end
  end.
(** A program stops at the first exception. *)
Fixpoint yrun (y : sys) (os : list yop) : sys * outcome unit :=
  match os with
  | [] => (y, Ok tt)
  | o :: os' => match ystep y o with (y1, Ok _) => yrun y1 os' | (y1, Err e) => (y1, Err e) end
  end.

(** * The loop with a tracer *)

(** Popped transitions as one batch; actions one-hot encoded. *)
Definition batch_of (xs : list (single nat nat)) : fbatch nat :=
  mk_fb (map (@x_s nat nat) xs) (map (fun x => one_hot nA (x_a x)) xs) (map (@x_w nat nat) xs)
    (mk_tb (map (@x_rn nat nat) xs) (map (@x_in nat nat) xs) (map (@x_s_next nat nat) xs) (map (fun x => one_hot nA (x_a_next x)) xs)).

Section Tracer.
Variables (n : nat) (gamma : R).
(** qlearning.py:47-50: while tracer: qlearning.update(tracer.pop()).  Each pop shortens the cache; the number of iterations is at most
    its length. *)
Fixpoint drain (fuel : nat) (y : sys) (t : nstate nat nat) : sys * nstate nat nat * outcome unit :=
  match fuel with
  | O => (y, t, Ok tt)
  | S fuel' =>
      if nstep_bool n t then
        match nstep_pop n gamma false t with
        | (t1, Err e) => (y, t1, Err e)
        | (t1, Ok x) =>
            match ystep y (YUpdate (batch_of [x])) with
            | (y1, Err e) => (y1, t1, Err e)
            | (y1, Ok _) => drain fuel' y1 t1
            end
        end
      else (y, t, Ok tt)
  end.
(** qlearning.py:46-50 for the step described by [c]; add has the default w = 1.0. *)
Definition loop_step (y : sys) (t : nstate nat nat) (c : call nat nat) : sys * nstate nat nat * outcome unit :=
  match nstep_add t (mkStep (c_s c) (c_a c) (c_logp c) 1 true) (c_r c) (c_done c) with
  | (t1, Some e) => (y, t1, Err e)
  | (t1, None) => drain (nstep_len t1) y t1
  end.
(** qlearning.py:37-54: any number of steps of any number of episodes. *)
Fixpoint loop (y : sys) (t : nstate nat nat) (cs : list (call nat nat)) : sys * nstate nat nat * outcome unit :=
  match cs with
  | [] => (y, t, Ok tt)
  | c :: cs' => match loop_step y t c with (y1, t1, Err e) => (y1, t1, Err e) | (y1, t1, Ok _) => loop y1 t1 cs' end
  end.
End Tracer.
End Loop.
