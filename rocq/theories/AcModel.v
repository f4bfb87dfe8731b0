(** Model of an actor-critic training loop: value function with a target network, policy, SimpleTD, VanillaPG, n-step tracer.
    doc/examples/frozen_lake/a2c.py:14-67 (also doc/examples/stubs/a2c.py:36-60 without its buffer), coax/td_learning/_base.py:60-150, 222-330,
    coax/td_learning/_simple_td.py:71-81.

    Simplifications, for the whole file: those of PgModel.v; the value function is deterministic, without value transform and regularizer; its
    parameters are {'linear': {'w': w}}. *)
From Coq Require Import List Bool Arith Reals.
From Verif Require Import PyCommon UtilsModel DistModel LossModel QModel TDModel CoreModel TracerModel WorkerModel PolicyModel LearnModel PgModel.
Import ListNotations.
Set Implicit Arguments.
Local Open Scope R_scope.

(** doc/examples/frozen_lake/a2c.py:14-16 without the bias: hk.Sequential((hk.Linear(1), jnp.ravel)) on the one-hot encoded observation. *)
Definition value_table (nS : nat) (w : list R) (s : nat) : R := nth 0 (linear 1 w (one_hot nS s)) 0.

(** The critic v with its learner, its target network (None: v_targ is v itself, _base.py:27), the actor pi with its learner. *)
Record acsys : Type := mkAC { ac_critic : learner; ac_targ : option func; ac_actor : learner }.
(** _base.py:319-325 [target_params], key 'v_targ'. *)
Definition v_targ_params (y : acsys) : ptree := match ac_targ y with None => f_params (l_func (ac_critic y)) | Some t => f_params t end.

Section Loop.
Variable nA : nat.
Variable vnet : list R -> nat -> R.
Variable loss : list R -> list R -> option (list R) -> outcome (option R).
(** jax.grad of the loss: w, targ, batch to the gradient at w. *)
Variable vgrads : list R -> list R -> fbatch nat -> list R.
(** jax.grad(self.loss_function, argnums=1) at G, V (_base.py:294). *)
Variable dgrads : list R -> list R -> list R.
Variable pnet : list R -> nat -> list R.
Variable pgrads : list R -> fbatch nat -> list R -> list R.
Variable sub : nat -> nat -> bool.
(** tau of v_targ.soft_update(v, tau=...). *)
Variable tau : R.

(** _base.py:246-293 [loss_func] for deterministic v: prediction, target, loss. *)
Definition v_parts (targ : list R) (b : fbatch nat) (w : list R) : outcome (list R * list R * option R) :=
  let V := map (vnet w) (fb_S b) in
  bind (simple_td (fun x => x) (fun x => x) (vnet targ) (fb_t b)) (fun G => bind (td_loss loss G (map (fun _ => 0) G) V (fb_W b)) (fun x => Ok (G, V, x))).
Definition v_loss (targ : list R) (b : fbatch nat) (w : list R) : outcome (option R) := bind (v_parts targ b w) (fun p => Ok (snd p)).
(** _base.py:294-316 [grads_and_metrics_func]; of the metrics only td_error. *)
Definition v_grads_and_metrics (tp : ptree) (b : fbatch nat) (p fs : ptree) (key : nat) : outcome (gtree * ptree * list R) :=
  match unwrap p, unwrap tp with
  | Some w, Some targ =>
      bind (v_parts targ b w) (fun q => let '(G, V, _) := q in Ok (wrap (map (@Some R) (vgrads w targ b)), fs, td_error (dgrads (zipw Rminus G (map (fun _ => 0) G)) V) V))
  | _, _ => Err EKey
  end.

(** a2c.py:57-61: simple_td.update(transition_batch, return_td_error=True); vanillapg.update(transition_batch, td_error); and, if there is a
    target network, v_targ.soft_update(v, tau). *)
Definition ac_update (b : fbatch nat) (y : acsys) : acsys * outcome unit :=
  match update (v_grads_and_metrics (v_targ_params y) b) (ac_critic y) with
  | (c, Err e) => (mkAC c (ac_targ y) (ac_actor y), Err e)
  | (c, Ok td) =>
      match pg_update nA pnet pgrads b td (ac_actor y) with
      | (a, Err e) => (mkAC c (ac_targ y) a, Err e)
      | (a, Ok _) =>
          match ac_targ y with
          | None => (mkAC c None a, Ok tt)
          | Some t => let (t', r) := soft_update sub t (l_func c) tau in (mkAC c (Some t') a, r)
          end
      end
  end.

Variables (n : nat) (gamma : R).
(** a2c.py:55-61: while tracer. *)
Fixpoint ac_drain (fuel : nat) (y : acsys) (t : nstate nat nat) : acsys * nstate nat nat * outcome unit :=
  match fuel with
  | O => (y, t, Ok tt)
  | S fuel' =>
      if nstep_bool n t then
        match nstep_pop n gamma false t with
        | (t1, Err e) => (y, t1, Err e)
        | (t1, Ok x) =>
            match ac_update (batch_of nA [x]) y with
            | (y1, Err e) => (y1, t1, Err e)
            | (y1, Ok _) => ac_drain fuel' y1 t1
            end
        end
      else (y, t, Ok tt)
  end.
(** a2c.py:54-61 for the step described by [c]; add has the default w = 1.0. *)
Definition ac_step (y : acsys) (t : nstate nat nat) (c : call nat nat) : acsys * nstate nat nat * outcome unit :=
  match nstep_add t (mkStep (c_s c) (c_a c) (c_logp c) 1 true) (c_r c) (c_done c) with
  | (t1, Some e) => (y, t1, Err e)
  | (t1, None) => ac_drain (nstep_len t1) y t1
  end.
(** a2c.py:42-67: any number of steps of any number of episodes. *)
Fixpoint ac_loop (y : acsys) (t : nstate nat nat) (cs : list (call nat nat)) : acsys * nstate nat nat * outcome unit :=
  match cs with
  | [] => (y, t, Ok tt)
  | c :: cs' => match ac_step y t c with (y1, t1, Err e) => (y1, t1, Err e) | (y1, t1, Ok _) => ac_loop y1 t1 cs' end
  end.
End Loop.
