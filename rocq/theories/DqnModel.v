(** Model of the training loop of doc/examples/cartpole/dqn.py:43-75 (also stubs/dqn.py:49-78): tracer, replay buffer, updates from
    sampled batches, target network, put together from PipeModel.v and LearnModel.v.

    Simplifications, for the whole file:
    - those of LearnModel.v (Discrete spaces, a table as the q-function, SGD in the place of adam) and of PipeModel.v;
    - the actions and the answers of the environment are given, one record per time step; the replacement of the reward of a truncated
      step (dqn.py:54-56) is taken to be done in the record;
    - the early stop by average return (dqn.py:77-79) is the end of the list of records. *)
From Coq Require Import List Bool Arith Reals.
From Verif Require Import PyCommon UtilsModel DistModel LossModel QModel TDModel CoreModel ReplayModel TracerModel WorkerModel PipeModel LearnModel.
Import ListNotations.
Set Implicit Arguments.

Section Dqn.
Variable nA : nat.
Variable net : list R -> qfun nat R.
Variable target : list R -> list R -> TDModel.tbatch nat -> outcome (list R).
Variable loss : list R -> list R -> option (list R) -> outcome (option R).
Variable grads : list R -> list R -> fbatch nat -> list R.
Variable sub : nat -> nat -> bool.
Variable G : Type.
Variable draw : G -> nat -> nat -> list nat * G.
Variables (n : nat) (gamma : R).
Variables (warm k : nat) (tau : R).
Notation npipe := (pipe nat nat (nstate nat nat) G).
Notation stored := (ReplayModel.tbatch (single nat nat)).

(** SimpleReplayBuffer.sample ends with tree_map(np.concatenate) over the sampled single transitions (_simple.py:84). *)
Definition sampled_rows (b : list stored) : list (single nat nat) := flat_map (@rows (single nat nat)) b.

(** dqn.py:59-72: record the step, update from a sample if the buffer is long enough, soft_update. *)
Definition dqn_step (y : sys) (p : npipe) (e : envstep nat nat) : sys * npipe * outcome (option (list stored)) :=
  match script_step draw n gamma DoneOrTruncated (Some warm) k p e with
  | (p1, Err x) => (y, p1, Err x)
  | (p1, Ok b) =>
      match (match b with
             | Some b => ystep nA net target loss grads sub y (YUpdate (batch_of nA (sampled_rows b)))
             | None => (y, Ok tt)
             end) with
      | (y1, Err x) => (y1, p1, Err x)
      | (y1, Ok _) =>
          match ystep nA net target loss grads sub y1 (YSync tau) with
          | (y2, Err x) => (y2, p1, Err x)
          | (y2, Ok _) => (y2, p1, Ok b)
          end
      end
  end.

(** dqn.py:43-75: all steps of all episodes; stops at an exception.  The result: what was sampled in each step. *)
Fixpoint dqn_run (y : sys) (p : npipe) (es : list (envstep nat nat)) : sys * npipe * outcome (list (option (list stored))) :=
  match es with
  | [] => (y, p, Ok [])
  | e :: es' =>
      match dqn_step y p e with
      | (y1, p1, Err x) => (y1, p1, Err x)
      | (y1, p1, Ok b) =>
          match dqn_run y1 p1 es' with
          | (y2, p2, Err x) => (y2, p2, Err x)
          | (y2, p2, Ok bs) => (y2, p2, Ok (b :: bs))
          end
      end
  end.
End Dqn.
