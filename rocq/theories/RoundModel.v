(** Model of on-policy training in rounds: fill a SimpleReplayBuffer, train from it, clear it.
    doc/examples/stubs/ppo.py:47-71, doc/examples/stubs/a2c.py:51-79, doc/examples/atari/ppo.py:77-109, put together from TracerModel.v,
    ReplayModel.v and PipeModel.v.

    Simplifications, for the whole file: those of PipeModel.v; what the updates do with the batches is not part of this model. *)
From Coq Require Import List ZArith Lia Bool Reals.
From Verif Require Import PyCommon ReplayModel PrioModel TracerModel PipeModel.
Import ListNotations.
Set Implicit Arguments.

Section Rounds.
Variables S A G : Type.
Variable draw : G -> nat -> nat -> list nat * G.
Variables (n : nat) (gamma : R).
Notation npipe := (pipe S A (nstate S A) G).

(** ppo.py:61-62: m times buffer.sample(batch_size=k); stops at an exception. *)
Fixpoint round_samples (m k : nat) (w : sworld (single S A) G) : sworld (single S A) G * outcome (list (list (tbatch (single S A)))) :=
  match m with
  | O => (w, Ok [])
  | Datatypes.S m' =>
      match simple_sample draw w k with
      | (w1, Err x) => (w1, Err x)
      | (w1, Ok b) =>
          match round_samples m' k w1 with
          | (w2, Err x) => (w2, Err x)
          | (w2, Ok bs) => (w2, Ok (b :: bs))
          end
      end
  end.

(** ppo.py:53-71, one time step: record it; if the buffer is full, sample 4 * capacity // k batches (k = 32 in the scripts) and clear it.
    atari/ppo.py:87-88 has >= in place of == and int(4 * capacity / 32), which are the same for lengths up to the capacity and for positive numbers. *)
Definition round_step (f : flagged) (k : nat) (p : npipe) (e : envstep S A) : npipe * outcome (option (list (list (tbatch (single S A))))) :=
  match pipe_record (nstep_bool n) (@nstep_len S A) (@nstep_add S A) (nstep_pop n gamma false) p (es_step e) (es_r e) (flag_of f e) with
  | (p1, Some x) => (p1, Err x)
  | (p1, None) =>
      let cap := scap (sb (p_world p1)) in
      if Nat.eqb (simple_len (p_world p1)) cap then
        match round_samples (4 * cap / k) k (p_world p1) with
        | (w, Err x) => (mkPipe (p_tracer p1) w, Err x)
        | (w, Ok bs) => (mkPipe (p_tracer p1) (simple_clear w), Ok (Some bs))
        end
      else (p1, Ok None)
  end.

(** The whole training: all steps of all episodes; stops at an exception.  The result: for each round the batches passed to update. *)
Fixpoint round_run (f : flagged) (k : nat) (p : npipe) (es : list (envstep S A)) : npipe * outcome (list (list (list (tbatch (single S A))))) :=
  match es with
  | [] => (p, Ok [])
  | e :: es' =>
      match round_step f k p e with
      | (p1, Err x) => (p1, Err x)
      | (p1, Ok b) =>
          match round_run f k p1 es' with
          | (p2, Err x) => (p2, Err x)
          | (p2, Ok bs) => (p2, Ok (match b with Some b => b :: bs | None => bs end))
          end
      end
  end.
End Rounds.
