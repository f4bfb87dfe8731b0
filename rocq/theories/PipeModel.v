(** Model of the loop that feeds a replay buffer from a reward tracer and trains from samples:
    doc/examples/cartpole/dqn.py:43-75, doc/examples/stubs/dqn.py:49-78, doc/examples/stubs/dqn_per.py:54-80,
    doc/examples/atari/dqn_per.py:58-86, put together from TracerModel.v, ReplayModel.v and PrioModel.v.

    Simplifications, for the whole file:
    - what the agent and the environment do is given by the arguments of tracer.add, one record per time step;
    - the TD errors passed to the prioritized buffer are given as a function of the transition. *)
From Coq Require Import List ZArith Lia Bool Reals.
From Verif Require Import PyCommon ReplayModel PrioModel TracerModel.
Import ListNotations.
Set Implicit Arguments.

Section Pipe.
Variables S A T G : Type.
Variable draw : G -> nat -> nat -> list nat * G.
Variable tbool : T -> bool.
Variable tlen : T -> nat.
Variable tadd : T -> step S A -> R -> bool -> T * option exn.
Variable tpop : T -> T * outcome (single S A).

(** ---- with a SimpleReplayBuffer ---- *)

(** The tracer, and the interpreter state with the buffer. *)
Record pipe : Type := mkPipe { p_tracer : T; p_world : sworld (single S A) G }.

(** buffer.add(transition) for a transition that was just popped: a new object, whose idx is numpy.arange(1)
    (_transition.py:108). *)
Definition buffer_new (w : sworld (single S A) G) (y : single S A) : sworld (single S A) G :=
  simple_add (mkSW (sheap w ++ [mkTB [y] [0%Z]]) (sb w) (sglob w)) (length (sheap w)).

(** dqn.py:60-61: while tracer: buffer.add(tracer.pop()).  Each pop removes one step, so at most len(tracer) iterations. *)
Fixpoint pipe_drain (fuel : nat) (p : pipe) : pipe * option exn :=
  match fuel with
  | O => (p, None)
  | Datatypes.S fuel' =>
      if tbool (p_tracer p) then
        match tpop (p_tracer p) with
        | (t1, Err e) => (mkPipe t1 (p_world p), Some e)
        | (t1, Ok y) => pipe_drain fuel' (mkPipe t1 (buffer_new (p_world p) y))
        end
      else (p, None)
  end.

(** dqn.py:59-61: tracer.add(s, a, r, done), then the while loop. *)
Definition pipe_record (p : pipe) (x : step S A) (r : R) (done : bool) : pipe * option exn :=
  match tadd (p_tracer p) x r done with
  | (t1, Some e) => (mkPipe t1 (p_world p), Some e)
  | (t1, None) => pipe_drain (tlen t1) (mkPipe t1 (p_world p))
  end.

(** What a program does: record a time step, sample a batch, use the random module elsewhere. *)
Inductive lop : Type :=
| LRecord (x : step S A) (r : R) (done : bool)
| LSample (k : nat)
| LForeign (g : G).

Definition pipe_step (p : pipe) (o : lop) : pipe * outcome (list (tbatch (single S A))) :=
  match o with
  | LRecord x r d => let (p1, e) := pipe_record p x r d in (p1, match e with Some e => Err e | None => Ok [] end)
  | LSample k => let (w, b) := simple_sample draw (p_world p) k in (mkPipe (p_tracer p) w, b)
  | LForeign g => (mkPipe (p_tracer p) (mkSW (sheap (p_world p)) (sb (p_world p)) g), Ok [])
  end.

(** A program whose exceptions are caught one by one; the results of all calls. *)
Fixpoint pipe_run (p : pipe) (os : list lop) : pipe * list (outcome (list (tbatch (single S A)))) :=
  match os with
  | [] => (p, [])
  | o :: os' => let (p1, b) := pipe_step p o in let (p2, bs) := pipe_run p1 os' in (p2, b :: bs)
  end.

(** ---- with a PrioritizedReplayBuffer ---- *)

Record ppipe : Type := mkPP { pp_tracer : T; pp_world : pworld (single S A) }.

(** stubs/dqn_per.py:64-65: buffer.add(transition, td_error(transition)). *)
Definition prio_new (w : pworld (single S A)) (y : single S A) (adv : R) : pworld (single S A) * option exn :=
  prio_add (mkPW (pheap w ++ [mkTB [(y, x_w y)] [0%Z]]) (pb w)) (length (pheap w)) [adv].

(** stubs/dqn_per.py:63-65. *)
Fixpoint ppipe_drain (td : single S A -> R) (fuel : nat) (p : ppipe) : ppipe * option exn :=
  match fuel with
  | O => (p, None)
  | Datatypes.S fuel' =>
      if tbool (pp_tracer p) then
        match tpop (pp_tracer p) with
        | (t1, Err e) => (mkPP t1 (pp_world p), Some e)
        | (t1, Ok y) =>
            match prio_new (pp_world p) y (td y) with
            | (w1, Some e) => (mkPP t1 w1, Some e)
            | (w1, None) => ppipe_drain td fuel' (mkPP t1 w1)
            end
        end
      else (p, None)
  end.

(** stubs/dqn_per.py:62-65. *)
Definition ppipe_record (p : ppipe) (td : single S A -> R) (x : step S A) (r : R) (done : bool) : ppipe * option exn :=
  match tadd (pp_tracer p) x r done with
  | (t1, Some e) => (mkPP t1 (pp_world p), Some e)
  | (t1, None) => ppipe_drain td (tlen t1) (mkPP t1 (pp_world p))
  end.

(** Record a time step, update priorities (stubs/dqn_per.py:70), assign alpha, beta (atari/dqn_per.py:61), epsilon. *)
Inductive plop : Type :=
| PLRecord (td : single S A -> R) (x : step S A) (r : R) (done : bool)
| PLUpdate (idx : list Z) (advs : list R)
| PLAlpha (a : R)
| PLBeta (b : R)
| PLEps (e : R).

Definition on_world (p : ppipe) (x : pworld (single S A) * option exn) : ppipe * option exn :=
  (mkPP (pp_tracer p) (fst x), snd x).

Definition ppipe_step (p : ppipe) (o : plop) : ppipe * option exn :=
  match o with
  | PLRecord td x r d => ppipe_record p td x r d
  | PLUpdate idx advs => on_world p (prio_update (pp_world p) idx advs)
  | PLAlpha a => on_world p (prio_set_alpha (pp_world p) a)
  | PLBeta b => on_world p (prio_set_beta (pp_world p) b)
  | PLEps e => on_world p (prio_set_eps (pp_world p) e)
  end.

Definition ppipe_run (p : ppipe) (os : list plop) : ppipe := fold_left (fun p o => fst (ppipe_step p o)) os p.

End Pipe.

Arguments LRecord {S A G} x r done.
Arguments LSample {S A G} k.
Arguments LForeign {S A G} g.
Arguments PLRecord {S A} td x r done.
Arguments PLUpdate {S A} idx advs.
Arguments PLAlpha {S A} a.
Arguments PLBeta {S A} b.
Arguments PLEps {S A} e.

(** ---- the loops of the scripts ---- *)

(** What one call env.step produced, with what the agent chose before it. *)
Record envstep (S A : Type) : Type := mkES { es_step : step S A; es_r : R; es_done : bool; es_trunc : bool }.
Arguments mkES {S A}.

(** Which flag is passed to tracer.add: cartpole/dqn.py:59 passes done or truncated, stubs/dqn.py:59 passes done. *)
Inductive flagged : Set := DoneOrTruncated | DoneOnly.
Definition flag_of {S A} (f : flagged) (e : envstep S A) : bool :=
  match f with DoneOrTruncated => es_done e || es_trunc e | DoneOnly => es_done e end.

Section Scripts.
Variables S A G : Type.
Variable draw : G -> nat -> nat -> list nat * G.
Variables (n : nat) (gamma : R).
Notation npipe := (pipe S A (nstate S A) G).

(** One time step: stubs/dqn.py:59-66 with [warm] = None, cartpole/dqn.py:59-66 with [warm] = Some 100.
    The sampled batch is what update gets. *)
Definition script_step (f : flagged) (warm : option nat) (k : nat) (p : npipe) (e : envstep S A)
    : npipe * outcome (option (list (tbatch (single S A)))) :=
  match pipe_record (nstep_bool n) (@nstep_len S A) (@nstep_add S A) (nstep_pop n gamma false) p (es_step e) (es_r e) (flag_of f e) with
  | (p1, Some x) => (p1, Err x)
  | (p1, None) =>
      if match warm with None => true | Some m => Nat.leb m (simple_len (p_world p1)) end then
        let (w, b) := simple_sample draw (p_world p1) k in
        (mkPipe (p_tracer p1) w, match b with Ok b => Ok (Some b) | Err x => Err x end)
      else (p1, Ok None)
  end.

(** The whole training: all steps of all episodes, the tracer is not reset in between; stops at an exception.
    The result: the batches passed to update. *)
Fixpoint script_run (f : flagged) (warm : option nat) (k : nat) (p : npipe) (es : list (envstep S A))
    : npipe * outcome (list (list (tbatch (single S A)))) :=
  match es with
  | [] => (p, Ok [])
  | e :: es' =>
      match script_step f warm k p e with
      | (p1, Err x) => (p1, Err x)
      | (p1, Ok b) =>
          match script_run f warm k p1 es' with
          | (p2, Err x) => (p2, Err x)
          | (p2, Ok bs) => (p2, Ok (match b with Some b => b :: bs | None => bs end))
          end
      end
  end.

End Scripts.
