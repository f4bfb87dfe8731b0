(** Model of the training loop of doc/examples/atari/dqn_per.py:57-83 (stubs/dqn_per.py has no warm-up and fails at the first step, C106): tracer, prioritized replay buffer
    whose priorities are TD errors, updates from sampled batches, target network, put together from PrioModel.v, TracerModel.v and
    LearnModel.v.

    Simplifications, for the whole file:
    - those of LearnModel.v and PrioModel.v;
    - the actions, the answers of the environment, the uniform numbers drawn by the buffer and the conditions on env.T are given: a
      program is any sequence of the four kinds of calls in [trop];
    - the TD errors are given by a function of parameters, target parameters and batch ([tds]; jax.grad of the unweighted loss with
      respect to the prediction, times minus the batch size, td_learning/_base.py:451-452). *)
From Coq Require Import List Bool Arith ZArith Reals.
From Verif Require Import PyCommon UtilsModel DistModel LossModel QModel TDModel CoreModel ReplayModel PrioModel TracerModel WorkerModel PipeModel LearnModel.
Import ListNotations.
Set Implicit Arguments.

Section Per.
Variable nA : nat.
Variable net : list R -> qfun nat R.
Variable target : list R -> list R -> TDModel.tbatch nat -> outcome (list R).
Variable loss : list R -> list R -> option (list R) -> outcome (option R).
Variable grads : list R -> list R -> fbatch nat -> list R.
Variable tds : list R -> list R -> fbatch nat -> list R.
Variable sub : nat -> nat -> bool.
Variables (n : nat) (gamma : R) (warm : nat).
Notation npp := (ppipe nat nat (nstate nat nat)).
Notation sampled := (single nat nat * R * list Z)%type.

(** td_learning/_base.py:153-181, 473-476 [td_error]: the loss is computed as in update. *)
Definition y_td_error (y : sys) (b : fbatch nat) : outcome (list R) :=
  match unwrap (q_params y), unwrap (targ_params y) with
  | Some th, Some targ => bind (q_loss (Some nA) net target loss th targ b th) (fun _ => Ok (tds th targ b))
  | _, _ => Err EKey
  end.

(** dqn_per.py:67-69: while tracer: transition = tracer.pop(); buffer.add(transition, qlearning.td_error(transition)).
    Each pop removes one step. *)
Fixpoint per_drain (fuel : nat) (y : sys) (p : npp) : npp * option exn :=
  match fuel with
  | O => (p, None)
  | Datatypes.S fuel' =>
      if nstep_bool n (pp_tracer p) then
        match nstep_pop n gamma false (pp_tracer p) with
        | (t1, Err e) => (mkPP t1 (pp_world p), Some e)
        | (t1, Ok x) =>
            match y_td_error y (batch_of nA [x]) with
            | Err e => (mkPP t1 (pp_world p), Some e)
            | Ok advs =>
                match prio_add (mkPW (pheap (pp_world p) ++ [mkTB [(x, x_w x)] [0%Z]]) (pb (pp_world p))) (length (pheap (pp_world p))) advs with
                | (w1, Some e) => (mkPP t1 w1, Some e)
                | (w1, None) => per_drain fuel' y (mkPP t1 w1)
                end
            end
        end
      else (p, None)
  end.

(** The sampled transitions with their new weights. *)
Definition reweigh (o : sampled) : single nat nat :=
  let '(x, w, _) := o in mkSingle (x_s x) (x_a x) (x_logp x) (x_rn x) (x_in x) (x_s_next x) (x_a_next x) (x_logp_next x) w (x_extra x).

(** dqn_per.py:58, 66-69, 72-76, 79-80: buffer.beta = b; tracer.add and the while loop; learning if len(buffer) > warm;
    q_targ.soft_update(q, tau). *)
Inductive trop : Type := TBeta (b : R) | TRecord (e : envstep nat nat) | TLearn (us : list R) | TSync (tau : R).
(** What was done: a batch that was sampled, a synchronisation, anything else. *)
Inductive event : Type := EvBatch (out : list sampled) | EvSync (tau : R) | EvOther.

Definition per_step (y : sys) (p : npp) (o : trop) : sys * npp * outcome event :=
  match o with
  | TBeta b => let (w, e) := prio_set_beta (pp_world p) b in (y, mkPP (pp_tracer p) w, match e with Some e => Err e | None => Ok EvOther end)
  | TRecord e =>
      match nstep_add (pp_tracer p) (es_step e) (es_r e) (flag_of DoneOrTruncated e) with
      | (t1, Some x) => (y, mkPP t1 (pp_world p), Err x)
      | (t1, None) => let (p1, x) := per_drain (nstep_len t1) y (mkPP t1 (pp_world p)) in (y, p1, match x with Some x => Err x | None => Ok EvOther end)
      end
  | TLearn us =>
      if Nat.ltb warm (prio_len (pp_world p)) then
        match prio_sample (pp_world p) us with
        | Err x => (y, p, Err x)
        | Ok out =>
            let b := batch_of nA (map reweigh out) in
            match ystep nA net target loss grads sub y (YUpdate b) with
            | (y1, Err x) => (y1, p, Err x)
            | (y1, Ok _) =>
                match y_td_error y b with                    (* returned by the same call of update *)
                | Err x => (y1, p, Err x)
                | Ok advs =>
                    let (w, x) := prio_update (pp_world p) (flat_map (fun o : sampled => snd o) out) advs in
                    (y1, mkPP (pp_tracer p) w, match x with Some x => Err x | None => Ok (EvBatch out) end)
                end
            end
        end
      else (y, p, Ok EvOther)
  | TSync tau => let (y1, r) := ystep nA net target loss grads sub y (YSync tau) in (y1, p, match r with Err x => Err x | Ok _ => Ok (EvSync tau) end)
  end.

(** A program stops at the first exception. *)
Fixpoint per_run (y : sys) (p : npp) (os : list trop) : sys * npp * outcome (list event) :=
  match os with
  | [] => (y, p, Ok [])
  | o :: os' =>
      match per_step y p o with
      | (y1, p1, Err x) => (y1, p1, Err x)
      | (y1, p1, Ok e) =>
          match per_run y1 p1 os' with
          | (y2, p2, Err x) => (y2, p2, Err x)
          | (y2, p2, Ok es) => (y2, p2, Ok (e :: es))
          end
      end
  end.
End Per.
