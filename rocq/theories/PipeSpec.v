(** Specification of the loop from tracer to buffer. *)
From Coq Require Import List ZArith Lia Bool Reals.
From Verif Require Import PyCommon ReplayModel PrioModel ReplaySpec TracerModel TracerSpec PipeModel.
Import ListNotations.
Set Implicit Arguments.

Section Spec.
Variables S A G : Type.

(** The time steps recorded by a program, in order. *)
Fixpoint recorded (os : list (lop S A G)) : list (step S A * R * bool) :=
  match os with
  | [] => []
  | LRecord x r d :: os' => (x, r, d) :: recorded os'
  | _ :: os' => recorded os'
  end.
Fixpoint p_recorded (os : list (plop S A)) : list (step S A * R * bool) :=
  match os with
  | [] => []
  | PLRecord _ x r d :: os' => (x, r, d) :: p_recorded os'
  | _ :: os' => p_recorded os'
  end.

(** All steps have logp <= 0 and a positive weight that is a python number. *)
Definition steps_valid (ins : list (step S A * R * bool)) : Prop := forall x r d, In (x, r, d) ins -> valid_step x.

(** random.sample(range(n), k) for k <= n: k distinct positions. *)
Definition draws_distinct (draw : G -> nat -> nat -> list nat * G) : Prop :=
  forall g n k, k <= n -> length (fst (draw g n k)) = k /\ NoDup (fst (draw g n k)) /\ (forall p, In p (fst (draw g n k)) -> p < n).

(** What the environment played: episodes end with done or truncated. *)
Definition played (es : list (envstep S A)) : list (step S A * R * bool) :=
  map (fun e => (es_step e, es_r e, orb (es_done e) (es_trunc e))) es.
Definition played_valid (es : list (envstep S A)) : Prop := forall e, In e es -> valid_step (es_step e).

(** [y] is the n-step transition of time [t] of one of the episodes that were played, finished or not. *)
Definition of_one_episode (n : nat) (gamma : R) (es : list (envstep S A)) (y : single S A) : Prop :=
  exists ep fin t, (if fin : bool then In ep (fst (cut [] (played es))) else ep = snd (cut [] (played es)) /\ t + n < length ep) /\
    nstep_spec n gamma false ep fin t y.

End Spec.
