(** Specifications for RoundModel.v: when rounds happen and which transitions they may use. *)
From Coq Require Import List ZArith Lia Bool Reals.
From Verif Require Import PyCommon ReplayModel ReplaySpec TracerModel TracerSpec PipeModel PipeSpec RoundModel.
Import ListNotations.
Set Implicit Arguments.

Section Spec.
Variables S A : Type.

(** The number of n-step transitions available after t time steps. *)
Definition avail (n : nat) (ins : list (step S A * R * bool)) (t : nat) : nat := length (nstep_due n (firstn t ins)).

(** Rounds take place at the first time at which [cap] new transitions are available since the last round: pairs of the time of the round before
    (0 at the beginning) and the time of the round, from time t0 to the end. *)
Inductive schedule (D : nat -> nat) (cap : nat) : nat -> nat -> list (nat * nat) -> Prop :=
| sch_end : forall t0 T, (forall t, t0 < t <= T -> D t < D t0 + cap) -> schedule D cap t0 T []
| sch_round : forall t0 t1 T ws, t0 < t1 <= T -> (forall t, t0 < t < t1 -> D t < D t0 + cap) -> D t0 + cap <= D t1 -> schedule D cap t1 T ws -> schedule D cap t0 T ((t0, t1) :: ws).

(** The batches of a round between two times: k different ones of the last [cap] transitions that became available, numbered since the last round. *)
Definition round_of (D : nat -> nat) (k cap m : nat) (outs : list (single S A)) (w : nat * nat) (round : list (list (tbatch (single S A)))) : Prop :=
  length round = m /\
  forall b, In b round -> exists js, length js = k /\ NoDup js /\
    Forall2 (fun j x => j < D (snd w) /\ D (snd w) <= j + cap /\ exists y, nth_error outs j = Some y /\ x = mkTB [y] [Z.of_nat (j - D (fst w))]) js b.
End Spec.
(** What the tracer is fed with. *)
Definition fed {S A} (f : flagged) (es : list (envstep S A)) : list (step S A * R * bool) :=
  map (fun e => (es_step e, es_r e, match f with DoneOrTruncated => orb (es_done e) (es_trunc e) | DoneOnly => es_done e end)) es.
(** A transition is about a time step: state, action, log-propensity and weight are those of that step. *)
Definition about {S A} (e : envstep S A) (y : single S A) : Prop := x_s y = st_s (es_step e) /\ x_a y = st_a (es_step e) /\ x_logp y = st_logp (es_step e) /\ x_w y = st_w (es_step e).
