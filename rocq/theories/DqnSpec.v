(** Specification of the training loop with a replay buffer. *)
From Coq Require Import List Bool Arith ZArith Reals.
From Verif Require Import PyCommon ReplayModel TracerModel PipeModel LearnSpec.
Import ListNotations.
Set Implicit Arguments.

Section Spec.
Variables nS nA : nat.
Variable dyn : nat -> nat -> nat * R * bool.

(** The records follow the environment, any number of episodes, the last one finished or not; unit weights. *)
Fixpoint follows (es : list (envstep nat nat)) : Prop :=
  match es with
  | [] => True
  | e :: es' =>
      let s := st_s (es_step e) in let a := st_a (es_step e) in
      (s < nS)%nat /\ (a < nA)%nat /\ (st_logp (es_step e) <= 0)%R /\ st_w (es_step e) = 1%R /\ st_wnative (es_step e) = true /\
      es_r e = reward dyn s a /\ es_done e = ends dyn s a /\ es_trunc e = false /\
      match es' with [] => True | e' :: _ => es_done e = false -> st_s (es_step e') = next dyn s a end /\
      follows es'
  end.

(** One of the sampled batches has a row with this state and this action. *)
Definition samples (bs : list (option (list (tbatch (single nat nat))))) (s a : nat) : Prop :=
  exists b x j, In (Some b) bs /\ In (mkTB [x] [j]) b /\ x_s x = s /\ x_a x = a.
(** Consecutive parts of the training, in each of which every pair is sampled; then a rest. *)
Definition sweeps (N : nat) (log : list (option (list (tbatch (single nat nat))))) : Prop :=
  exists parts rest, log = concat parts ++ rest /\ length parts = N /\
    forall part, In part parts -> forall s a, (s < nS)%nat -> (a < nA)%nat -> samples part s a.
End Spec.
