(** Specifications for ChanceModel.v: what a played episode is worth on average. *)
From Coq Require Import List Bool Arith Reals.
From Verif Require Import PyCommon DistModel DistSpec QModel TDModel TDSpec PolicyModel PolicySpec LearnSpec NoiseSpec PlayModel PlaySpec ChanceModel.
Import ListNotations.
Set Implicit Arguments.
Local Open Scope R_scope.

(** An episode of at most as many steps as there are noises, that starts in s and follows the environment with these noises. *)
Inductive chance_episode (dyn : nat -> nat -> nat -> nat * R * bool) : list nat -> nat -> list (nat * nat * R * bool) -> Prop :=
| ce_stop : forall s, chance_episode dyn [] s []
| ce_end : forall w ws s a, ends (dyn w) s a = true -> chance_episode dyn (w :: ws) s [(s, a, reward (dyn w) s a, true)]
| ce_on : forall w ws s a h, ends (dyn w) s a = false -> chance_episode dyn ws (next (dyn w) s a) h -> chance_episode dyn (w :: ws) s ((s, a, reward (dyn w) s a, false) :: h).

(** Any way to play: what to do after a history in a state.  It may use all that was observed, but not the noise to come. *)
Definition strategy : Type := list (nat * nat * R * bool) -> nat -> nat.
Fixpoint earns (dyn : nat -> nat -> nat -> nat * R * bool) (gamma : R) (f : strategy) (past : list (nat * nat * R * bool)) (s : nat) (ws : list nat) : R :=
  match ws with
  | [] => 0
  | w :: ws' => let a := f past s in reward (dyn w) s a + (if ends (dyn w) s a then 0 else gamma * earns dyn gamma f (past ++ [(s, a, reward (dyn w) s a, false)]) (next (dyn w) s a) ws')
  end.
Definition plays_legally (nA : nat) (f : strategy) : Prop := forall past s, (f past s < nA)%nat.

(** The discounted sum of rewards of an agent as a function of the noises of the environment. *)
Definition chance_gain (gamma : R) (agent : nat -> list R -> outcome nat) (dyn : nat -> nat -> nat -> nat * R * bool) (nW s : nat) (gss : list (list R)) (G : list nat -> R) : Prop :=
  forall ws, noise_list nW (length gss) ws -> exists h, chance_play agent dyn s (combine gss ws) = Ok h /\ G ws = gain gamma h.
(** The same for an agent that samples: also a function of the uniform draws of the agent. *)
Definition chance_sampled (nA : nat) (gamma tau : R) (policy : nat -> outcome (list R)) (dyn : nat -> nat -> nat -> nat * R * bool) (nW s : nat) (gss : list (list R)) (F : list nat -> list R -> R) : Prop :=
  forall ws us, noise_list nW (length gss) ws -> length us = (length gss * nA)%nat -> (forall u, In u us -> 0 < u < 1) ->
  exists h, chance_play (draw_agent nA tau policy) dyn s (combine (combine (per_step nA (length gss) us) gss) ws) = Ok h /\ F ws us = gain gamma h.
