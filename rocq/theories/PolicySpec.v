(** Specification vocabulary for policies and policy objectives. *)
From Coq Require Import List Bool Arith Reals.
From Verif Require Import PyCommon UtilsSpec DistSpec LossSpec TDSpec TracerModel TracerSpec.
Import ListNotations.
Local Open Scope R_scope.

(** Importance weights are clipped to [0.1, 10]. *)
Definition imp (W : list R) (k : nat) : R := Rmin (Rmax (nth k W 0) (1/10)) 10.
(** The per-sample PPO objective of the literature: with a positive advantage the ratio counts up to 1+eps, with a negative advantage
    from 1-eps on. *)
Definition ppo_term (adv eps r : R) : R := if Rle_dec 0 adv then adv * Rmin r (1 + eps) else adv * Rmax r (1 - eps).
(** Where the objective rewards moving the ratio further, and where not; at the remaining points it has a kink. *)
Definition incentive (adv eps r : R) : Prop := (0 < adv /\ r < 1 + eps) \/ (adv < 0 /\ 1 - eps < r).
Definition no_incentive (adv eps r : R) : Prop := adv = 0 \/ (0 < adv /\ 1 + eps < r) \/ (adv < 0 /\ r < 1 - eps).
Definition ppo_slope (adv eps r x : R) : Prop := (incentive adv eps r /\ x = adv * r) \/ (no_incentive adv eps r /\ x = 0).
(** A differentiable dependence of n numbers on a parameter. *)
Definition moves (n : nat) (z : R -> list R) (t : R) (d : nat -> R) : Prop :=
  (forall u, length (z u) = n) /\ forall k, (k < n)%nat -> derivable_pt_lim (fun u => nth k (z u) 0) t (d k).
(** Ratio of the new to the old probability of sample k. *)
Definition pratio (logpi logP : list R) (k : nat) : R := exp (nth k logpi 0) / exp (nth k logP 0).
(** The probability that an epsilon-greedy choice takes action a: with probability eps a uniform action, otherwise one of the
    maximisers of h, all equally likely. *)
Definition eps_greedy_probability (n : nat) (eps : R) (h : nat -> R) (a : nat) (p : R) : Prop :=
  exists M, NoDup M /\ M <> [] /\ (forall a, In a M <-> (a < n)%nat /\ forall c, (c < n)%nat -> h c <= h a) /\
    ((In a M /\ p = eps * (1 / INR n) + (1 - eps) * (1 / INR (length M))) \/ (~ In a M /\ p = eps * (1 / INR n) + (1 - eps) * 0)).
(** Smallest double added before taking logarithms. *)
Definition smoothing_1e15 : R := / 10 ^ 15.
(** The sum over the offsets that do not lie beyond the last step of the episode, which is [last] steps ahead. *)
Definition valid_bonus (gamma : R) (ns : list nat) (H : nat -> R) (last : nat) : R := total (map (fun k => gamma ^ k * H k) (filter (fun k => Nat.leb k last) ns)).
(** Value of a function of the state at time i of an episode. *)
Definition hstate {S A : Type} (H : S -> R) (ep : episode S A) (i : nat) : R := match nth_error ep i with Some (x, _) => H (st_s x) | None => 0 end.
Definition ascending (ns : list nat) : Prop := forall i j, (i < j < length ns)%nat -> (nth i ns 0 < nth j ns 0)%nat.
(** Tie-breaking noise for n actions. *)
Definition noise (n : nat) (gs : list R) : Prop := length gs = n /\ forall g, In g gs -> -50 < g < 50.
(** Action a is optimal for h. *)
Definition optimal (n : nat) (h : nat -> R) (a : nat) : Prop := (a < n)%nat /\ forall c, (c < n)%nat -> h c <= h a.
