(** Specifications for SchedModel.v. *)
From Coq Require Import List Bool Arith Reals.
From Verif Require Import PyCommon UtilsSpec DistModel DistSpec LossModel LossSpec QModel TDModel TDSpec CoreModel CoreSpec LearnModel LearnSpec NoiseSpec.
Import ListNotations.
Set Implicit Arguments.
Local Open Scope R_scope.

(** What is learned from: [aim w s a] is the target of the pair (s, a) when the noise is w.  Either there is no target network and every
    transition ends its episode (a contextual bandit), or there is a target network, which is not changed. *)
Definition noisy_data (nS nA : nat) (dyn : nat -> nat -> nat -> nat * R * bool) (P : list R) (gamma : R) (net : list R -> qfun nat R) (target : list R -> list R -> tbatch nat -> outcome (list R))
    (val : valuation) (grads : list R -> list R -> fbatch nat -> list R) (f : func) (t : option func) (th0 : list R) (aim : nat -> nat -> nat -> R) : Prop :=
  (1 <= nA)%nat /\ distribution P /\ all_closed nS nA (length P) dyn /\ (net = table1 nS \/ net = table2 nS nA) /\ algorithm nA net target val /\
  noisy_differentiates nS nA (length P) dyn gamma net target mse grads /\ f_params f = Node [0%nat] [Node [0%nat] [Leaf th0]] /\ length th0 = (nS * nA)%nat /\
  match t with
  | None => forall w s a, (w < length P)%nat -> (s < nS)%nat -> (a < nA)%nat -> ends (dyn w) s a = true /\ aim w s a = reward (dyn w) s a
  | Some t => exists targ qt, f_params t = Node [0%nat] [Node [0%nat] [Leaf targ]] /\ length targ = (nS * nA)%nat /\
      (forall s a, (s < nS)%nat -> (a < nA)%nat -> q_call_a (Some nA) (one_hot nA) (fun x => x) (net targ) s a = Ok (qt s a)) /\
      forall w s a, (w < length P)%nat -> (s < nS)%nat -> (a < nA)%nat -> worth dyn gamma val qt w s a (aim w s a)
  end.
(** n updates on one transition each, the k-th one on the pair [r k]. *)
Definition one_by_one (r : nat -> nat * nat) (n : nat) : list decision := map (fun k => DUpdate [r k] [1]) (seq 0 n).
(** The learning rate with which the pair (s, a) is updated in update k. *)
Definition rate (schedule : R -> R) (r : nat -> nat * nat) (s a k : nat) : R := if (Nat.eqb (fst (r k)) s && Nat.eqb (snd (r k)) a)%bool then schedule (INR k) else 0.
(** Mean and variance of the targets of a pair. *)
Definition mean_aim (P : list R) (aim : nat -> nat -> nat -> R) (s a : nat) : R := total (map (fun w => nth w P 0 * aim w s a) (seq 0 (length P))).
Definition variance (P : list R) (aim : nat -> nat -> nat -> R) (s a : nat) : R := total (map (fun w => nth w P 0 * (aim w s a - mean_aim P aim s a) ^ 2) (seq 0 (length P))).
(** Step k replaces a square error e by (1 - c k)^2 e + (c k)^2 var. *)
Fixpoint square_error (c : nat -> R) (var e : R) (n : nat) : R := match n with O => e | S n' => (1 - c n') ^ 2 * square_error c var e n' + c n' ^ 2 * var end.
(** The values after the program, as a function of the noise. *)
Definition gives (nS nA : nat) (net : list R -> qfun nat R) (run : list nat -> sys * outcome unit) (nW n : nat) (v : list nat -> nat -> nat -> R) : Prop :=
  forall ws, noise_list nW n ws -> exists y' th, run ws = (y', Ok tt) /\ q_params y' = Node [0%nat] [Node [0%nat] [Leaf th]] /\
  forall s a, (s < nS)%nat -> (a < nA)%nat -> q_call_a (Some nA) (one_hot nA) (fun x => x) (net th) s a = Ok (v ws s a).
(** Learning rates between 0 and 1 that tend to 0. *)
Definition vanishing (schedule : R -> R) : Prop := (forall k, 0 <= schedule (INR k) <= 1) /\ forall e, 0 < e -> exists K, forall k, (K <= k)%nat -> schedule (INR k) <= e.
(** The learning rates with which (s, a) is updated have an infinite sum. *)
Definition enough (schedule : R -> R) (r : nat -> nat * nat) (s a : nat) : Prop := forall M, exists n, M <= total (map (rate schedule r s a) (seq 0 n)).
