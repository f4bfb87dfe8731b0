(** Specification vocabulary for the TD targets. *)
From Coq Require Import List Reals.
From Verif Require Import PyCommon UtilsSpec DistModel QModel TDModel.
Import ListNotations.
Local Open Scope R_scope.

Definition well_formed {St : Type} (b : tbatch St) : Prop := length (tb_Rn b) = length (tb_Snext b) /\ length (tb_In b) = length (tb_Snext b).
(** Row k of the target is f(Rn_k + In_k * g(x)) with x the bootstrap value for the next state s_k. *)
Definition bootstrapped {St : Type} (f g : R -> R) (b : tbatch St) (boot : nat -> St -> R -> Prop) (out : list R) : Prop :=
  length out = length (tb_Snext b) /\ forall k s, nth_error (tb_Snext b) k = Some s -> exists x, boot k s x /\ nth k out 0 = f (nth k (tb_Rn b) 0 + nth k (tb_In b) 0 * g x).
(** The value that a q-function of either type assigns to action number a. *)
Definition qval {St : Type} (n : nat) (q : qfun St R) (s : St) (a : nat) : R := match q with Type1 f => f s (one_hot n a) | Type2 f => nth a (f s) 0 end.
Definition width {St : Type} (n : nat) (q : qfun St R) : Prop := match q with Type1 _ => True | Type2 f => forall s, length (f s) = n end.
Definition type2 {St : Type} (q : qfun St R) : Prop := match q with Type1 _ => False | Type2 _ => True end.
(** Maximum of h over 0..n-1; unique maximiser. *)
Definition is_maximum (n : nat) (h : nat -> R) (m : R) : Prop := (exists a, (a < n)%nat /\ h a = m) /\ forall a, (a < n)%nat -> h a <= m.
Definition unique_max (n : nat) (h : nat -> R) (a : nat) : Prop := (a < n)%nat /\ forall c, (c < n)%nat -> c <> a -> h c < h a.
Definition is_minimum_of (l : list R) (m : R) : Prop := In m l /\ forall x, In x l -> m <= x.
(** Two q-functions differ by at most eps. *)
Definition close {St : Type} (n : nat) (eps : R) (q q' : qfun St R) : Prop := forall s a, (a < n)%nat -> Rabs (qval n q s a - qval n q' s a) <= eps.
(** Partial derivatives of a real function of a list. *)
Definition gradient (F : list R -> R) (x g : list R) : Prop := length g = length x /\ forall i, (i < length x)%nat -> derivable_pt_lim (fun t => F (firstn i x ++ t :: skipn (S i) x)) (nth i x 0) (nth i g 0).
(** x is the average of h' over the maximisers of h. *)
Definition greedy_avg (n : nat) (h h' : nat -> R) (x : R) : Prop := exists M, NoDup M /\ M <> [] /\ (forall a, In a M <-> (a < n)%nat /\ forall c, (c < n)%nat -> h c <= h a) /\ x = mean (map h' M).
(** The probabilities proportional to exp(logit). *)
Definition boltzmann (n : nat) (l : list R) (a : nat) : R := exp (nth a l 0) / total (map (fun c => exp (nth c l 0)) (seq 0 n)).
(** Either q can be evaluated at mixed actions (type 2), or the maximiser of qt is unique. *)
Definition no_mixed_action {St : Type} (n : nat) (qt q : qfun St R) (s : St) : Prop := type2 q \/ exists a, unique_max n (qval n qt s) a.
(** m is the least of the competing bootstrap values: all q_j at the greedy actions of all q_i. *)
Definition clipped_min {St : Type} (n : nat) (qs : list (qfun St R * (R -> R))) (s : St) (m : R) : Prop :=
  (exists qi qj x, In qi qs /\ In qj qs /\ greedy_avg n (qval n (fst qi) s) (qval n (fst qj) s) x /\ m = snd qj x) /\
  (forall qi qj x, In qi qs -> In qj qs -> greedy_avg n (qval n (fst qi) s) (qval n (fst qj) s) x -> m <= snd qj x).
(** The number that a loss call returns (0 if it raises or is nan; the theorems say when it does neither). *)
Definition loss_value (o : outcome (option R)) : R := match o with Ok (Some v) => v | _ => 0 end.
(** Expectation of h under a probability vector on 0..n-1. *)
Definition expectation (n : nat) (p h : nat -> R) : R := total (map (fun a => p a * h a) (seq 0 n)).
(** temperature * log of the sum of exp(h a / temperature). *)
Definition soft_maximum (n : nat) (t : R) (h : nat -> R) : R := t * ln (total (map (fun a => exp (h a / t)) (seq 0 n))).
(** Rows of the target whose In is zero are the transformed reward alone. *)
Definition ends_at_terminal {St : Type} (f : R -> R) (b : tbatch St) (o : outcome (list R)) : Prop := forall out k, o = Ok out -> (k < length out)%nat -> nth k (tb_In b) 0 = 0 -> nth k out 0 = f (nth k (tb_Rn b) 0).
(** Un-transformed targets are at most |In| * eps apart. *)
Definition contracts {St : Type} (g : R -> R) (b : tbatch St) (eps : R) (o o' : outcome (list R)) : Prop :=
  exists out out', o = Ok out /\ o' = Ok out' /\ forall k, (k < length (tb_Snext b))%nat -> Rabs (g (nth k out 0) - g (nth k out' 0)) <= Rabs (nth k (tb_In b) 0) * eps.
