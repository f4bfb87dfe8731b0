(** Expected values for numbers drawn uniformly from [0, 1) (Riemann integrals of the standard library). *)
From Coq Require Import List ZArith Reals.
Import ListNotations.
Open Scope R_scope.

Definition integral (f : R -> R) (a b m : R) : Prop := exists pr : Riemann_integrable f a b, RiemannInt pr = m.

(** [m] is the expected value of [F u] for a uniform u. *)
Definition mean_over_unit (F : R -> R) (m : R) : Prop := integral F 0 1 m.

(** [m] is the expected value of [F us] for [n] independent uniform numbers, integrated one after the other. *)
Fixpoint mean_units (n : nat) (F : list R -> R) (m : R) : Prop :=
  match n with
  | O => F [] = m
  | S n => exists G, (forall u, 0 < u < 1 -> mean_units n (fun us => F (u :: us)) (G u)) /\ mean_over_unit G m
  end.

Definition sum_over {A} (l : list A) (f : A -> R) : R := fold_right (fun x s => f x + s) 0 l.

(** Expected value of [g] for a list of [n] independent keys of probabilities [p]. *)
Fixpoint expect {A} (keys : list A) (p : A -> R) (n : nat) (g : list A -> R) : R :=
  match n with
  | O => g []
  | S n => sum_over keys (fun k => p k * expect keys p n (fun l => g (k :: l)))
  end.

(** The largest of a list of positive numbers. *)
Definition largest (l : list R) : R := fold_right Rmax 0 l.

(** The transitions stored by a buffer of capacity [cap] after [n] of them were added. *)
Definition stored (cap n : nat) : list nat := seq (n - Nat.min cap n) (Nat.min cap n).

(** The batch delivered for the transitions [ks] of the log of all added (payload, W): weights multiplied by raw weights that are
    normalised by the largest of the batch. *)
Definition delivered {Y} (log : list (Y * R)) (raw : nat -> R) (ks : list nat) : list (Y * R * list Z) :=
  flat_map (fun k => match nth_error log k with
                     | Some (y, W) => [(y, W * (raw k / largest (map raw ks)), [Z.of_nat k])]
                     | None => []
                     end) ks.

(** The ids of a batch, in order. *)
Definition ids_of {Y} (out : list (Y * R * list Z)) : list nat := flat_map (fun e => map Z.to_nat (snd e)) out.

(** The mean over a batch of the weighted losses W * f. *)
Definition weighted_loss {Y} (f : Y -> R) (out : list (Y * R * list Z)) : R :=
  sum_over out (fun e => snd (fst e) * f (fst (fst e))) / INR (length out).

(** The weighted loss of transition k. *)
Definition loss_of {Y} (log : list (Y * R)) (f : Y -> R) (k : nat) : R :=
  match nth_error log k with Some (y, W) => W * f y | None => 0 end.
