(** Specification vocabulary for the losses. *)
From Coq Require Import List Reals.
From Verif Require Import UtilsSpec.
Import ListNotations.
Local Open Scope R_scope.

(** The weighted mean of a per-sample loss. *)
Definition weighted_mean (loss : nat -> R) (w : nat -> R) (n : nat) : R := total (map (fun i => w i * loss i) (seq 0 n)) / INR n.
(** The Huber loss as in the literature, and as in the docstring of coax.value_losses.huber. *)
Definition huber_formula (delta e : R) : R := if Rle_dec (Rabs e) delta then e * e / 2 else delta * Rabs e - delta * delta / 2.
Definition huber_docstring (delta e : R) : R := if Rle_dec (Rabs e) delta then e * e else delta * Rabs e - delta * delta / 2.
(** A bijection of the reals with inverse. *)
Definition inverse_pair (f g : R -> R) : Prop := (forall x, g (f x) = x) /\ (forall y, f (g y) = y).
Definition increasing (f : R -> R) : Prop := forall x y, x < y -> f x < f y.
Definition odd (f : R -> R) : Prop := forall x, f (- x) = - f x.
(** The quantile Huber loss of one pair with error e = target - prediction, and its slope in e. *)
Definition quantile_weight (tau e : R) : R := if Rlt_dec e 0 then 1 - tau else tau.
Definition quantile_formula (delta tau e : R) : R := quantile_weight tau e * huber_formula delta e / delta.
(** Number of entries below / above h. *)
Definition below (h : R) (l : list R) : nat := length (filter (fun y => if Rlt_dec y h then true else false) l).
Definition above (h : R) (l : list R) : nat := length (filter (fun y => if Rlt_dec h y then true else false) l).
(** Loss of the k-th predicted quantile against all targets of one row. *)
Definition quantile_row (d : R) (y h t : list R) (k : nat) : R := total (map (fun j => quantile_formula d (nth k t 0) (nth j y 0 - nth k h 0)) (seq 0 (length y))).
