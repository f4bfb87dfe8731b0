(** Specification of the densities of continuous actions. *)
From Coq Require Import List Reals.
From Verif Require Import PyCommon CompModel DistSpec CompSpec2 MeanSpec.
Import ListNotations.
Local Open Scope R_scope.

(** A coordinate of a box with the parameters of its normal distribution. *)
Record axis : Type := mkA { a_bounds : option R * option R; a_mu : R; a_lv : R }.
Definition box_of (ks : list axis) : pspace := SpBox (map a_bounds ks).
Definition params_of (ks : list axis) : pv := VDict [(1%nat, VArr (map a_mu ks)); (2%nat, VArr (map a_lv ks))].
Definition low (k : axis) : R := lower (a_bounds k).
Definition high (k : axis) : R := upper (a_bounds k).
(** Raw coordinates are kept within [-30, 30]: actions stay this far from the bounds. *)
Definition margin (k : axis) : R := (high k - low k) / (1 + exp 30).

(** The standard normal density. *)
Definition bell (e : R) : R := exp (- (e * e / 2)) / sqrt (2 * PI).
(** Derivative of the raw coordinate ln ((x - l) / (h - x)) with respect to x. *)
Definition stretch (k : axis) (x : R) : R := (high k - low k) / ((x - low k) * (high k - x)).
(** Density of a coordinate of the action. *)
Definition action_density (k : axis) (x : R) : R := gauss (a_mu k) (exp (lv_used (a_lv k))) (ln ((x - low k) / (high k - x))) * stretch k x.

Definition within (x : R) (r : R * R) : Prop := fst r <= x <= snd r.
Definition densities (ks : list axis) (xs : list R) : list R := map (fun kx => action_density (fst kx) (snd kx)) (combine ks xs).
Definition stretches (ks : list axis) (xs : list R) : list R := map (fun kx => stretch (fst kx) (snd kx)) (combine ks xs).
Definition prod (l : list R) : R := fold_right Rmult 1 l.
