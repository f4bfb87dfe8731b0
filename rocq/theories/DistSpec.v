(** Specification vocabulary for coax/proba_dists. *)
From Coq Require Import List ZArith Reals.
From Verif Require Import PyCommon UtilsModel UtilsSpec DistModel.
Import ListNotations.
Local Open Scope R_scope.

(** A probability vector with positive entries. *)
Definition pos_distribution (p : list R) : Prop := (forall x, In x p -> 0 < x) /\ total p = 1.
(** A probability vector. *)
Definition distribution (p : list R) : Prop := (forall x, In x p -> 0 <= x) /\ total p = 1.
(** The expectation of w(k) under a probability vector. *)
Definition expect (p : list R) (w : nat -> R) : R := total (map (fun k => nth k p 0 * w k) (seq 0 (length p))).
(** Shannon entropy and Kullback-Leibler divergence. *)
Definition H (p : list R) : R := expect p (fun k => - ln (nth k p 0)).
Definition KL (p q : list R) : R := expect p (fun k => ln (nth k p 0) - ln (nth k q 0)).

(** The density of a normal variate with mean m and variance v. *)
Definition gauss (m v x : R) : R := exp (- ((x - m) * (x - m) / (2 * v))) / sqrt (2 * PI * v).
(** The product of a list. *)
Definition product (l : list R) : R := fold_right Rmult 1 l.
(** The joint density of independent normal variates with means mu and variances exp(lv). *)
Fixpoint joint (mu lv x : list R) : list R :=
  match mu, lv, x with m :: mu', v :: lv', y :: x' => gauss m (exp v) y :: joint mu' lv' x' | _, _, _ => [] end.

(** Parameters that have the structure of the distribution. *)
Definition fits_norm (D : ndist) (p : nparams) : Prop := length (n_mu p) = nd_dim D /\ length (n_logvar p) = nd_dim D.
Fixpoint fits (d : cdist) (p : cparams) : Prop :=
  match d, p with
  | CCat n, PCat z => (1 <= n)%nat /\ length z = n
  | CNorm D, PNorm p => fits_norm D p
  | CNode l, PNode lp => (fix go (l : list (nat * cdist)) : Prop := match l with [] => True | (k, d') :: l' => (exists p', dget k lp = Some p' /\ fits d' p') /\ go l' end) l
  | _, _ => False
  end.
(** Same distribution: every leaf assigns the same (log-)probability to every variate. *)
Fixpoint same_dist (d : cdist) (p q : cparams) : Prop :=
  match d, p, q with
  | CCat n, PCat z, PCat z' => forall x, cat_log_proba n z x = cat_log_proba n z' x
  | CNorm D, PNorm p, PNorm q => forall x, n_log_proba D p x = n_log_proba D q x
  | CNode l, PNode lp, PNode lq =>
      (fix go (l : list (nat * cdist)) : Prop :=
         match l with [] => True | (k, d') :: l' => (forall p' q', dget k lp = Some p' -> dget k lq = Some q' -> same_dist d' p' q') /\ go l' end) l
  | _, _, _ => False
  end.

(** The hat function: the share of a mass at distance t (in units of the bin distance) from an atom that goes to this atom. *)
Definition hat (t : R) : R := Rmax 0 (1 - Rabs t).
(** An inverse of tanh. *)
Definition inverse_of_tanh (inv : R -> R) : Prop := forall y, -1 < y < 1 -> tanh (inv y) = y.
(** F is an antiderivative of f. *)
Definition antiderivative (F f : R -> R) : Prop := forall u, derivable_pt_lim F u (f u).
