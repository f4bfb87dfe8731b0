(** Specification of composite distributions with boxes: how draws become variates, and the value of log_proba. *)
From Coq Require Import List ZArith Lia Bool Reals.
From Verif Require Import PyCommon UtilsSpec TDSpec DistModel DistSpec CompModel CompSpec.
Import ListNotations.
Local Open Scope R_scope.

(** A coordinate of a Box is used within [-256, 256]. *)
Definition lower (b : option R * option R) : R := match fst b with Some l => Rmax l (-256) | None => -256 end.
Definition upper (b : option R * option R) : R := match snd b with Some h => Rmin h 256 | None => 256 end.
(** The vector with a 1 at [a]. *)
Definition unit_vector (n a : nat) : list R := map (fun k => if Nat.eqb k a then 1 else 0) (seq 0 n).
(** Log-variances are used within [-20, 20]. *)
Definition lv_used (v : R) : R := Rmin (Rmax v (-20)) 20.

(** coordinates of a box: bounds, means, log-variances, raw coordinates, coordinates, sum of the logarithms of the densities of the raw
    coordinates.  A raw coordinate [y] stands for the point l + (h - l) / (1 + exp(-y)). *)
Inductive coords : list (option R * option R) -> list R -> list R -> list R -> list R -> R -> Prop :=
| co_nil : coords [] [] [] [] [] 0
| co_cons : forall b bs m ms v vs y ys xs r, lower b < upper b -> -30 <= y <= 30 -> coords bs ms vs ys xs r ->
    coords (b :: bs) (m :: ms) (v :: vs) (y :: ys) ((lower b + (upper b - lower b) / (1 + exp (- y))) :: xs) (ln (gauss m (exp (lv_used v)) y) + r).

(** Space, parameters, raw variate, element it stands for, logarithm of its density. *)
Inductive valued : pspace -> pv -> pv -> clean -> R -> Prop :=
| val_cat : forall n z a, length z = n -> (a < n)%nat -> valued (SpDiscrete n 0) (VDict [(0%nat, VArr z)]) (VArr (unit_vector n a)) (CInt (Z.of_nat a)) (ln (boltzmann n z a))
| val_box : forall bs mu lv ys xs r, coords bs mu lv ys xs r -> valued (SpBox bs) (VDict [(1%nat, VArr mu); (2%nat, VArr lv)]) (VArr ys) (CVec xs) r
| val_multi : forall nvec ps Ys zs r, nvec <> [] -> valueds (map (fun n => SpDiscrete n 0) nvec) ps Ys (map CInt zs) r -> valued (SpMultiDiscrete nvec) (VList ps) (VList Ys) (CInts zs) r
| val_binary : forall n ps Ys zs r, (1 <= n)%nat -> valueds (map (fun n => SpDiscrete n 0) (repeat 2%nat n)) ps Ys (map CInt zs) r -> valued (SpMultiBinary n) (VList ps) (VList Ys) (CInts zs) r
| val_tuple : forall ss ps Ys xs r, valueds ss ps Ys xs r -> valued (SpTuple ss) (VList ps) (VList Ys) (CTuple xs) r
| val_dict : forall ks ss ps Ys xs r, NoDup ks -> length ks = length ss -> valueds ss ps Ys xs r ->
    valued (SpDict (combine ks ss)) (VDict (combine ks ps)) (VDict (combine ks Ys)) (CDict (combine ks xs)) r
with valueds : list pspace -> list pv -> list pv -> list clean -> R -> Prop :=
| vals_nil : valueds [] [] [] [] 0
| vals_cons : forall s ss p ps Y Ys x xs r r', valued s p Y x r -> valueds ss ps Ys xs r' -> valueds (s :: ss) (p :: ps) (Y :: Ys) (x :: xs) (r + r').

(** Perturbed logits: Gumbel noise made of uniform numbers. *)
Definition perturbed (z us : list R) : list R := map (fun xu => fst xu - ln (- ln (snd xu))) (combine z us).
(** Space, parameters, draws, variate drawn (soft), and the variate it is rounded to: for integers the unit vector of a largest perturbed
    logit, for a box the raw coordinates kept within [-30, 30]. *)
Inductive drawing : pspace -> pv -> list R -> pv -> pv -> Prop :=
| dr_cat : forall n s z us a, length z = n -> length us = n -> (a < n)%nat -> (forall k, (k < n)%nat -> nth k (perturbed z us) 0 <= nth a (perturbed z us) 0) ->
    drawing (SpDiscrete n s) (VDict [(0%nat, VArr z)]) us (VArr (map (fun y => exp (5 * y) / total (map (fun y => exp (5 * y)) (perturbed z us))) (perturbed z us))) (VArr (unit_vector n a))
| dr_box : forall bs mu lv us xs, length mu = length bs -> length lv = length bs -> length us = length bs -> xs = map (fun t => fst (fst t) + exp (lv_used (snd (fst t)) / 2) * snd t) (combine (combine mu lv) us) ->
    drawing (SpBox bs) (VDict [(1%nat, VArr mu); (2%nat, VArr lv)]) us (VArr xs) (VArr (map (fun x => Rmin (Rmax x (-30)) 30) xs))
| dr_multi : forall nvec ps us Xs Ys, drawings (map (fun n => SpDiscrete n 0) nvec) ps us Xs Ys -> drawing (SpMultiDiscrete nvec) (VList ps) us (VList Xs) (VList Ys)
| dr_binary : forall n ps us Xs Ys, drawings (map (fun n => SpDiscrete n 0) (repeat 2%nat n)) ps us Xs Ys -> drawing (SpMultiBinary n) (VList ps) us (VList Xs) (VList Ys)
| dr_tuple : forall ss ps us Xs Ys, drawings ss ps us Xs Ys -> drawing (SpTuple ss) (VList ps) us (VList Xs) (VList Ys)
| dr_dict : forall ks ss ps us Xs Ys, length ks = length ss -> drawings ss ps us Xs Ys -> drawing (SpDict (combine ks ss)) (VDict (combine ks ps)) us (VDict (combine ks Xs)) (VDict (combine ks Ys))
with drawings : list pspace -> list pv -> list R -> list pv -> list pv -> Prop :=
| drs_nil : drawings [] [] [] [] []
| drs_cons : forall s ss p ps us us' X Xs Y Ys, drawing s p us X Y -> drawings ss ps us' Xs Ys -> drawings (s :: ss) (p :: ps) (us ++ us') (X :: Xs) (Y :: Ys).
