(** Specification vocabulary for the helpers in coax/utils, written without the model's definitions. *)
From Coq Require Import List ZArith Reals.
Import ListNotations.
Local Open Scope R_scope.

(** Sum and arithmetic mean. *)
Definition total (l : list R) : R := fold_right Rplus 0 l.
Definition mean (l : list R) : R := total l / INR (length l).
(** The last n elements (all of them when there are fewer). *)
Definition lastn {A} (n : nat) (l : list A) : list A := skipn (length l - n) l.
Definition between (l : list R) (v : R) : Prop := forall lo hi, (forall x, In x l -> lo <= x <= hi) -> lo <= v <= hi.

(** Consecutive differences, newest minus previous; one element fewer. *)
Fixpoint diffs (l : list R) : list R :=
  match l with
  | x :: ((y :: _) as r) => (y - x) :: diffs r
  | _ => []
  end.
(** The difference of order m of the newest frame. *)
Definition last_diff (m : nat) (l : list R) : R := last (Nat.iter m diffs l) 0.

(** Weighted average over the owners: [c] lists for every dict the value it holds (None when it lacks the key). *)
Definition owner_weight (ws : list R) (c : list (option (list R))) : R :=
  total (map (fun wo => match snd wo with Some _ => fst wo | None => 0 end) (combine ws c)).
Definition owner_sum (j : nat) (ws : list R) (c : list (option (list R))) : R :=
  total (map (fun wo => match snd wo with Some g => fst wo * nth j g 0 | None => 0 end) (combine ws c)).
Definition owners {A} (c : list (option A)) : nat := length (filter (fun o => match o with Some _ => true | None => false end) c).

Definition strictly_increasing (l : list R) : Prop := forall i j, (i < j < length l)%nat -> nth i l 0 < nth j l 0.
Definition nondecreasing (l : list R) : Prop := forall i j, (i < j < length l)%nat -> nth i l 0 <= nth j l 0.
Definition maximal_at (l : list R) (i : nat) : Prop := (i < length l)%nat /\ forall j, (j < length l)%nat -> nth j l 0 <= nth i l 0.
Definition minimal_at (l : list R) (i : nat) : Prop := (i < length l)%nat /\ forall j, (j < length l)%nat -> nth i l 0 <= nth j l 0.
