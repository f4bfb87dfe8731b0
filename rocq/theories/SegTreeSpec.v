(** Specification vocabulary for segment trees: plain lists, python index conventions, reductions.
    Only the type of extended numbers is taken from SegTreeModel.v. *)
From Coq Require Import List ZArith Lia Bool Reals.
From Verif Require Import PyCommon SegTreeModel.
Import ListNotations.
Set Implicit Arguments.

(** Laws of the reducer. *)
Definition associative {A} (op : A -> A -> A) : Prop := forall x y z, op x (op y z) = op (op x y) z.
Definition commutative {A} (op : A -> A -> A) : Prop := forall x y, op x y = op y x.
Definition unit_of {A} (op : A -> A -> A) (e : A) : Prop := forall x, op e x = x /\ op x e = x.

(** functools.reduce(op, l, init). *)
Definition reduce {A} (op : A -> A -> A) (init : A) (l : list A) : A := fold_left op l init.

(** Python index normalisation on a sequence of length [n]: negative indices count from the end. *)
Definition pynorm (n : nat) (k : Z) : Z := if (k <? 0)%Z then (k + Z.of_nat n)%Z else k.
Definition pyvalid (n : nat) (k : Z) : Prop := (- Z.of_nat n <= k < Z.of_nat n)%Z.

(** The slice l[start:stop] for in-range natural bounds. *)
Definition slice {A} (l : list A) (start stop : nat) : list A := firstn (stop - start) (skipn start l).

(** A batch of assignments to a plain array, seen as a function from positions to values:
    the last pair that names position i determines the value, otherwise the old value stays. *)
Definition assigned {A} (n : nat) (old : nat -> A) (pairs : list (Z * A)) (i : nat) : A :=
  match find (fun kv => Z.eqb (pynorm n (fst kv)) (Z.of_nat i)) (rev pairs) with
  | Some kv => snd kv
  | None => old i
  end.

(** A call set_values(idx, vals) is acceptable when all indices are valid and the lengths agree
    (or a single value is given for all indices). *)
Definition acceptable {A} (n : nat) (c : list Z * list A) : Prop :=
  (forall k, In k (fst c) -> pyvalid n k) /\ (length (snd c) = length (fst c) \/ length (snd c) = 1).

Definition call_pairs {A} (c : list Z * list A) : list (Z * A) :=
  match snd c with
  | [v] => map (fun k => (k, v)) (fst c)
  | vs => combine (fst c) vs
  end.

(** The plain array after a history of calls, rejected calls being skipped. *)
Inductive array_after {A} (n : nat) (init : A) : list (list Z * list A) -> (nat -> A) -> Prop :=
| aa_nil : array_after n init [] (fun _ => init)
| aa_ok : forall cs c f, array_after n init cs f -> acceptable n c ->
    array_after n init (cs ++ [c]) (assigned n f (call_pairs c))
| aa_rejected : forall cs c f, array_after n init cs f -> ~ acceptable n c ->
    array_after n init (cs ++ [c]) f.

(** A range (start, stop) that denotes a non-empty slice; negative bounds count from the end. *)
Definition valid_range (c : nat) (r : Z * Z) : Prop :=
  (0 <= pynorm c (fst r) < pynorm c (snd r) /\ pynorm c (snd r) <= Z.of_nat c)%Z.

(** The slice denoted by a valid range. *)
Definition range_of {A} (l : list A) (r : Z * Z) : list A :=
  slice l (Z.to_nat (pynorm (length l) (fst r))) (Z.to_nat (pynorm (length l) (snd r))).

(** The batches of valid ranges on which the code raises: the capacity is a power of two, some range starts
    at the last entry, and some range does not fit into one pair of siblings. *)
Definition bad_batch (c : nat) (rs : list (Z * Z)) : Prop :=
  c = 2 ^ (Nat.log2_up c) /\
  (exists r, In r rs /\ pynorm c (fst r) = Z.of_nat c - 1)%Z /\
  (exists r, In r rs /\ pynorm c (fst r) / 2 <> (pynorm c (snd r) - 1) / 2)%Z.

(** Partial sums of weights. *)
Fixpoint rsum (l : list R) : R := match l with [] => 0%R | x :: r => (x + rsum r)%R end.
Definition prefix_sum (l : list R) (i : nat) : R := rsum (firstn i l).

(** An element of [l] that is related to all elements by [le]: the least or the greatest one. *)
Definition extreme {A} (le : A -> A -> Prop) (m : A) (l : list A) : Prop := In m l /\ forall x, In x l -> le m x.

(** Order on extended numbers. *)
Definition xle (a b : xr) : Prop :=
  match a, b with
  | NegInf, _ => True
  | _, PosInf => True
  | Fin x, Fin y => (x <= y)%R
  | _, _ => False
  end.
Definition xge (a b : xr) : Prop := xle b a.
