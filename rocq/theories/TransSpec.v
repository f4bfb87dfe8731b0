(** Specification for TransitionBatch. *)
From Coq Require Import List ZArith Lia Bool Reals.
From Verif Require Import PyCommon TransModel.
Import ListNotations.
Set Implicit Arguments.

(** All leaves have [n] rows. *)
Definition leaves_have {O} (n : nat) (t : tree (list (row O))) : Prop := forall l, In l (leaves t) -> length l = n.

(** A batch as the constructor makes it, with [n] rows in every array. *)
Definition consistent {O} (n : nat) (b : batch O) : Prop :=
  leaves_have n (batch_tree b) /\ b_W b <> TNone /\ b_idx b <> TNone.

(** [u] is [t] with every array restricted to its row [i]. *)
Inductive row_of {O} (i : nat) : tree (list (row O)) -> tree (list (row O)) -> Prop :=
| RO_none : row_of i TNone TNone
| RO_leaf : forall l x, nth_error l i = Some x -> row_of i (TLeaf l) (TLeaf [x])
| RO_node : forall ts us, Forall2 (row_of i) ts us -> row_of i (TNode ts) (TNode us).

(** Same nesting, and corresponding arrays have the same number of rows and entrywise related rows. *)
Inductive related {O} (P : row O -> row O -> Prop) : tree (list (row O)) -> tree (list (row O)) -> Prop :=
| RE_none : related P TNone TNone
| RE_leaf : forall l m, Forall2 P l m -> related P (TLeaf l) (TLeaf m)
| RE_node : forall ts us, Forall2 (related P) ts us -> related P (TNode ts) (TNode us).

Definition num_close (x y : R) : Prop := (Rabs (x - y) <= / 100000000 + / 100000 * Rabs y)%R.
Definition rows_close {O} (oclose : O -> O -> bool) (x y : row O) : Prop :=
  match x, y with
  | RNum a, RNum b => num_close a b
  | RObj a, RObj b => oclose a b = true
  | _, _ => False
  end.

(** The nesting of a pytree, without its arrays. *)
Fixpoint nesting {L} (t : tree L) : tree unit :=
  match t with TNone => TNone | TLeaf _ => TLeaf tt | TNode ts => TNode (map nesting ts) end.

(** [c] holds, array by array, the rows of all batches of [bs] in order. *)
Definition rows_joined {O} (bs : list (batch O)) (c : batch O) : Prop :=
  forall k l, nth_error (leaves (batch_tree c)) k = Some l ->
    exists parts, Forall2 (fun b p => nth_error (leaves (batch_tree b)) k = Some p) bs parts /\ l = concat parts.
