(** Specification of what constructors of function approximators have to check. *)
From Coq Require Import List ZArith Bool Reals.
From Verif Require Import PyCommon CompModel BuildModel.
Import ListNotations.
Local Open Scope R_scope.

(** Arrays have as many entries as their shape says. *)
Definition volume (shape : list nat) : nat := fold_right Nat.mul 1%nat shape.
Fixpoint sound (o : otree) : Prop :=
  match o with
  | OArr _ s x => length x = volume s
  | OTuple l | OLst l => (fix all (l : list otree) : Prop := match l with [] => True | x :: r => sound x /\ all r end) l
  | ODict l => (fix all (l : list (nat * otree)) : Prop := match l with [] => True | (_, x) :: r => sound x /\ all r end) l
  end.
(** The same structure, dtypes and shapes; only the numbers may differ. *)
Inductive same_form : otree -> otree -> Prop :=
| same_arr : forall fl s x y, same_form (OArr fl s x) (OArr fl s y)
| same_tuple : forall l l', Forall2 same_form l l' -> same_form (OTuple l) (OTuple l')
| same_list : forall l l', Forall2 same_form l l' -> same_form (OLst l) (OLst l')
| same_dict : forall ks l l', Forall2 same_form l l' -> length ks = length l -> same_form (ODict (combine ks l)) (ODict (combine ks l')).
(** Two evaluations that both raise the same exception, or both give trees of the same form. *)
Definition same_outcome (a b : outcome otree) : Prop := match a, b with Ok x, Ok y => same_form x y | Err e, Err e' => e = e' | _, _ => False end.
(** A function that can be traced by jit: whether it raises, and the form of what it returns, depend on the forms of the arguments only. *)
Definition traceable (f : hkfun) : Prop :=
  (forall made args args' tr, Forall2 same_form args args' -> same_outcome (hk_run f made args tr) (hk_run f made args' tr)) /\
  (forall made args tr o, hk_run f made args tr = Ok o -> sound o).
(** The form of the output does not depend on is_training. *)
Definition steady (f : hkfun) : Prop := forall made args, same_outcome (hk_run f made args true) (hk_run f made args false).
(** A preprocessor that turns all elements into trees of one form. *)
Definition uniform {X : Type} (P : X -> Prop) (pre : X -> outcome otree) : Prop :=
  (forall x, P x -> exists o, pre x = Ok o /\ sound o) /\ (forall x y o o', P x -> P y -> pre x = Ok o -> pre y = Ok o' -> same_form o o').

(** Trees arranged like a space: [cat n] and [box n] say what is at the leaves, [seqn] makes the sequences. *)
Section Laid.
Variable cat box : nat -> otree -> Prop.
Variable seqn : list otree -> otree.
Fixpoint laid (sp : pspace) (o : otree) {struct sp} : Prop :=
  match sp with
  | SpDiscrete n _ => cat n o
  | SpBox bs => box (length bs) o
  | SpMultiDiscrete nvec => exists l, o = seqn l /\ Forall2 cat nvec l
  | SpMultiBinary n => exists l, o = seqn l /\ length l = n /\ forall x, In x l -> cat 2%nat x
  | SpTuple ss => exists l, o = seqn l /\ (fix both (ss : list pspace) (l : list otree) : Prop := match ss, l with [], [] => True | s :: ss, c :: l => laid s c /\ both ss l | _, _ => False end) ss l
  | SpDict ss => exists l, o = ODict l /\ (fix both (ss : list (nat * pspace)) (l : list (nat * otree)) : Prop := match ss, l with [], [] => True | (k, s) :: ss, (j, c) :: l => k = j /\ laid s c /\ both ss l | _, _ => False end) ss l
  | SpOther => False
  end.
End Laid.
(** An array of shape (1, *ax, n), of any dtype. *)
Definition arr (ax : list nat) (n : nat) (o : otree) : Prop := exists fl x, o = OArr fl (1%nat :: ax ++ [n]) x.
(** Parameters of a distribution over the space: {'logits': ...} and {'mu': ..., 'logvar': ...} at the leaves, tuples for sequences. *)
Definition param_tree (ax : list nat) : pspace -> otree -> Prop :=
  laid (fun n o => exists z, o = ODict [(0%nat, z)] /\ arr ax n z) (fun n o => exists mu lv, o = ODict [(1%nat, mu); (2%nat, lv)] /\ arr ax n mu /\ arr ax n lv) OTuple.
(** Raw variates of the space: arrays at the leaves, lists for sequences. *)
Definition state_tree (ax : list nat) : pspace -> otree -> Prop := laid (arr ax) (arr ax) OLst.
(** The sum of the products of two rows. *)
Definition pairing (a q : list R) : R := fold_right Rplus 0 (map (fun p => fst p * snd p) (combine a q)).
