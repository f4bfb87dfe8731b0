(** Specification of composite distributions: elements of a space, parameters that fit, and the probability of an element. *)
From Coq Require Import List ZArith Lia Bool Reals.
From Verif Require Import PyCommon UtilsSpec TDSpec DistModel CompModel.
Import ListNotations.
Local Open Scope R_scope.

(** The distributions of this library are defined for these spaces. *)
Fixpoint supported (sp : pspace) : Prop :=
  match sp with
  | SpDiscrete n _ => (1 <= n)%nat
  | SpBox bs => forall lo hi, In (lo, hi) bs -> match lo with Some l => l < 256 | None => True end /\ match hi with Some h => -256 < h | None => True end /\ match lo, hi with Some l, Some h => l < h | _, _ => True end
  | SpMultiDiscrete nvec => nvec <> [] /\ forall n, In n nvec -> (1 <= n)%nat
  | SpMultiBinary n => (1 <= n)%nat
  | SpTuple l => (fix all (l : list pspace) : Prop := match l with [] => True | s :: r => supported s /\ all r end) l
  | SpDict l => NoDup (map fst l) /\ (fix all (l : list (nat * pspace)) : Prop := match l with [] => True | (_, s) :: r => supported s /\ all r end) l
  | SpOther => False
  end.
(** Spaces made of integers counted from 0. *)
Fixpoint countable (sp : pspace) : Prop :=
  match sp with
  | SpDiscrete _ start => start = 0%Z
  | SpBox _ => False
  | SpMultiDiscrete _ | SpMultiBinary _ => True
  | SpTuple l => (fix all (l : list pspace) : Prop := match l with [] => True | s :: r => countable s /\ all r end) l
  | SpDict l => (fix all (l : list (nat * pspace)) : Prop := match l with [] => True | (_, s) :: r => countable s /\ all r end) l
  | SpOther => False
  end.

(** x in space. *)
Fixpoint inside (sp : pspace) (x : clean) {struct sp} : Prop :=
  match sp, x with
  | SpDiscrete n start, CInt z => (start <= z < start + Z.of_nat n)%Z
  | SpBox bs, CVec v => length v = length bs /\ forall i, (i < length bs)%nat -> match fst (nth i bs (None, None)) with Some l => l <= nth i v 0 | None => True end /\ match snd (nth i bs (None, None)) with Some h => nth i v 0 <= h | None => True end
  | SpMultiDiscrete nvec, CInts l => Forall2 (fun n z => (0 <= z < Z.of_nat n)%Z) nvec l
  | SpMultiBinary n, CInts l => length l = n /\ forall z, In z l -> z = 0%Z \/ z = 1%Z
  | SpTuple ss, CTuple l => (fix both (ss : list pspace) (l : list clean) : Prop := match ss, l with [], [] => True | s :: ss, c :: l => inside s c /\ both ss l | _, _ => False end) ss l
  | SpDict ss, CDict l => (fix both (ss : list (nat * pspace)) (l : list (nat * clean)) : Prop := match ss, l with [], [] => True | (k, s) :: ss, (j, c) :: l => k = j /\ inside s c /\ both ss l | _, _ => False end) ss l
  | _, _ => False
  end.

(** The logits of a categorical distribution with n categories. *)
Definition logits_of (n : nat) (p : pv) (z : list R) : Prop := p = VDict [(0%nat, VArr z)] /\ length z = n.
(** Parameters of the structure of the space. *)
Fixpoint fits (sp : pspace) (p : pv) {struct sp} : Prop :=
  match sp with
  | SpDiscrete n _ => exists z, logits_of n p z
  | SpBox bs => exists mu lv, p = VDict [(1%nat, VArr mu); (2%nat, VArr lv)] /\ length mu = length bs /\ length lv = length bs
  | SpMultiDiscrete nvec => exists ps, p = VList ps /\ Forall2 (fun n q => exists z, logits_of n q z) nvec ps
  | SpMultiBinary n => exists ps, p = VList ps /\ length ps = n /\ forall q, In q ps -> exists z, logits_of 2 q z
  | SpTuple ss => exists ps, p = VList ps /\ (fix both (ss : list pspace) (ps : list pv) : Prop := match ss, ps with [], [] => True | s :: ss, q :: ps => fits s q /\ both ss ps | _, _ => False end) ss ps
  | SpDict ss => exists ps, p = VDict ps /\ (fix both (ss : list (nat * pspace)) (ps : list (nat * pv)) : Prop := match ss, ps with [], [] => True | (k, s) :: ss, (j, q) :: ps => k = j /\ fits s q /\ both ss ps | _, _ => False end) ss ps
  | SpOther => False
  end.

(** The probability of an element: independent components, each with the softmax of its logits. *)
Definition prob_int (n : nat) (p : pv) (z : Z) : R := match p with VDict [(_, VArr l)] => boltzmann n l (Z.to_nat z) | _ => 0 end.
Definition product (l : list R) : R := fold_right Rmult 1 l.
Fixpoint prob (sp : pspace) (p : pv) (x : clean) {struct sp} : R :=
  match sp, p, x with
  | SpDiscrete n _, _, CInt z => prob_int n p z
  | SpMultiDiscrete nvec, VList ps, CInts l => product (map (fun t => prob_int (fst (fst t)) (snd (fst t)) (snd t)) (combine (combine nvec ps) l))
  | SpMultiBinary _, VList ps, CInts l => product (map (fun t => prob_int 2 (fst t) (snd t)) (combine ps l))
  | SpTuple ss, VList ps, CTuple l => (fix go (ss : list pspace) (ps : list pv) (l : list clean) : R := match ss, ps, l with s :: ss, q :: ps, c :: l => prob s q c * go ss ps l | _, _, _ => 1 end) ss ps l
  | SpDict ss, VDict ps, CDict l => (fix go (ss : list (nat * pspace)) (ps : list (nat * pv)) (l : list (nat * clean)) : R := match ss, ps, l with (_, s) :: ss, (_, q) :: ps, (_, c) :: l => prob s q c * go ss ps l | _, _, _ => 1 end) ss ps l
  | _, _, _ => 0
  end.
(** The number of uniform draws a variate needs (for spaces of integers), and the number of elements. *)
Definition nsum (l : list nat) : nat := fold_right Nat.add 0%nat l.
Definition nprod (l : list nat) : nat := fold_right Nat.mul 1%nat l.
Fixpoint size (sp : pspace) : nat :=
  match sp with
  | SpDiscrete n _ => n
  | SpBox bs => length bs
  | SpMultiDiscrete nvec => nsum nvec
  | SpMultiBinary n => 2 * n
  | SpTuple ss => nsum (map size ss)
  | SpDict ss => nsum (map (fun ks => size (snd ks)) ss)
  | SpOther => 0
  end.
Fixpoint cardinality (sp : pspace) : nat :=
  match sp with
  | SpDiscrete n _ => n
  | SpBox _ => 0
  | SpMultiDiscrete nvec => nprod nvec
  | SpMultiBinary n => 2 ^ n
  | SpTuple ss => nprod (map cardinality ss)
  | SpDict ss => nprod (map (fun ks => cardinality (snd ks)) ss)
  | SpOther => 0
  end.

(** Discrete spaces inside start at 0; boxes are allowed. *)
Fixpoint zero_based (sp : pspace) : Prop :=
  match sp with
  | SpDiscrete _ start => start = 0%Z
  | SpTuple l => (fix all (l : list pspace) : Prop := match l with [] => True | s :: r => zero_based s /\ all r end) l
  | SpDict l => (fix all (l : list (nat * pspace)) : Prop := match l with [] => True | (_, s) :: r => zero_based s /\ all r end) l
  | _ => True
  end.
(** Draws for a variate: uniform numbers for the integers, any numbers for the boxes. *)
Fixpoint drawn (sp : pspace) (us : list R) {struct sp} : Prop :=
  match sp with
  | SpBox bs => length us = length bs
  | SpTuple ss => exists uss, us = concat uss /\ (fix both (ss : list pspace) (l : list (list R)) : Prop := match ss, l with [], [] => True | s :: ss, c :: l => drawn s c /\ both ss l | _, _ => False end) ss uss
  | SpDict ss => exists uss, us = concat (map snd uss) /\ (fix both (ss : list (nat * pspace)) (l : list (nat * list R)) : Prop := match ss, l with [], [] => True | (k, s) :: ss, (j, c) :: l => k = j /\ drawn s c /\ both ss l | _, _ => False end) ss uss
  | _ => length us = size sp /\ forall u, In u us -> 0 < u < 1
  end.
(** The noise that breaks ties: one number per category. *)
Fixpoint ties (sp : pspace) : nat :=
  match sp with
  | SpBox _ => 0
  | SpTuple ss => nsum (map ties ss)
  | SpDict ss => nsum (map (fun ks => ties (snd ks)) ss)
  | _ => size sp
  end.
(** Raw variates: one vector per leaf. *)
Fixpoint variate (sp : pspace) (X : pv) {struct sp} : Prop :=
  match sp with
  | SpDiscrete n _ => exists x, X = VArr x /\ length x = n
  | SpBox bs => exists x, X = VArr x /\ length x = length bs
  | SpMultiDiscrete nvec => exists Xs, X = VList Xs /\ Forall2 (fun n X => exists x, X = VArr x /\ length x = n) nvec Xs
  | SpMultiBinary n => exists Xs, X = VList Xs /\ length Xs = n /\ forall X, In X Xs -> exists x, X = VArr x /\ length x = 2%nat
  | SpTuple ss => exists Xs, X = VList Xs /\ (fix both (ss : list pspace) (l : list pv) : Prop := match ss, l with [], [] => True | s :: ss, c :: l => variate s c /\ both ss l | _, _ => False end) ss Xs
  | SpDict ss => exists Xs, X = VDict Xs /\ (fix both (ss : list (nat * pspace)) (l : list (nat * pv)) : Prop := match ss, l with [], [] => True | (k, s) :: ss, (j, c) :: l => k = j /\ variate s c /\ both ss l | _, _ => False end) ss Xs
  | SpOther => False
  end.
(** Subspaces. *)
Inductive contains : pspace -> pspace -> Prop :=
| here : forall s, contains s s
| in_tuple : forall s t l, In t l -> contains t s -> contains (SpTuple l) s
| in_dict : forall s k t l, In (k, t) l -> contains t s -> contains (SpDict l) s.
(** A bounded coordinate is not empty within [-256, 256]. *)
Definition proper (b : option R * option R) : Prop :=
  match fst b with Some l => l < 256 | None => True end /\ match snd b with Some h => -256 < h | None => True end /\ match fst b, snd b with Some l, Some h => l < h | _, _ => True end.

(** All elements of a space of integers. *)
Fixpoint choices {A : Type} (ls : list (list A)) : list (list A) := match ls with [] => [[]] | L :: r => flat_map (fun x => map (cons x) (choices r)) L end.
Fixpoint elements (sp : pspace) : list clean :=
  match sp with
  | SpDiscrete n start => map (fun k => CInt (start + Z.of_nat k)) (seq 0 n)
  | SpMultiDiscrete nvec => map CInts (choices (map (fun n => map Z.of_nat (seq 0 n)) nvec))
  | SpMultiBinary n => map CInts (choices (repeat [0; 1]%Z n))
  | SpTuple ss => map CTuple (choices (map elements ss))
  | SpDict ss => map (fun l => CDict (combine (map fst ss) l)) (choices (map (fun ks => elements (snd ks)) ss))
  | _ => []
  end.
