(** Specification of the entropies of composite distributions and of affine transformations. *)
From Coq Require Import List ZArith Lia Bool Reals.
From Verif Require Import PyCommon UtilsSpec DistModel DistSpec CompModel CompSpec EntModel.
Import ListNotations.
Local Open Scope R_scope.

(** A complete list of the elements of a space. *)
Definition lists_all (sp : pspace) (l : list clean) : Prop := NoDup l /\ forall x, In x l <-> inside sp x.
(** Shannon entropy, cross entropy and Kullback-Leibler divergence of the probabilities of the elements in [l]. *)
Definition shannon (pr : clean -> R) (l : list clean) : R := total (map (fun x => pr x * - ln (pr x)) l).
Definition cross (pr pr' : clean -> R) (l : list clean) : R := total (map (fun x => pr x * - ln (pr' x)) l).
Definition divergence (pr pr' : clean -> R) (l : list clean) : R := total (map (fun x => pr x * (ln (pr x) - ln (pr' x))) l).

(** Spaces made of boxes. *)
Fixpoint boxes (sp : pspace) : Prop :=
  match sp with
  | SpBox _ => True
  | SpTuple l => (fix all (l : list pspace) : Prop := match l with [] => True | s :: r => boxes s /\ all r end) l
  | SpDict l => (fix all (l : list (nat * pspace)) : Prop := match l with [] => True | (_, s) :: r => boxes s /\ all r end) l
  | _ => False
  end.
(** Spaces of integers. *)
Definition integers (sp : pspace) : Prop := match sp with SpDiscrete _ _ | SpMultiDiscrete _ | SpMultiBinary _ => True | _ => False end.

(** log of a variance, which is minus infinity for variance 0. *)
Definition logvar_is (v : R) (x : xreal) : Prop := match x with XFin l => exp l = v | XNegInf => v = 0 | XNan => False end.
(** The parameters [r] have the structure of [sp]; at every coordinate of every box, shift has been added to mu, and the variance, clipped to
    [exp(-20), exp(20)], has been multiplied with the square of scale. *)
Inductive moved : pspace -> pv -> pv -> pv -> aout -> Prop :=
| m_box : forall bs mu lv sc sh mu' lv', length mu' = length bs -> length lv' = length bs ->
    (forall i, (i < length bs)%nat -> nth i mu' 0 = nth i mu 0 + nth i sh 0 /\
       logvar_is (exp (Rmax (-20) (Rmin 20 (nth i lv 0))) * (nth i sc 0 * nth i sc 0)) (nth i lv' XNan)) ->
    moved (SpBox bs) (VDict [(1%nat, VArr mu); (2%nat, VArr lv)]) (VArr sc) (VArr sh) (ALeaf mu' lv')
| m_tuple : forall ss ps scs shs rs, moveds ss ps scs shs rs -> moved (SpTuple ss) (VList ps) (VList scs) (VList shs) (AList rs)
| m_dict : forall ks ss ps scs shs rs, length ks = length ss -> moveds ss ps scs shs rs ->
    moved (SpDict (combine ks ss)) (VDict (combine ks ps)) (VDict (combine ks scs)) (VDict (combine ks shs)) (ADict (combine ks rs))
with moveds : list pspace -> list pv -> list pv -> list pv -> list aout -> Prop :=
| ms_nil : moveds [] [] [] [] []
| ms_cons : forall s ss p ps sc scs sh shs r rs, moved s p sc sh r -> moveds ss ps scs shs rs -> moveds (s :: ss) (p :: ps) (sc :: scs) (sh :: shs) (r :: rs).
(** A value_transform that contains a function. *)
Inductive has_function : vt -> Prop :=
| hf_here : has_function VFun
| hf_list : forall v l, In v l -> has_function v -> has_function (VTs l)
| hf_dict : forall k v l, In (k, v) l -> has_function v -> has_function (VTd l).
