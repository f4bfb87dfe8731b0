(** Model of the entropies, divergences and of affine_transform of coax/proba_dists/_composite.py (ProbaDist).  As in CompModel one row of a batch is
    modelled. *)
From Coq Require Import List ZArith Lia Bool Reals.
From Verif Require Import PyCommon UtilsModel WrappersModel DistModel CompModel.
Import ListNotations.
Set Implicit Arguments.
Local Open Scope R_scope.

(** _composite.py:129-143 [entropy]: the sum over the parts, which are visited in the order of the structure. *)
Fixpoint e_entropy (d : pdist) (p : pv) {struct d} : outcome R :=
  match d with
  | PCat n => bind (array_at logits_key p) (fun z => cat_entropy n z)
  | PNorm bs => bind (array_at logvar_key p) (fun lv => n_entropy (nd_of bs) (mkN [] lv))
  | PNode kd l =>
      (fix go (l : list (nat * pdist)) : outcome R :=
         match l with
         | [] => Ok 0
         | (k, d') :: r => bind (part kd k p) (fun p' => bind (e_entropy d' p') (fun a => bind (go r) (fun b => Ok (a + b))))
         end) l
  end.

(** _composite.py:145-175 [cross_entropy], [kl_divergence], for the leaf functions given.  (_normal.py:129-158 look up mu of both arguments, then
    logvar; a missing key is a KeyError whichever comes first.) *)
Section Pairs.
Variable leaf_cat : nat -> list R -> list R -> outcome R.
Variable leaf_norm : ndist -> nparams -> nparams -> outcome R.
Fixpoint e_pair (d : pdist) (p q : pv) {struct d} : outcome R :=
  match d with
  | PCat n => bind (array_at logits_key p) (fun z => bind (array_at logits_key q) (fun z' => leaf_cat n z z'))
  | PNorm bs => bind (np_at p) (fun a => bind (np_at q) (fun b => leaf_norm (nd_of bs) a b))
  | PNode kd l =>
      (fix go (l : list (nat * pdist)) : outcome R :=
         match l with
         | [] => Ok 0
         | (k, d') :: r =>
             bind (part kd k p) (fun p' => bind (part kd k q) (fun q' => bind (e_pair d' p' q') (fun a => bind (go r) (fun b => Ok (a + b)))))
         end) l
  end.
End Pairs.
Definition e_cross_entropy : pdist -> pv -> pv -> outcome R := e_pair cat_cross_entropy n_cross_entropy.
Definition e_kl : pdist -> pv -> pv -> outcome R := e_pair cat_kl n_kl.

(** The argument value_transform: None, a function (or ValueTransform object), lists and dicts of these.  (Tuples and namedtuples are not
    modelled: as pytrees they are like lists.) *)
Inductive vt : Type := VNone | VFun | VTs (l : list vt) | VTd (l : list (nat * vt)).
(** jit without static_argnums (_composite.py:207) refuses arguments with a leaf that is not an array: TypeError. *)
Fixpoint jittable (v : vt) : bool :=
  match v with
  | VNone => true
  | VFun => false
  | VTs l => forallb jittable l
  | VTd l => forallb (fun kv => jittable (snd kv)) l
  end.
(** The result: new mu and new logvar at the leaves. *)
Inductive aout : Type := ALeaf (mu : list R) (logvar : list xreal) | AList (l : list aout) | ADict (l : list (nat * aout)).
Definition abuild (kd : kind) (l : list (nat * aout)) : aout := match kd with KDict => ADict l | _ => AList (map snd l) end.

(** Broadcasting of two rows; jnp raises TypeError if the shapes do not agree. *)
Definition bcast (f : R -> R -> R) (a b : list R) : outcome (list R) :=
  if Nat.eqb (length a) (length b) then Ok (zipw f a b)
  else match a, b with [x], _ => Ok (map (f x) b) | _, [y] => Ok (map (fun x => f x y) a) | _, _ => Err EType end.
(** _normal.py:160-168 [affine_transform_func]: [v] is a static argument, so a list or dict is refused as unhashable (ValueError).  The new mu and
    the new variance are computed without value transform, as VFun never gets here. *)
Definition norm_affine (bs : list (R * R)) (p scale shift : pv) (v : vt) : outcome aout :=
  match v with
  | VTs _ | VTd _ => Err EValue
  | _ =>
      bind (array_at mu_key p) (fun mu => bind (check_n (length bs) mu) (fun mu =>
      bind (array_at logvar_key p) (fun lv => bind (check_logvar (nd_of bs) lv) (fun lv =>
      bind (as_array scale) (fun sc => bind (bcast (fun x s => x * Rsqr s) (map exp lv) sc) (fun var =>
      bind (as_array shift) (fun sh => bind (bcast Rplus mu sh) (fun mu' => Ok (ALeaf mu' (map jlog var)))))))))) 
  end.

(** len(v) and set(v).  (Arrays where lists or dicts are expected are not modelled; a set of arrays, lists or dicts is a TypeError.) *)
Definition len_of (v : pv) : outcome nat := match v with VList l => Ok (length l) | VDict l => Ok (length l) | VArr _ => Err EType end.
Definition keys_of (v : pv) : outcome (list nat) := match v with VDict l => Ok (map fst l) | VList [] => Ok [] | _ => Err EType end.
Definition same_keys (a b : list nat) : bool := forallb (fun k => existsb (Nat.eqb k) b) a && forallb (fun k => existsb (Nat.eqb k) a) b.
Definition assert_ (b : bool) : outcome unit := if b then Ok tt else Err EAssertion.
(** Lines 185-186 and 192-193: chained comparisons stop at the first pair that differs. *)
Definition check_parts (kd : kind) (l : list (nat * pdist)) (p scale shift : pv) : outcome unit :=
  match kd with
  | KDict =>
      bind (keys_of p) (fun a => bind (keys_of scale) (fun b => bind (assert_ (same_keys a b)) (fun _ =>
      bind (keys_of shift) (fun c => bind (assert_ (same_keys b c)) (fun _ => assert_ (same_keys c (map fst l)))))))
  | _ =>
      bind (len_of p) (fun a => bind (len_of scale) (fun b => bind (assert_ (Nat.eqb a b)) (fun _ =>
      bind (len_of shift) (fun c => bind (assert_ (Nat.eqb b c)) (fun _ => assert_ (Nat.eqb c (length l)))))))
  end.
(** len(value_transform) == len(structure) and set(value_transform) == set(structure); {None} is not a set of keys. *)
Definition check_vt (kd : kind) (l : list (nat * pdist)) (v : vt) : outcome unit :=
  match kd, v with
  | _, VNone => Ok tt
  | _, VFun => Err EType
  | KDict, VTd m => assert_ (same_keys (map fst m) (map fst l))
  | KDict, VTs m => if existsb (fun x => match x with VNone => false | _ => true end) m then Err EType else assert_ (Nat.eqb (length m) 0 && Nat.eqb (length l) 0)
  | _, VTs m => assert_ (Nat.eqb (length m) (length l))
  | _, VTd m => assert_ (Nat.eqb (length m) (length l))
  end.
(** value_transform[k]; None stands for a list or dict of None (lines 178-179). *)
Definition vt_part (kd : kind) (k : nat) (v : vt) : outcome vt :=
  match kd, v with
  | _, VNone => Ok VNone
  | _, VFun => Err EType
  | KDict, VTd m => match lookup k m with Some x => Ok x | None => Err EKey end
  | KDict, VTs _ => Err EType
  | _, VTs m => match nth_error m k with Some x => Ok x | None => Err EIndex end
  | _, VTd _ => Err EKey
  end.

(** _composite.py:177-198 [affine_transform] inside jit; _categorical.py:105-106 raises NotImplementedError. *)
Fixpoint affine_in (d : pdist) (p scale shift : pv) (v : vt) {struct d} : outcome aout :=
  match d with
  | PCat _ => Err ENotImplemented
  | PNorm bs => norm_affine bs p scale shift v
  | PNode kd l =>
      bind (check_parts kd l p scale shift) (fun _ => bind (check_vt kd l v) (fun _ =>
      bind ((fix go (l : list (nat * pdist)) : outcome (list (nat * aout)) :=
               match l with
               | [] => Ok []
               | (k, d') :: r =>
                   bind (part kd k p) (fun p' => bind (part kd k scale) (fun s' => bind (part kd k shift) (fun t' => bind (vt_part kd k v) (fun v' =>
                   bind (affine_in d' p' s' t' v') (fun a => bind (go r) (fun b => Ok ((k, a) :: b)))))))
               end) l)
           (fun xs => Ok (abuild kd xs))))
  end.
(** _composite.py:207: the jitted function. *)
Definition e_affine (d : pdist) (p scale shift : pv) (v : vt) : outcome aout := if jittable v then affine_in d p scale shift v else Err EType.
