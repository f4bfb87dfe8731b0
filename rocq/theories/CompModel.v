(** Model of coax/proba_dists/_composite.py (ProbaDist).  As in DistModel one row of a batch is modelled; spaces of type Box have a flat shape
    and a float dtype; random numbers are taken from a list in the order in which the leaves are visited (hk.PRNGSequence gives every leaf
    its own key). *)
From Coq Require Import List ZArith Lia Bool Reals.
From Verif Require Import PyCommon UtilsModel DistModel.
Import ListNotations.
Set Implicit Arguments.
Local Open Scope R_scope.

(** gymnasium spaces; None is an infinite bound.  [SpOther] stands for Text, Graph, Sequence and any other space. *)
Inductive pspace : Type :=
| SpDiscrete (n : nat) (start : Z)
| SpBox (bounds : list (option R * option R))
| SpMultiDiscrete (nvec : list nat)
| SpMultiBinary (n : nat)
| SpTuple (l : list pspace)
| SpDict (l : list (nat * pspace))
| SpOther.

(** _composite.py:21-24 and 43-64: a leaf, or a list or dict of ProbaDist objects.  Lists have the keys 0, 1, ...; the space decides how
    variates are taken apart. *)
Inductive kind : Type := KMulti | KTuple | KDict.
Inductive pdist : Type := PCat (n : nat) | PNorm (bounds : list (R * R)) | PNode (k : kind) (l : list (nat * pdist)).

Fixpoint map_outcome {A B : Type} (f : A -> outcome B) (l : list A) : outcome (list B) :=
  match l with [] => Ok [] | x :: r => bind (f x) (fun y => bind (map_outcome f r) (fun ys => Ok (y :: ys))) end.
Definition enum {A : Type} (l : list A) : list (nat * A) := combine (seq 0 (length l)) l.

(** _composite.py:43-64 [__init__]; NormalDist with its default clip_box. *)
Fixpoint mk (sp : pspace) : outcome pdist :=
  match sp with
  | SpDiscrete n _ => Ok (PCat n)
  | SpBox bs => bind (map_outcome (fun b => n_bounds (fst b) (snd b) (-256) 256) bs) (fun bs => Ok (PNorm bs))
  | SpMultiDiscrete nvec => Ok (PNode KMulti (enum (map PCat nvec)))
  | SpMultiBinary n => Ok (PNode KMulti (enum (map (fun _ => PCat 2) (seq 0 n))))
  | SpTuple l =>
      bind ((fix go (l : list pspace) : outcome (list pdist) :=
               match l with [] => Ok [] | s :: r => bind (mk s) (fun d => bind (go r) (fun ds => Ok (d :: ds))) end) l)
           (fun ds => Ok (PNode KTuple (enum ds)))
  | SpDict l =>
      bind ((fix go (l : list (nat * pspace)) : outcome (list (nat * pdist)) :=
               match l with [] => Ok [] | (k, s) :: r => bind (mk s) (fun d => bind (go r) (fun ds => Ok ((k, d) :: ds))) end) l)
           (fun ds => Ok (PNode KDict ds))
  | SpOther => Err EType
  end.

(** Values: one row of an array, lists and dicts.  Keys are numbers; 'logits', 'mu' and 'logvar' are 0, 1 and 2. *)
Inductive pv : Type := VArr (x : list R) | VList (l : list pv) | VDict (l : list (nat * pv)).
Definition logits_key : nat := 0%nat.
Definition mu_key : nat := 1%nat.
Definition logvar_key : nat := 2%nat.
Fixpoint lookup {A : Type} (k : nat) (l : list (nat * A)) : option A := match l with [] => None | (j, v) :: r => if Nat.eqb k j then Some v else lookup k r end.
(** v['k'] *)
Definition item (k : nat) (v : pv) : outcome pv :=
  match v with VDict l => match lookup k l with Some x => Ok x | None => Err EKey end | _ => Err EType end.
(** v[i].  (An array where a list is expected is not modelled.) *)
Definition index (i : nat) (v : pv) : outcome pv :=
  match v with VList l => match nth_error l i with Some x => Ok x | None => Err EIndex end | VDict _ => Err EKey | VArr _ => Err EType end.
Definition part (kd : kind) (k : nat) (v : pv) : outcome pv := match kd with KDict => item k v | _ => index k v end.
(** The array in v['k'] (check_shape raises TypeError for anything else). *)
Definition array_at (k : nat) (v : pv) : outcome (list R) := bind (item k v) (fun x => match x with VArr a => Ok a | _ => Err EType end).
Definition as_array (v : pv) : outcome (list R) := match v with VArr a => Ok a | _ => Err EType end.
(** A list or dict built from the parts. *)
Definition build (kd : kind) (l : list (nat * pv)) : pv := match kd with KDict => VDict l | _ => VList (map snd l) end.

(** The defaults of CategoricalDist and NormalDist. *)
Definition tau_default : R := 2 / 10.
Definition nd_of (bs : list (R * R)) : ndist := mkND (length bs) (-20) 20.
Definition np_at (v : pv) : outcome nparams := bind (array_at mu_key v) (fun mu => bind (array_at logvar_key v) (fun lv => Ok (mkN mu lv))).

(** _composite.py:66-81 [sample]: a categorical leaf with n categories uses n uniform draws, a normal leaf with d coordinates d standard normal
    ones; returns the draws that are left. *)
Fixpoint c_sample (d : pdist) (p : pv) (us : list R) {struct d} : outcome (pv * list R) :=
  match d with
  | PCat n => bind (array_at logits_key p) (fun z => bind (cat_sample n tau_default z (firstn n us)) (fun x => Ok (VArr x, skipn n us)))
  | PNorm bs => bind (np_at p) (fun q => bind (n_sample (nd_of bs) q (firstn (length bs) us)) (fun x => Ok (VArr x, skipn (length bs) us)))
  | PNode kd l =>
      bind ((fix go (l : list (nat * pdist)) (us : list R) : outcome (list (nat * pv) * list R) :=
               match l with
               | [] => Ok ([], us)
               | (k, d') :: r => bind (part kd k p) (fun p' => bind (c_sample d' p' us) (fun xu => bind (go r (snd xu)) (fun yu => Ok ((k, fst xu) :: fst yu, snd yu))))
               end) l us)
           (fun xu => Ok (build kd (fst xu), snd xu))
  end.

(** _composite.py:83-111 [mean], [mode], for the leaf functions given. *)
Section Leaves.
Variable leaf_cat : nat -> list R -> outcome (list R).
Variable leaf_norm : list (R * R) -> pv -> outcome (list R).
Fixpoint c_each (d : pdist) (p : pv) {struct d} : outcome pv :=
  match d with
  | PCat n => bind (array_at logits_key p) (fun z => bind (leaf_cat n z) (fun x => Ok (VArr x)))
  | PNorm bs => bind (leaf_norm bs p) (fun x => Ok (VArr x))
  | PNode kd l =>
      bind ((fix go (l : list (nat * pdist)) : outcome (list (nat * pv)) :=
               match l with
               | [] => Ok []
               | (k, d') :: r => bind (part kd k p) (fun p' => bind (c_each d' p') (fun x => bind (go r) (fun y => Ok ((k, x) :: y))))
               end) l)
           (fun xs => Ok (build kd xs))
  end.
End Leaves.
Definition norm_mean (bs : list (R * R)) (p : pv) : outcome (list R) := bind (array_at mu_key p) (fun mu => check_n (length bs) mu).
Definition c_mean : pdist -> pv -> outcome pv := c_each cat_mean norm_mean.
Definition c_mode : pdist -> pv -> outcome pv := c_each (fun n z => cat_mode n tau_default z) norm_mean.

(** _composite.py:113-125 [log_proba]. *)
Fixpoint c_log_proba (d : pdist) (p X : pv) {struct d} : outcome R :=
  match d with
  | PCat n => bind (as_array X) (fun x => bind (array_at logits_key p) (fun z => cat_log_proba n z x))
  | PNorm bs => bind (as_array X) (fun x => bind (np_at p) (fun q => n_log_proba (nd_of bs) q x))
  | PNode kd l =>
      (fix go (l : list (nat * pdist)) : outcome R :=
         match l with
         | [] => Ok 0
         | (k, d') :: r => bind (part kd k p) (fun p' => bind (part kd k X) (fun X' => bind (c_log_proba d' p' X') (fun a => bind (go r) (fun b => Ok (a + b)))))
         end) l
  end.

(** _composite.py:223-234 [default_priors]. *)
Fixpoint c_priors (d : pdist) : pv :=
  match d with
  | PCat n => VDict [(logits_key, VArr (repeat 0 n))]
  | PNorm bs => VDict [(mu_key, VArr (repeat 0 (length bs))); (logvar_key, VArr (repeat 0 (length bs)))]
  | PNode kd l => build kd (map (fun kd' => (fst kd', c_priors (snd kd'))) l)
  end.

(** Clean variates: elements of the spaces. *)
Inductive clean : Type := CInt (z : Z) | CVec (v : list R) | CInts (l : list Z) | CTuple (l : list clean) | CDict (l : list (nat * clean)).
(** jax.nn.one_hot: zeros if the index is out of range. *)
Definition onehot_z (n : nat) (z : Z) : list R := map (fun k => if (Z.of_nat k =? z)%Z then 1 else 0) (seq 0 n).
(** X[..., i] of an array (numpy: IndexError), X[i] of a tuple, X[k] of a dict.  (For a Tuple space X[i] of a vector of floats would be a float;
    TypeError here.) *)
Definition cpart (kd : kind) (k : nat) (x : clean) : outcome clean :=
  match kd, x with
  | KMulti, CInts l => match nth_error l k with Some z => Ok (CInt z) | None => Err EIndex end
  | KMulti, CVec _ => Err EAssertion
  | KMulti, CDict _ => Err EKey
  | KMulti, _ => Err EType
  | KTuple, CTuple l => match nth_error l k with Some c => Ok c | None => Err EIndex end
  | KTuple, CInts l => match nth_error l k with Some z => Ok (CInt z) | None => Err EIndex end
  | KTuple, CDict _ => Err EKey
  | KTuple, _ => Err EType
  | KDict, CDict l => match lookup k l with Some c => Ok c | None => Err EKey end
  | KDict, CInts _ => Err EIndex
  | KDict, CVec _ => Err EIndex
  | KDict, _ => Err EType
  end.
(** _composite.py:264-287 [preprocess_variate] of a single element.  (Vectors of integers for a Discrete space are batches, which are not
    modelled.) *)
Fixpoint c_pre (d : pdist) (x : clean) {struct d} : outcome pv :=
  match d with
  | PCat n => match x with CInt z => Ok (VArr (onehot_z n z)) | CVec _ => Err EAssertion | _ => Err EType end
  | PNorm bs =>
      match x with
      | CVec v => if Nat.eqb (length v) (length bs) then Ok (VArr (map (fun bx => n_pre (fst (fst bx)) (snd (fst bx)) (snd bx)) (combine bs v))) else Err EValue
      | _ => Err EType
      end
  | PNode kd l =>
      bind ((fix go (l : list (nat * pdist)) : outcome (list (nat * pv)) :=
               match l with
               | [] => Ok []
               | (k, d') :: r => bind (cpart kd k x) (fun x' => bind (c_pre d' x') (fun v => bind (go r) (fun y => Ok ((k, v) :: y))))
               end) l)
           (fun xs => Ok (build kd xs))
  end.

(** onp.stack of the integers of a MultiDiscrete or MultiBinary variate: ValueError if there are none. *)
Definition stack_ints (l : list clean) : outcome clean :=
  match l with [] => Err EValue | _ => bind (map_outcome (fun c => match c with CInt z => Ok z | _ => Err EValue end) l) (fun zs => Ok (CInts zs)) end.
(** _composite.py:236-262 [postprocess_variate] with batch_mode=False; [gs] is the noise that breaks ties. *)
Fixpoint c_post (d : pdist) (X : pv) (gs : list R) {struct d} : outcome (clean * list R) :=
  match d with
  | PCat n => match X with VArr x => bind (cat_post n x (firstn n gs)) (fun a => Ok (CInt (Z.of_nat a), skipn n gs)) | _ => Err EAttribute end
  | PNorm bs =>
      match X with
      | VArr x => if Nat.eqb (length x) (length bs) then Ok (CVec (map (fun bx => n_post (fst (fst bx)) (snd (fst bx)) (-30) 30 (snd bx)) (combine bs x)), gs) else Err EValue
      | _ => Err EType
      end
  | PNode kd l =>
      bind ((fix go (l : list (nat * pdist)) (gs : list R) : outcome (list (nat * clean) * list R) :=
               match l with
               | [] => Ok ([], gs)
               | (k, d') :: r => bind (part kd k X) (fun X' => bind (c_post d' X' gs) (fun cg => bind (go r (snd cg)) (fun yg => Ok ((k, fst cg) :: fst yg, snd yg))))
               end) l gs)
           (fun yg => match kd with
                      | KMulti => bind (stack_ints (map snd (fst yg))) (fun c => Ok (c, snd yg))
                      | KTuple => Ok (CTuple (map snd (fst yg)), snd yg)
                      | KDict => Ok (CDict (fst yg), snd yg)
                      end)
  end.

(** base_stochastic_func_type2.py:30-34: the variate drawn from the policy. *)
Definition c_draw (d : pdist) (p : pv) (us gs : list R) : outcome clean :=
  bind (c_sample d p us) (fun xu => bind (c_post d (fst xu) gs) (fun cg => Ok (fst cg))).
(** 36-46: the mode. *)
Definition c_best (d : pdist) (p : pv) (gs : list R) : outcome clean := bind (c_mode d p) (fun X => bind (c_post d X gs) (fun cg => Ok (fst cg))).
