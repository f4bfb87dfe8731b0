(** Model of coax/reward_tracing/_transition.py: TransitionBatch as a record of pytrees.

    Simplifications, for the whole file:
    - a pytree is None, a leaf or a node with a list of children (dict keys and container types are dropped; jax sorts
      dict keys, so the children are in a fixed order);
    - a leaf is an array with at least one axis, seen as the list of its rows along the batch axis; a row is a number
      or an opaque object (higher-dimensional row);
    - [Rn] is a leaf (batch_size is its length). *)
From Coq Require Import List ZArith Lia Bool Reals.
From Verif Require Import PyCommon TracerModel.
Import ListNotations.
Set Implicit Arguments.

Inductive tree (L : Type) : Type :=
| TNone
| TLeaf (x : L)
| TNode (ts : list (tree L)).
Arguments TNone {L}.
Arguments TLeaf {L} x.
Arguments TNode {L} ts.

(** jax.tree_map with one tree. *)
Fixpoint tmap {L M : Type} (f : L -> M) (t : tree L) : tree M :=
  match t with
  | TNone => TNone
  | TLeaf x => TLeaf (f x)
  | TNode ts => TNode (map (tmap f) ts)
  end.

(** jax.tree_util.tree_leaves: None is not a leaf. *)
Fixpoint leaves {L : Type} (t : tree L) : list L :=
  match t with
  | TNone => []
  | TLeaf x => [x]
  | TNode ts => flat_map leaves ts
  end.

(** jax.tree_map of [f] with two trees; ValueError when the structures differ. *)
Fixpoint tmap2 {L : Type} (f : L -> L -> L) (t u : tree L) {struct t} : outcome (tree L) :=
  match t, u with
  | TNone, TNone => Ok TNone
  | TLeaf x, TLeaf y => Ok (TLeaf (f x y))
  | TNode ts, TNode us =>
      bind ((fix go ts us := match ts, us with
                             | [], [] => Ok []
                             | t :: ts', u :: us' => bind (tmap2 f t u) (fun x => bind (go ts' us') (fun xs => Ok (x :: xs)))
                             | _, _ => Err EValue
                             end) ts us) (fun xs => Ok (TNode xs))
  | _, _ => Err EValue
  end.

Section Batch.
Variable O : Type.     (* opaque rows *)

Inductive row : Type := RNum (x : R) | RObj (o : O).
Notation field := (tree (list row)).

(** _transition.py:81-97: the slots. *)
Record batch : Type := mkB {
  b_S : field; b_A : field; b_logP : field; b_Rn : list row; b_In : field; b_S_next : field;
  b_A_next : field; b_logP_next : field; b_W : field; b_idx : field; b_extra : field }.

(** _transition.py:84-97 [__init__]: None for W and idx is replaced by ones and 0, 1, .... *)
Definition new_batch (S A logP : field) (Rn : list row) (In S_next A_next logP_next W idx extra : field) : batch :=
  mkB S A logP Rn In S_next A_next logP_next
    (match W with TNone => TLeaf (map (fun _ => RNum 1%R) Rn) | _ => W end)
    (match idx with TNone => TLeaf (map (fun k => RNum (INR k)) (seq 0 (length Rn))) | _ => idx end)
    extra.

(** _transition.py:185-187 [batch_size]. *)
Definition batch_size (b : batch) : nat := length (b_Rn b).

(** _transition.py:208-210: leaf[i:i+1]. *)
Definition row_slice (i : nat) (l : list row) : list row := firstn 1 (skipn i l).
Definition lookup (i : nat) (b : batch) : batch :=
  let f := tmap (row_slice i) in
  new_batch (f (b_S b)) (f (b_A b)) (f (b_logP b)) (row_slice i (b_Rn b)) (f (b_In b)) (f (b_S_next b))
    (f (b_A_next b)) (f (b_logP_next b)) (f (b_W b)) (f (b_idx b)) (f (b_extra b)).

(** _transition.py:189-213 [to_singles]. *)
Definition singles (b : batch) : list batch :=
  if Nat.eqb (batch_size b) 1 then [b] else map (fun i => lookup i b) (seq 0 (batch_size b)).

(** jax.tree_map(lambda *leaves: onp.concatenate(leaves, axis=0), *batches) as in _base.py:93 and
    experience_replay/_simple.py:84: field by field concatenation.  No arguments: TypeError.  The variadic map is
    done pairwise, which gives the same rows. *)
Definition concat2 (a b : batch) : outcome batch :=
  let f := tmap2 (@app row) in
  bind (f (b_S a) (b_S b)) (fun s => bind (f (b_A a) (b_A b)) (fun ac => bind (f (b_logP a) (b_logP b)) (fun lp =>
  bind (f (b_In a) (b_In b)) (fun i => bind (f (b_S_next a) (b_S_next b)) (fun sn => bind (f (b_A_next a) (b_A_next b)) (fun an =>
  bind (f (b_logP_next a) (b_logP_next b)) (fun lpn => bind (f (b_W a) (b_W b)) (fun w => bind (f (b_idx a) (b_idx b)) (fun ix =>
  bind (f (b_extra a) (b_extra b)) (fun ex =>
  Ok (new_batch s ac lp (b_Rn a ++ b_Rn b) i sn an lpn w ix ex))))))))))).
Fixpoint concat_from (a : batch) (bs : list batch) : outcome batch :=
  match bs with
  | [] => Ok a
  | b :: bs' => bind (concat2 a b) (fun c => concat_from c bs')
  end.
Definition concat_batches (bs : list batch) : outcome batch :=
  match bs with [] => Err EType | a :: bs' => concat_from a bs' end.

(** _transition.py:238-240 [_single_to_batch]: a new leading axis of length 1. *)
Definition to_row (t : tree row) : field := tmap (fun r => [r]) t.

(** _transition.py:100-183 [from_single] on pytrees (None for a missing field); the numeric checks are those of
    TracerModel.from_single. *)
Definition batch_from_single (s a : tree row) (logp r : R) (done : bool) (gamma : R) (s_next a_next : tree row)
    (logp_next : option R) (w : R) (wnative : bool) (idx : option R) (extra : tree row) : outcome batch :=
  bind (TracerModel.from_single tt tt logp r done gamma tt tt (match logp_next with Some l => l | None => 0%R end) w wnative None)
    (fun x =>
      let num v := TLeaf [RNum v] in
      Ok (new_batch (to_row s) (to_row a) (num logp) [RNum r] (num (x_in x)) (to_row s_next) (to_row a_next)
            (match logp_next with Some l => num l | None => TNone end) (num w)
            (match idx with Some i => num i | None => TNone end) (to_row extra))).

(** _transition.py:219-226: the slots in order; as a pytree node (243-246). *)
Definition batch_tree (b : batch) : field :=
  TNode [b_S b; b_A b; b_logP b; TLeaf (b_Rn b); b_In b; b_S_next b; b_A_next b; b_logP_next b; b_W b; b_idx b; b_extra b].

(** numpy.allclose on leaves: broadcasting along the batch axis, then |x - y| <= atol + rtol * |y|; opaque rows are
    compared by [oclose].  Shapes that do not broadcast: ValueError. *)
Variable oclose : O -> O -> bool.
Definition row_close (x y : row) : bool :=
  match x, y with
  | RNum a, RNum b => if Rle_dec (Rabs (a - b)) (/ 100000000 + / 100000 * Rabs b) then true else false
  | RObj a, RObj b => oclose a b
  | _, _ => false
  end.
Definition allclose (l m : list row) : outcome bool :=
  if Nat.eqb (length l) (length m) then Ok (forallb (fun xy => row_close (fst xy) (snd xy)) (combine l m))
  else match l, m with
       | [x], _ => Ok (forallb (fun y => row_close x y) m)
       | _, [y] => Ok (forallb (fun x => row_close x y) l)
       | _, _ => Err EValue
       end.

(** _transition.py:231-235 [__eq__] on two TransitionBatches: [all] over the zipped leaves stops at the first False. *)
Fixpoint leaves_eq (ls ms : list (list row)) : outcome bool :=
  match ls, ms with
  | l :: ls', m :: ms' => bind (allclose l m) (fun c => if c then leaves_eq ls' ms' else Ok false)
  | _, _ => Ok true
  end.
Definition batch_eq (a b : batch) : outcome bool := leaves_eq (leaves (batch_tree a)) (leaves (batch_tree b)).

End Batch.

Arguments RNum {O} x.
Arguments RObj {O} o.
