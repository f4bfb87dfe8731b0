(** Model of coax/utils/_segment_tree.py (SegmentTree, SumTree, MinTree, MaxTree).

    Simplifications, for the whole file:
    - the element type is a parameter [A] (python: float64); for SumTree it is [R], i.e. arithmetic is exact;
    - indices are unbounded (python: int32/int64 arrays);
    - [int(ceil(log2(capacity)))] is [Nat.log2_up capacity] (exact for capacities below 2^49);
    - argument-type dispatch (int / list / ndarray / Ellipsis) is reduced to its result, a list of
      integers; wrong python types (TypeError) are not modelled. *)
From Coq Require Import List ZArith Lia Bool Reals.
From Verif Require Import PyCommon.
Import ListNotations.
Set Implicit Arguments.

Section SegTree.
Variable A : Type.
Variable op : A -> A -> A.     (* self.reducer *)
Variable init : A.             (* self.init_value *)

(** _segment_tree.py:42-47, the attributes of a SegmentTree: capacity, _height and _arr. *)
Record tree : Type := mkTree { capacity : nat; height : nat; arr : list A }.

(** _segment_tree.py:42-47 [__init__]. *)
Definition tree_init (cap : nat) : tree :=
  let h := Nat.log2_up cap + 1 in
  mkTree cap h (repeat init (2 ^ h - 1)).

(** [2 ** level - 1]: number of nodes above a level; _segment_tree.py:67,115,158,164,198. *)
Definition level_off (level : nat) : nat := 2 ^ level - 1.

(** Element lookup by an index that is in range by construction; the default is never used in range. *)
Definition get (a : list A) (p : nat) : A := nth p a init.

(** _segment_tree.py:54-62 [root_value]. *)
Definition root_value (t : tree) : A := get (arr t) 0.

(** _segment_tree.py:64-69 [values]: the slice _arr[start : start + capacity] of the leaf level. *)
Definition values (t : tree) : list A :=
  firstn (capacity t) (skipn (level_off (height t - 1)) (arr t)).

(** _segment_tree.py:71-74,190-200 [tree[level]] for 0 <= level < height
    (negative levels wrap, out of range raises IndexError). *)
Definition level_lookup (t : tree) (level : Z) : outcome (list A) :=
  let h := Z.of_nat (height t) in
  if ((- h <=? level) && (level <? h))%Z then
    let l := Z.to_nat (level mod h) in
    Ok (firstn (Nat.min (2 ^ l) (capacity t)) (skipn (level_off l) (arr t)))
  else Err EIndex.

(** _segment_tree.py:207-227 [_check_idx]: level_size at the leaf level is min(2^(height-1), capacity);
    all entries must lie in [-level_size, level_size), and are reduced modulo level_size. *)
Definition level_size (t : tree) : nat := Nat.min (2 ^ (height t - 1)) (capacity t).

Definition check_idx (t : tree) (idx : list Z) : outcome (list nat) :=
  let sz := Z.of_nat (level_size t) in
  if forallb (fun k => (k <? sz) && (- sz <=? k))%Z idx
  then Ok (map (fun k => Z.to_nat (k mod sz)) idx)
  else Err EIndex.

(** _segment_tree.py:110-117: one iteration of the level loop, for python [level].
    [off] is level_offset of the level below (the children). *)
Definition repair_level (level : nat) (off : nat) (a : list A) (idx : list nat) : list A * list nat :=
  let idx' := unique (map (fun i => Nat.div i 2) idx) in
  let parents := map (fun i => level_off level + i) idx' in
  let news := map (fun i => op (get a (off + 2 * i)) (get a (off + 2 * i + 1))) idx' in
  (scatter a parents news, idx').

(** _segment_tree.py:110-117: the loop [for level in range(height - 2, -1, -1)];
    [n] is the number of levels still to be repaired, i.e. python level = n - 1. *)
Fixpoint repair (n : nat) (off : nat) (a : list A) (idx : list nat) : list A :=
  match n with
  | O => a
  | S level =>
      let (a', idx') := repair_level level off a idx in
      repair level (level_off level) a' idx'
  end.

(** _segment_tree.py:88-117 [set_values].  A values array of length one is broadcast by numpy; any other
    length mismatch is a ValueError raised by the assignment before anything is written. *)
Definition broadcast (n : nat) (vs : list A) : outcome (list A) :=
  if Nat.eqb (length vs) n then Ok vs
  else match vs with
       | [v] => Ok (repeat v n)
       | _ => Err EValue
       end.

Definition set_values_eff (t : tree) (idx : list Z) (vs : list A) : tree * option exn :=
  match check_idx t idx with                                            (* line 105 *)
  | Err e => (t, Some e)
  | Ok is_ =>
      match broadcast (length is_) vs with                              (* numpy, inside line 108 *)
      | Err e => (t, Some e)
      | Ok vs' =>
          let off := level_off (height t - 1) in
          let a := scatter (arr t) (map (fun i => off + i mod level_size t) is_) vs' in  (* 108 *)
          (mkTree (capacity t) (height t) (repair (height t - 1) off a is_), None)       (* 110-117 *)
      end
  end.

(** The same call seen from a caller that only continues when no exception was raised. *)
Definition set_values (t : tree) (idx : list Z) (vs : list A) : outcome tree :=
  match set_values_eff t idx vs with
  | (t', None) => Ok t'
  | (_, Some e) => Err e
  end.

(** _segment_tree.py:213-214: Ellipsis stands for arange(level_size). *)
Definition ellipsis_idx (t : tree) : list Z := map Z.of_nat (seq 0 (level_size t)).

(** _segment_tree.py:229-270 [_check_start_stop_to_i_j] for arrays of equal length (scalars and a missing
    [stop] are broadcast by the caller): i = off + start % size, j = off + (stop - 1) % size,
    IndexError unless i <= j for all entries. *)
Definition range_to_ij (t : tree) (r : Z * Z) : nat * nat :=
  let off := level_off (height t - 1) in
  let sz := Z.of_nat (level_size t) in
  (off + Z.to_nat (fst r mod sz), off + Z.to_nat ((snd r - 1) mod sz)).

Definition check_ranges (t : tree) (rs : list (Z * Z)) : outcome (list (nat * nat)) :=
  let ijs := map (range_to_ij t) rs in
  if forallb (fun ij => Nat.leb (fst ij) (snd ij)) ijs then Ok ijs else Err EIndex.

(** _segment_tree.py:146-182: the state of one batch entry inside the loop of [partial_reduce]. *)
Record lane : Type := mkLane { li : nat; lj : nat; la : A; lb : A; ldone : bool }.

(** _segment_tree.py:163-166: parent index at the level above. *)
Definition parent_idx (off offp i : nat) : nat := Nat.div (i - off) 2 + offp.

(** _segment_tree.py:161-180: the loop over levels; [n] levels remain, python level = n - 1.
    The two lookups self._arr[i + 1] and self._arr[j - 1] are evaluated for the whole batch, whether or
    not an entry needs them; an index beyond the array is an IndexError. (j - 1 is never negative here.) *)
Fixpoint preduce_loop (n : nat) (off : nat) (a : list A) (ls : list lane) : outcome (list A) :=
  match n with
  | O => Err EAssertion   (* line 182: assert False *)
  | S level =>
      let offp := level_off level in
      let ls1 := map (fun l => mkLane (li l) (lj l) (la l) (lb l)
                        (ldone l || Nat.eqb (parent_idx off offp (li l)) (parent_idx off offp (lj l)))) ls in
      if forallb ldone ls1 then Ok (map (fun l => op (la l) (lb l)) ls1)
      else
        bind (gather a (map (fun l => li l + 1) ls1)) (fun right =>
        bind (gather a (map (fun l => lj l - 1) ls1)) (fun left =>
          let ls2 := map (fun x : lane * (A * A) =>
                       let (l, rl) := x in
                       mkLane (parent_idx off offp (li l)) (parent_idx off offp (lj l))
                         (if Nat.eqb (li l mod 2) 1 && negb (ldone l) then op (la l) (fst rl) else la l)
                         (if Nat.eqb (lj l mod 2) 0 && negb (ldone l) then op (lb l) (snd rl) else lb l)
                         (ldone l)) (combine ls1 (combine right left)) in
          preduce_loop level offp a ls2))
  end.

(** _segment_tree.py:119-182 [partial_reduce] on arrays of ranges. *)
Definition partial_reduce_batch (t : tree) (rs : list (Z * Z)) : outcome (list A) :=
  bind (check_ranges t rs) (fun ijs =>
    if forallb (fun ij => Nat.eqb (fst ij) (snd ij)) ijs
    then gather (arr t) (map fst ijs)
    else
      bind (gather (arr t) (map fst ijs)) (fun as_ =>
      bind (gather (arr t) (map snd ijs)) (fun bs =>
        let lanes := map (fun x : (nat * nat) * (A * A) =>
                       let (ij, ab) := x in
                       let d := Nat.eqb (fst ij) (snd ij) in
                       mkLane (fst ij) (snd ij) (fst ab) (if d then init else snd ab) d)
                     (combine ijs (combine as_ bs)) in
        preduce_loop (height t - 1) (level_off (height t - 1)) (arr t) lanes))).

(** _segment_tree.py:119-182 [partial_reduce] with int arguments: a batch of one. *)
Definition partial_reduce (t : tree) (start stop : Z) : outcome (list A) :=
  partial_reduce_batch t [(start, stop)].

(** Histories of calls: the state left behind by one call, whether or not it raised. *)
Definition run_set (t : tree) (c : list Z * list A) : tree := fst (set_values_eff t (fst c) (snd c)).
Definition run_sets (t : tree) (cs : list (list Z * list A)) : tree := fold_left run_set cs t.

End SegTree.

(** SumTree: _segment_tree.py:273-413; the reducer is add, the unit is 0. *)
Definition sumtree := tree R.
Definition sumtree_init (cap : nat) : sumtree := tree_init 0%R cap.

(** Floating point numbers with the two infinities (nan is not modelled), numpy.minimum and numpy.maximum on them. *)
Inductive xr : Type := NegInf | Fin (x : R) | PosInf.
Definition xmin (a b : xr) : xr :=
  match a, b with
  | NegInf, _ | _, NegInf => NegInf
  | PosInf, x | x, PosInf => x
  | Fin x, Fin y => Fin (Rmin x y)
  end.
Definition xmax (a b : xr) : xr :=
  match a, b with
  | PosInf, _ | _, PosInf => PosInf
  | NegInf, x | x, NegInf => x
  | Fin x, Fin y => Fin (Rmax x y)
  end.

(** MinTree: _segment_tree.py:416-430. *)
Definition mintree_init (cap : nat) : tree xr := tree_init PosInf cap.
Definition mintree_run (t : tree xr) (cs : list (list Z * list xr)) : tree xr := run_sets xmin PosInf t cs.
Definition mintree_root (t : tree xr) : xr := root_value PosInf t.
Definition mintree_reduce (t : tree xr) (start stop : Z) : outcome (list xr) := partial_reduce xmin PosInf t start stop.

(** MaxTree: _segment_tree.py:433-447. *)
Definition maxtree_init (cap : nat) : tree xr := tree_init NegInf cap.
Definition maxtree_run (t : tree xr) (cs : list (list Z * list xr)) : tree xr := run_sets xmax NegInf t cs.
Definition maxtree_root (t : tree xr) : xr := root_value NegInf t.
Definition maxtree_reduce (t : tree xr) (start stop : Z) : outcome (list xr) := partial_reduce xmax NegInf t start stop.

(** _segment_tree.py:383-395: the descent loop for one u; [n] levels remain. Position [idx] is a position
    in _arr at the level whose offset is [offp]. The next level is python [level]. *)
Fixpoint descend (n level : nat) (offp idx : nat) (a : list R) (value : R) : nat :=
  match n with
  | O => idx - offp
  | S n' =>
      let off := level_off level in
      let left := (idx - offp) * 2 + off in
      let right := left + 1 in
      let lv := get 0%R a left in
      if Rgt_dec lv value then descend n' (S level) off left a value
      else descend n' (S level) off right a (value - lv)%R
  end.

(** _segment_tree.py:342-398 [inverse_cdf] for one number; a batch is the map of it, with the checks
    applied to all entries first (373-374, 411-412). *)
Definition inverse_cdf1 (t : sumtree) (u : R) : nat :=
  descend (height t - 1) 1 0 0 (arr t) (u * root_value 0%R t)%R.

Definition inverse_cdf (t : sumtree) (us : list R) : outcome (list nat) :=
  if Rle_dec (root_value 0%R t) 0 then Err ERuntime
  else if forallb (fun u => if Rgt_dec u 1 then false else if Rlt_dec u 0 then false else true) us
       then Ok (map (inverse_cdf1 t) us)
       else Err EValue.
