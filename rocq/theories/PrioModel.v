(** Model of coax/experience_replay/_prioritized.py, on top of the SumTree model (exact reals).

    Simplifications, for the whole file:
    - a transition row is a payload of arbitrary type [Y] together with its importance weight W;
    - Adv is a list of reals (python: float32/float64 arrays), ids are unbounded except for the int32 cast in
      [update], which is modelled;
    - the uniform numbers drawn by the SumTree's own generator are an argument of [sample];
    - only the exception kind is recorded. *)
From Coq Require Import List ZArith Lia Bool Reals.
From Verif Require Import PyCommon SegTreeModel ReplayModel.
Import ListNotations.
Set Implicit Arguments.

Section Prio.
Variable Y : Type.
Notation prow := (Y * R)%type.     (* payload, W *)

(** _prioritized.py:78-84,208-212: the attributes of a PrioritizedReplayBuffer. *)
Record pbuf : Type := mkPB {
  pcap : nat; palpha : R; pbeta : R; peps : R;
  pstore : list (option nat); ptree : sumtree; pindex : nat }.

Record pworld : Type := mkPW { pheap : list (tbatch prow); pb : pbuf }.

(** _prioritized.py:68-84 [__init__]. *)
Definition prio_init (h : list (tbatch prow)) (cap : nat) (alpha beta eps : R) : outcome pworld :=
  if Nat.eqb cap 0 then Err EType
  else if Rle_dec alpha 0 then Err EType
  else if Rle_dec beta 0 then Err EType
  else if Rle_dec eps 0 then Err EType
  else Ok (mkPW h (mkPB cap alpha beta eps (repeat None cap) (sumtree_init cap) 0)).

(** _prioritized.py:214-215 [__len__]. *)
Definition prio_len (w : pworld) : nat := Nat.min (pcap (pb w)) (pindex (pb w)).

(** numpy.power(numpy.abs(Adv) + epsilon, alpha), for epsilon > 0: lines 150 and 204. *)
Definition prio_of (eps alpha adv : R) : R := Rpower (Rabs adv + eps) alpha.

(** idx % capacity: lines 147 and 201 (never negative, as in numpy). *)
Definition slot_of (cap : nat) (i : Z) : Z := (i mod Z.of_nat cap)%Z.

(** _prioritized.py:126-151 [add]. *)
Definition prio_add (w : pworld) (r : nat) (advs : list R) : pworld * option exn :=
  match nth_error (pheap w) r with
  | None => (w, None)                                     (* no such object: not a python state *)
  | Some b =>
      let B := pb w in
      let n := length (rows b) in
      let idx := zrange (pindex B) n in
      let h1 := set_ids (pheap w) r idx in                                        (* 146 *)
      if negb (Nat.eqb (length advs) n) then (mkPW h1 B, Some EAssertion)         (* 148 *)
      else
        let slots := map (slot_of (pcap B)) idx in                                (* 147 *)
        let (h2, refs) := to_singles h1 r in
        let store' := scatter (pstore B) (map Z.to_nat slots) (map Some refs) in   (* 149 *)
        let (t', e) := set_values_eff Rplus 0%R (ptree B) slots
                         (map (prio_of (peps B) (palpha B)) advs) in               (* 150 *)
        match e with
        | Some _ => (mkPW h2 (mkPB (pcap B) (palpha B) (pbeta B) (peps B) store' t' (pindex B)), e)
        | None => (mkPW h2 (mkPB (pcap B) (palpha B) (pbeta B) (peps B) store' t' (pindex B + n)), None) (* 151 *)
        end
  end.

(** All entries must be transitions; a None has no attributes (AttributeError). *)
Fixpoint all_some {A} (l : list (option A)) : outcome (list A) :=
  match l with
  | [] => Ok []
  | Some x :: r => bind (all_some r) (fun xs => Ok (x :: xs))
  | None :: _ => Err EAttribute
  end.

(** The largest element of a list: ndarray.max(). *)
Definition rmax_list (l : list R) : R :=
  match l with [] => 0%R | x :: r => fold_left Rmax r x end.

(** _prioritized.py:153-178 [sample]; [us] are the numbers drawn by SumTree.sample (batch_size = length us).
    The result lists, per sampled transition, payload, new W, and id. *)
Definition prio_sample (w : pworld) (us : list R) : outcome (list (Y * R * list Z)) :=
  let B := pb w in
  if Nat.eqb (length us) 0 then Err EType else                                  (* _segment_tree.py:337 *)
  bind (inverse_cdf (ptree B) us) (fun idx =>                                    (* 171 *)
  bind (gather (values (ptree B)) idx) (fun vs =>
    let root := root_value 0%R (ptree B) in
    let P := map (fun v => v / root)%R vs in                                     (* 172 *)
    let W := map (fun p => Rpower (p * INR (prio_len w)) (- pbeta B))%R P in     (* 173 *)
    let W' := map (fun x => x / rmax_list W)%R W in                              (* 174 *)
  bind (gather (pstore B) idx) (fun os =>
  bind (all_some os) (fun refs =>                                                (* 175 *)
    let ts := map (deref (pheap w)) refs in
    Ok (flat_map (fun tw : tbatch prow * R =>
                    map (fun yw : prow => (fst yw, snd yw * snd tw, ids (fst tw))%R) (rows (fst tw)))
                 (combine ts W')))))).                                           (* 177 *)

(** numpy.asarray(idx, dtype='int32') on an integer array: wraps around. *)
Definition to_int32 (z : Z) : Z := ((z + 2147483648) mod 4294967296 - 2147483648)%Z.

(** [_get_transition_batch_idx(storage[...]) == idx] for one entry: line 203; the idx of a stored transition is
    an array with one entry. *)
Definition id_matches (h : list (tbatch prow)) (r : nat) (i : Z) : bool :=
  match ids (deref h r) with [z] => Z.eqb z i | _ => false end.

(** _prioritized.py:180-206 [update]; numpy.vectorize rejects empty input (ValueError). *)
Definition prio_update (w : pworld) (idx : list Z) (advs : list R) : pworld * option exn :=
  let B := pb w in
  let idx := map to_int32 idx in                                                 (* 196 *)
  if negb (Nat.eqb (length idx) (length advs)) then (w, Some EAssertion)         (* 198 *)
  else
    let slots := map (slot_of (pcap B)) idx in                                   (* 201 *)
    if Nat.eqb (length idx) 0 then (w, Some EValue)
    else
    match bind (gather (pstore B) (map Z.to_nat slots)) (fun os =>
          bind (all_some os) (fun refs =>
          bind (gather (values (ptree B)) (map Z.to_nat slots)) (fun olds => Ok (refs, olds)))) with
    | Err e => (w, Some e)
    | Ok (refs, olds) =>
        let news := map (fun x : (nat * Z) * (R * R) =>
                      let '((r, i), (adv, old)) := x in
                      if id_matches (pheap w) r i then prio_of (peps B) (palpha B) adv else old)
                      (combine (combine refs idx) (combine advs olds)) in         (* 202-205 *)
        let (t', e) := set_values_eff Rplus 0%R (ptree B) slots news in           (* 206 *)
        (mkPW (pheap w) (mkPB (pcap B) (palpha B) (pbeta B) (peps B) (pstore B) t' (pindex B)), e)
    end.

(** numpy.isclose(new, old, rtol=0.01) with the default atol=1e-8: line 98. *)
Definition isclose_alpha (new old : R) : bool :=
  if Rle_dec (Rabs (new - old)) (/ 100000000 + 1 / 100 * Rabs old) then true else false.

(** lines 100-102: the re-expressed value. *)
Definition alpha_value (new old v : R) : R :=
  if Rle_dec v 0 then 0%R
  else exp (ln (Rmax v (/ 1000000000000000)) * (new / old)).

(** _prioritized.py:94-104 [alpha.setter]. *)
Definition prio_set_alpha (w : pworld) (new : R) : pworld * option exn :=
  let B := pb w in
  if Rle_dec new 0 then (w, Some EType)
  else if isclose_alpha new (palpha B) then (w, None)
  else
    let (t', e) := set_values_eff Rplus 0%R (ptree B) (ellipsis_idx (ptree B))
                     (map (alpha_value new (palpha B)) (values (ptree B))) in
    match e with
    | Some _ => (mkPW (pheap w) (mkPB (pcap B) (palpha B) (pbeta B) (peps B) (pstore B) t' (pindex B)), e)
    | None => (mkPW (pheap w) (mkPB (pcap B) new (pbeta B) (peps B) (pstore B) t' (pindex B)), None)
    end.

(** _prioritized.py:110-114, 120-124 [beta.setter], [epsilon.setter]. *)
Definition prio_set_beta (w : pworld) (new : R) : pworld * option exn :=
  let B := pb w in
  if Rle_dec new 0 then (w, Some EType)
  else (mkPW (pheap w) (mkPB (pcap B) (palpha B) new (peps B) (pstore B) (ptree B) (pindex B)), None).
Definition prio_set_eps (w : pworld) (new : R) : pworld * option exn :=
  let B := pb w in
  if Rle_dec new 0 then (w, Some EType)
  else (mkPW (pheap w) (mkPB (pcap B) (palpha B) (pbeta B) new (pstore B) (ptree B) (pindex B)), None).

(** _prioritized.py:208-212 [clear]. *)
Definition prio_clear (w : pworld) : pworld :=
  let B := pb w in
  mkPW (pheap w) (mkPB (pcap B) (palpha B) (pbeta B) (peps B) (repeat None (pcap B)) (sumtree_init (pcap B)) 0).

(** _prioritized.py:220-221 [__iter__]. *)
Definition prio_iter (w : pworld) : list (option (tbatch prow)) :=
  map (option_map (deref (pheap w))) (firstn (prio_len w) (pstore (pb w))).

(** The priorities, by slot. *)
Definition prio_values (w : pworld) : list R := values (ptree (pb w)).

(** Programs that use the buffer; [PNew] and [PTouch] as in ReplayModel.v. Sampling does not change the modelled
    state (its generator is an argument), so it is not listed. *)
Inductive pop : Type :=
| PNew (b : tbatch prow)
| PTouch (r : nat) (i : list Z)
| PAdd (r : nat) (advs : list R)
| PUpdate (idx : list Z) (advs : list R)
| PAlpha (a : R)
| PBeta (b : R)
| PEps (e : R)
| PClear.

Definition prio_step (w : pworld) (o : pop) : pworld * option exn :=
  match o with
  | PNew b => (mkPW (pheap w ++ [b]) (pb w), None)
  | PTouch r i => (mkPW (set_ids (pheap w) r i) (pb w), None)
  | PAdd r advs => prio_add w r advs
  | PUpdate idx advs => prio_update w idx advs
  | PAlpha a => prio_set_alpha w a
  | PBeta b => prio_set_beta w b
  | PEps e => prio_set_eps w e
  | PClear => (prio_clear w, None)
  end.

Definition prio_run (w : pworld) (os : list pop) : pworld := fold_left (fun w o => fst (prio_step w o)) os w.

End Prio.

Arguments PNew {Y} b.
Arguments PTouch {Y} r i.
Arguments PAdd {Y} r advs.
Arguments PUpdate {Y} idx advs.
Arguments PAlpha {Y} a.
Arguments PBeta {Y} b.
Arguments PEps {Y} e.
Arguments PClear {Y}.
