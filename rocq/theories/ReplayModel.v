(** Model of coax/experience_replay/_simple.py and the part of TransitionBatch that the buffers use
    (object identity of batches, idx, splitting into singles).

    Simplifications, for the whole file:
    - a transition row is a payload of arbitrary type [X] plus its importance weight W; the pytree structure
      of S, A, ... is not modelled here (see TransitionModel.v);
    - TransitionBatch objects live in a heap and are passed by reference, because the code stores the caller's
      object itself when batch_size is 1 and assigns to its attribute [idx];
    - ids are unbounded integers (numpy int64). *)
From Coq Require Import List ZArith Lia Bool.
From Verif Require Import PyCommon.
Import ListNotations.
Set Implicit Arguments.

(** References to objects are positions in the heap. *)
Notation ref := nat (only parsing).

Section Heap.
Variable X : Type.      (* one transition row, everything except idx *)

(** reward_tracing/_transition.py:81-97: a TransitionBatch object, as its rows and its idx array. *)
Record tbatch : Type := mkTB { rows : list X; ids : list Z }.

(** Assignment [transition_batch.idx = ...]. *)
Definition set_ids (h : list tbatch) (r : ref) (i : list Z) : list tbatch :=
  match nth_error h r with
  | Some b => upd h r (mkTB (rows b) i)
  | None => h
  end.

(** reward_tracing/_transition.py:189-213 [to_singles] on an object whose idx has one entry per row: the object
    itself when batch_size = 1, otherwise fresh objects, one per row, in order. *)
Definition to_singles (h : list tbatch) (r : ref) : list tbatch * list ref :=
  match nth_error h r with
  | None => (h, [])
  | Some b =>
      if Nat.eqb (length (rows b)) 1 then (h, [r])
      else (h ++ map (fun xi : X * Z => mkTB [fst xi] [snd xi]) (combine (rows b) (ids b)),
            seq (length h) (length (rows b)))
  end.

End Heap.

Notation heap X := (list (tbatch X)) (only parsing).

(** [a, a+1, ..., a+n-1] as integers: numpy.arange(a, a + n). *)
Definition zrange (a : nat) (n : nat) : list Z := map Z.of_nat (seq a n).

Section Simple.
Variable X : Type.
Variable G : Type.                                   (* states of python's random generator *)
Variable draw : G -> nat -> nat -> list nat * G.     (* random.sample on positions: state, population size, k *)

(** _simple.py:31-35,86-89: the attributes of a SimpleReplayBuffer. *)
Record sbuf : Type := mkSB { scap : nat; sstore : list ref; sindex : nat; srand : G }.

(** The interpreter state that matters: the heap, the buffer, and the state of the global [random] module. *)
Record sworld : Type := mkSW { sheap : heap X; sb : sbuf; sglob : G }.

(** _simple.py:31-35 [__init__] with the generator state that random.seed(random_seed) produces;
    a negative capacity is not modelled. *)
Definition simple_init (h : heap X) (cap : nat) (seeded : G) : sworld :=
  mkSW h (mkSB cap [] 0 seeded) seeded.

(** _simple.py:60-61: while len(self) > capacity: self._storage.pop(0). *)
Fixpoint trim (cap : nat) (l : list ref) : list ref :=
  if Nat.leb (length l) cap then l
  else match l with [] => [] | _ :: t => trim cap t end.

(** _simple.py:41-61 [add] of the object at [r]. *)
Definition simple_add (w : sworld) (r : ref) : sworld :=
  match nth_error (sheap w) r with
  | None => w                                                       (* no such object: not a python state *)
  | Some b =>
      let n := length (rows b) in
      let h1 := set_ids (sheap w) r (zrange (sindex (sb w)) n) in    (* 57 *)
      let (h2, refs) := to_singles h1 r in                           (* 59 *)
      mkSW h2 (mkSB (scap (sb w)) (trim (scap (sb w)) (sstore (sb w) ++ refs))
                    (sindex (sb w) + n) (srand (sb w))) (sglob w)
  end.

(** _simple.py:86-89 [clear]. *)
Definition simple_clear (w : sworld) : sworld :=
  mkSW (sheap w) (mkSB (scap (sb w)) [] 0 (srand (sb w))) (sglob w).

(** Dereference: the rows and ids a stored transition shows now. *)
Definition deref (h : heap X) (r : ref) : tbatch X := nth r h (mkTB [] []).

(** _simple.py:63-84 [sample].  random.sample raises ValueError when the population is too small, after the
    global state was replaced and before the buffer's own state is saved.  With batch_size = 0 the
    concatenation gets no arguments (TypeError).  The result is the list of rows with their ids. *)
Definition simple_sample (w : sworld) (k : nat) : sworld * outcome (list (tbatch X)) :=
  let g := srand (sb w) in                                            (* 81 *)
  let l := sstore (sb w) in
  if Nat.ltb (length l) k then (mkSW (sheap w) (sb w) g, Err EValue)
  else
    let (ps, g') := draw g (length l) k in                            (* 82 *)
    let w' := mkSW (sheap w) (mkSB (scap (sb w)) l (sindex (sb w)) g') g' in   (* 83 *)
    if Nat.eqb k 0 then (w', Err EType)
    else (w', Ok (map (fun p => deref (sheap w) (nth p l 0)) ps)).    (* 84 *)

(** Operations of a program that uses the buffer.  [SNew] creates a TransitionBatch; [STouch] is an assignment to
    the idx of some object by other code, for example by another buffer; [SForeign] is any other use of the
    global random module. *)
Inductive sop : Type :=
| SNew (b : tbatch X)
| STouch (r : ref) (i : list Z)
| SAdd (r : ref)
| SClear
| SSample (k : nat)
| SForeign (g : G).

Definition simple_step (w : sworld) (o : sop) : sworld * option (outcome (list (tbatch X))) :=
  match o with
  | SNew b => (mkSW (sheap w ++ [b]) (sb w) (sglob w), None)
  | STouch r i => (mkSW (set_ids (sheap w) r i) (sb w) (sglob w), None)
  | SAdd r => (simple_add w r, None)
  | SClear => (simple_clear w, None)
  | SSample k => let (w', x) := simple_sample w k in (w', Some x)
  | SForeign g => (mkSW (sheap w) (sb w) g, None)
  end.

(** Run a program; the outputs are the results of the sample calls. *)
Fixpoint simple_run (w : sworld) (os : list sop) : sworld * list (outcome (list (tbatch X))) :=
  match os with
  | [] => (w, [])
  | o :: os' =>
      let (w1, out) := simple_step w o in
      let (w2, outs) := simple_run w1 os' in
      (w2, match out with Some x => x :: outs | None => outs end)
  end.

(** _simple.py:91-98 [__len__], [__iter__]. *)
Definition simple_len (w : sworld) : nat := length (sstore (sb w)).
Definition simple_iter (w : sworld) : list (tbatch X) := map (deref (sheap w)) (sstore (sb w)).

End Simple.

Arguments SNew {X G} b.
Arguments STouch {X G} r i.
Arguments SAdd {X G} r.
Arguments SClear {X G}.
Arguments SSample {X G} k.
Arguments SForeign {X G} g.
