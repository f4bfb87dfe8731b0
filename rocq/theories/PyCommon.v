(** Shared vocabulary: python exceptions as values, and array primitives of numpy that several
    modules of /repo/coax use.  Nothing here is specific to coax. *)
From Coq Require Import List ZArith Lia Bool.
Import ListNotations.
Set Implicit Arguments.

(** Kinds of python exceptions that the modelled code raises. *)
Inductive exn : Type :=
| EIndex      (* IndexError *)
| EValue      (* ValueError *)
| EType       (* TypeError *)
| ERuntime    (* RuntimeError *)
| EAttribute  (* AttributeError *)
| EAssertion  (* AssertionError *)
| EKey        (* KeyError *)
| EEpisodeDone        (* coax._base.errors.EpisodeDoneError *)
| EInsufficientCache  (* coax._base.errors.InsufficientCacheError *)
| EUnavailableAction  (* coax._base.errors.UnavailableActionError *)
| ENotImplemented     (* NotImplementedError *)
| EUnbound.           (* UnboundLocalError *)

(** The outcome of a python call: a value or an exception. *)
Inductive outcome (A : Type) : Type :=
| Ok : A -> outcome A
| Err : exn -> outcome A.
Arguments Ok {A} _.
Arguments Err {A} _.

Definition bind {A B : Type} (x : outcome A) (f : A -> outcome B) : outcome B :=
  match x with Ok a => f a | Err e => Err e end.

Definition is_ok {A : Type} (x : outcome A) : bool :=
  match x with Ok _ => true | Err _ => false end.

(** [upd l i x]: the python statement [l[i] = x] for an index in range; out of range: no effect
    (callers only use it in range, or check the range first). *)
Fixpoint upd {A : Type} (l : list A) (i : nat) (x : A) : list A :=
  match l, i with
  | [], _ => []
  | _ :: r, O => x :: r
  | y :: r, S k => y :: upd r k x
  end.

(** numpy fancy assignment [arr[ps] = vs] with [len(ps) = len(vs)]: assignments happen in order,
    so the last one wins when an index is repeated. *)
Fixpoint scatter {A : Type} (arr : list A) (ps : list nat) (vs : list A) : list A :=
  match ps, vs with
  | p :: ps', v :: vs' => scatter (upd arr p v) ps' vs'
  | _, _ => arr
  end.

(** numpy fancy lookup [arr[ps]]: raises IndexError when one of the indices is out of range. *)
Fixpoint gather {A : Type} (arr : list A) (ps : list nat) : outcome (list A) :=
  match ps with
  | [] => Ok []
  | p :: ps' =>
      match nth_error arr p, gather arr ps' with
      | Some x, Ok xs => Ok (x :: xs)
      | _, _ => Err EIndex
      end
  end.

(** numpy.unique of an integer array: sorted, without repetitions. *)
Fixpoint uinsert (x : nat) (l : list nat) : list nat :=
  match l with
  | [] => [x]
  | y :: r => if Nat.ltb x y then x :: y :: r
              else if Nat.eqb x y then y :: r
              else y :: uinsert x r
  end.
Definition unique (l : list nat) : list nat := fold_right uinsert [] l.
