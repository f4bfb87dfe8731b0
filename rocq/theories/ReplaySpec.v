(** Specification vocabulary for replay buffers. *)
From Coq Require Import List ZArith Lia Bool Reals.
From Verif Require Import PyCommon ReplayModel.
Import ListNotations.
Set Implicit Arguments.

(** The last [k] elements. *)
Definition lastn {A} (k : nat) (l : list A) : list A := skipn (length l - k) l.

(** The transitions x_0, x_1, ... numbered in order of addition. *)
Definition numbered {A} (l : list A) : list (A * Z) := combine l (map Z.of_nat (seq 0 (length l))).

(** What a stored transition should look like: one row with one id. *)
Definition as_single {X} (xi : X * Z) : tbatch X := mkTB [fst xi] [snd xi].

Section Simple.
Variable X : Type.
Variable G : Type.
Variable draw : G -> nat -> nat -> list nat * G.

(** The rows added since the last clear, read off the program: at [SAdd r] the rows the object [r] has. *)
Fixpoint added (w : sworld X G) (os : list (sop X G)) (log : list X) : list X :=
  match os with
  | [] => log
  | o :: os' =>
      added (fst (simple_step draw w o)) os'
        (match o with
         | SAdd r => match nth_error (sheap w) r with Some b => log ++ rows b | None => log end
         | SClear => []
         | _ => log
         end)
  end.

(** The program never re-adds, or assigns the idx of, a one-row object that is currently in the buffer. *)
Fixpoint no_alias (w : sworld X G) (os : list (sop X G)) : Prop :=
  match os with
  | [] => True
  | o :: os' =>
      match o with
      | SAdd r => ~ In r (sstore (sb w))
      | STouch r _ => ~ In r (sstore (sb w))
      | _ => True
      end /\ no_alias (fst (simple_step draw w o)) os'
  end.

(** A program with its foreign uses of the random module removed. *)
Fixpoint without_foreign (os : list (sop X G)) : list (sop X G) :=
  match os with
  | [] => []
  | SForeign _ :: os' => without_foreign os'
  | o :: os' => o :: without_foreign os'
  end.

End Simple.
