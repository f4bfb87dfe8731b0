(** Specification vocabulary for workers. *)
From Coq Require Import List Bool Arith ZArith String Ascii Reals.
From Verif Require Import PyCommon WorkerModel.
Import ListNotations.

(** Rollout lengths between 1 and M. *)
Definition fair_lengths (M : nat) (cs : list choice) : Prop := forall c, In c cs -> 1 <= ch_t c <= M.
(** No worker reaches the reward threshold. *)
Definition no_threshold (cs : list choice) : Prop := forall c, In c cs -> ch_stop c = false.
Definition holding (s : wsys) (i : nat) : Prop := exists x t, nth_error (w_pcs s) i = Some (WPulled x t).
(** Reading the counter and writing it back is never interrupted: while a worker holds a value, only that worker moves. *)
Fixpoint uninterrupted (limit : nat) (s : wsys) (cs : list choice) : Prop :=
  match cs with [] => True | c :: cs' => (forall i, holding s i -> ch_w c = i) /\ uninterrupted limit (wstep limit s c) cs' end.
(** Steps of rollouts that are not yet in the counter. *)
Definition pending (s : wsys) : nat := list_sum (map (fun pc => match pc with WRolled t => t | WPulled _ t => t | _ => 0 end) (w_pcs s)).
Definition all_stopped (s : wsys) : Prop := forall pc, In pc (w_pcs s) -> pc = WDone.
(** A buffer of [len] transitions serves a batch: it has the batch size, and the warmup if there is one. *)
Definition serves (warmup : option nat) (batch len : nat) : Prop := batch <= len /\ forall w, warmup = Some w -> w <= len.
(** Some sequence of batches learned from, in order. *)
Inductive learned {St B : Type} (learn : St -> B -> St) (x0 : St) : list B -> St -> Prop :=
| learned_start : learned learn x0 [] x0
| learned_step : forall bs x b, learned learn x0 bs x -> learned learn x0 (bs ++ [b]) (learn x b).
(** An attribute at the end of a path of names. *)
Inductive at_path : val -> list string -> val -> Prop :=
| at_here : forall v, at_path v [] v
| at_attr : forall attrs n u ns w, lookup attrs n = Some u -> at_path u ns w -> at_path (VObj attrs) (n :: ns) w.
(** A name without dot; names joined by dots. *)
Definition dotless (n : string) : Prop := ~ In "."%char (list_ascii_of_string n).
Fixpoint dotted (n : string) (ns : list string) : string := match ns with [] => n | m :: ns' => (n ++ "." ++ dotted m ns')%string end.
(** bs is obtained from cs by leaving out elements. *)
Inductive subseq {B : Type} : list B -> list B -> Prop :=
| sub_nil : subseq [] []
| sub_skip : forall b bs cs, subseq bs cs -> subseq bs (b :: cs)
| sub_take : forall b bs cs, subseq bs cs -> subseq (b :: bs) (b :: cs).
(** Neither path is a prefix of the other. *)
Definition apart (p q : list string) : Prop := exists k a b, nth_error p k = Some a /\ nth_error q k = Some b /\ a <> b /\ firstn k p = firstn k q.
