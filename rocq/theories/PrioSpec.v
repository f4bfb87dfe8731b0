(** Specification of the prioritized buffer: all transitions added since the last clear, in order, each with its
    "base" |Adv| + epsilon.  The priority of a transition is base ^ alpha. *)
From Coq Require Import List ZArith Lia Bool Reals.
From Verif Require Import PyCommon ReplayModel PrioModel.
Import ListNotations.
Set Implicit Arguments.

Section Spec.
Variable Y : Type.
Notation prow := (Y * R)%type.

Record ghost : Type := mkG { items : list (prow * R); galpha : R; geps : R }.

Definition floor_value : R := (/ 1000000000000000)%R.

(** numpy's [isclose] as used for alpha: relative 1% plus 1e-8. *)
Definition too_close (new old : R) : Prop := (Rabs (new - old) <= / 100000000 + 1 / 100 * Rabs old)%R.

(** Transition [k] (of [n]) is still stored in a buffer of capacity [cap]. *)
Definition in_window (cap n k : nat) : Prop := k < n /\ n <= k + cap.

(** The last entry of the batch (idx, advs) whose id falls into the slot of transition k. *)
Definition last_hit (cap : nat) (idx : list Z) (advs : list R) (k : nat) : option (Z * R) :=
  find (fun ia : Z * R => Z.eqb (fst ia mod Z.of_nat cap) (Z.of_nat k mod Z.of_nat cap)) (rev (combine idx advs)).

(** The base of transition k after update(idx, advs), exact rule. *)
Definition updated_base (cap : nat) (eps : R) (idx : list Z) (advs : list R) (k : nat) (old : R) : R :=
  match last_hit cap idx advs k with
  | Some (i, adv) => if Z.eqb i (Z.of_nat k) then (Rabs adv + eps)%R else old
  | None => old
  end.

(** The documented rule: the last occurrence of the id k itself. *)
Definition named_base (eps : R) (idx : list Z) (advs : list R) (k : nat) (old : R) : R :=
  match find (fun ia : Z * R => Z.eqb (fst ia) (Z.of_nat k)) (rev (combine idx advs)) with
  | Some (_, adv) => (Rabs adv + eps)%R
  | None => old
  end.

Definition map_items (f : nat -> R -> R) (l : list (prow * R)) : list (prow * R) :=
  map (fun kx : nat * (prow * R) => (fst (snd kx), f (fst kx) (snd (snd kx)))) (combine (seq 0 (length l)) l).

(** An update call is accepted when the arrays have equal non-zero length and each id, taken modulo the capacity,
    addresses a used slot. *)
Definition update_accepted (cap n : nat) (idx : list Z) (advs : list R) : bool :=
  Nat.eqb (length idx) (length advs) && negb (Nat.eqb (length idx) 0) &&
  forallb (fun i => Z.ltb (i mod Z.of_nat cap) (Z.of_nat n)) idx.

Definition ghost_step (cap : nat) (h : list (tbatch prow)) (g : ghost) (o : pop Y) : ghost :=
  match o with
  | PAdd r advs =>
      match nth_error h r with
      | Some b => if Nat.eqb (length advs) (length (rows b))
                  then mkG (items g ++ combine (rows b) (map (fun a => Rabs a + geps g)%R advs)) (galpha g) (geps g)
                  else g
      | None => g
      end
  | PUpdate idx advs =>
      let idx := map to_int32 idx in
      if update_accepted cap (length (items g)) idx advs
      then mkG (map_items (updated_base cap (geps g) idx advs) (items g)) (galpha g) (geps g)
      else g
  | PAlpha a =>
      if Rle_dec a 0 then g
      else if Rle_dec (Rabs (a - galpha g)) (/ 100000000 + 1 / 100 * Rabs (galpha g)) then g
      else mkG (map_items (fun _ b => if Rlt_dec (Rpower b (galpha g)) floor_value
                                      then Rpower floor_value (1 / galpha g) else b) (items g)) a (geps g)
  | PEps e => if Rle_dec e 0 then g else mkG (items g) (galpha g) e
  | PClear => mkG [] (galpha g) (geps g)
  | _ => g
  end.

Fixpoint ghost_run (cap : nat) (w : pworld Y) (g : ghost) (os : list (pop Y)) : ghost :=
  match os with
  | [] => g
  | o :: os' => ghost_run cap (fst (prio_step w o)) (ghost_step cap (pheap w) g o) os'
  end.

(** No one-row object that is currently stored is re-added, nor is its idx assigned by other code. *)
Fixpoint p_no_alias (w : pworld Y) (os : list (pop Y)) : Prop :=
  match os with
  | [] => True
  | o :: os' =>
      match o with
      | PAdd r _ => ~ In (Some r) (pstore (pb w))
      | PTouch r _ => ~ In (Some r) (pstore (pb w))
      | _ => True
      end /\ p_no_alias (fst (prio_step w o)) os'
  end.

(** The rows added since the last clear, read off the program (add rejects a wrong number of advantages). *)
Fixpoint p_added (w : pworld Y) (os : list (pop Y)) (log : list prow) : list prow :=
  match os with
  | [] => log
  | o :: os' =>
      p_added (fst (prio_step w o)) os'
        (match o with
         | PAdd r advs => match nth_error (pheap w) r with
                          | Some b => if Nat.eqb (length advs) (length (rows b)) then log ++ rows b else log
                          | None => log
                          end
         | PClear => []
         | _ => log
         end)
  end.

End Spec.

(** The priority of transition [k], read from its slot. *)
Definition priority {Y} (w : pworld Y) (k : nat) : R := nth (k mod pcap (pb w)) (prio_values w) 0%R.

(** [m] is the largest element of [l]. *)
Definition is_max (m : R) (l : list R) : Prop := In m l /\ forall x, In x l -> (x <= m)%R.

(** A program without changes of alpha. *)
Definition no_alpha {Y} (os : list (pop Y)) : Prop := forall a, ~ In (PAlpha a) os.
