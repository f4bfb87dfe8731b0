(** Specification of reward tracing. *)
From Coq Require Import List ZArith Lia Bool Reals.
From Verif Require Import PyCommon SegTreeSpec TracerModel.
Import ListNotations.
Set Implicit Arguments.

(** sum_{k < m} gamma^k r_{t+k}, where rewards after the end of the list count as 0. *)
Fixpoint disc_sum (gamma : R) (rs : list R) (t m : nat) : R :=
  match m with
  | O => 0%R
  | Datatypes.S m' => (disc_sum gamma rs t m' + gamma ^ m' * nth (t + m') rs 0)%R
  end.

Section Spec.
Variables S A : Type.
Notation step := (step S A).
Notation single := (single S A).
Notation entry := (entry S A).

(** An episode: its steps and rewards in order. *)
Definition episode : Type := list (step * R).
Definition rewards (ep : episode) : list R := map snd ep.

(** Steps that from_single accepts. *)
Definition valid_step (x : step) : Prop := (st_logp x <= 0)%R /\ (0 < st_w x)%R /\ st_wnative x = true.

(** Entry k of extra_info for time t: step t+k, or the last step of the episode; done from the terminal step on.
    [fin]: the episode is finished. *)
Definition extra_entry (ep : episode) (fin : bool) (t k : nat) : option entry :=
  match nth_error ep (Nat.min (t + k) (length ep - 1)) with
  | Some (x, r) => Some (mkEntry x r (fin && Nat.leb (length ep - 1) (t + k)))
  | None => None
  end.

(** The transition for time t of an n-step tracer. *)
Definition nstep_spec (n : nat) (gamma : R) (extra : bool) (ep : episode) (fin : bool) (t : nat) (y : single) : Prop :=
  exists x r, nth_error ep t = Some (x, r) /\
    x_s y = st_s x /\ x_a y = st_a x /\ x_logp y = st_logp x /\ x_w y = st_w x /\
    x_rn y = disc_sum gamma (rewards ep) t n /\
    (t + n < length ep -> x_in y = (gamma ^ n)%R /\
       exists x' r', nth_error ep (t + n) = Some (x', r') /\ x_s_next y = st_s x' /\ x_a_next y = st_a x' /\ x_logp_next y = st_logp x') /\
    (length ep <= t + n -> x_in y = 0%R /\ x_s_next y = st_s x /\ x_a_next y = st_a x /\ x_logp_next y = st_logp x) /\   (* dummy next values *)
    (if extra then exists es, x_extra y = Some es /\ length es = n + 1 /\ forall k, k <= n -> nth_error es k = extra_entry ep fin t k
     else x_extra y = None).

(** The transition for time t of a Monte-Carlo tracer. *)
Definition mc_spec (gamma : R) (ep : episode) (t : nat) (y : single) : Prop :=
  exists x r, nth_error ep t = Some (x, r) /\
    x_s y = st_s x /\ x_a y = st_a x /\ x_logp y = st_logp x /\ x_w y = st_w x /\
    x_rn y = disc_sum gamma (rewards ep) t (length ep - t) /\ x_in y = 0%R /\
    x_s_next y = st_s x /\ x_a_next y = st_a x /\ x_logp_next y = st_logp x /\ x_extra y = None.

(** Cut a stream of steps with done flags into the finished episodes and the unfinished rest. *)
Fixpoint cut (cur : episode) (ins : list (step * R * bool)) : list episode * episode :=
  match ins with
  | [] => ([], cur)
  | (x, r, d) :: ins' =>
      if d then let (eps, rest) := cut [] ins' in ((cur ++ [(x, r)]) :: eps, rest)
      else cut (cur ++ [(x, r)]) ins'
  end.

(** The (episode, finished, time) triples for which an n-step tracer has enough data, in order. *)
Definition nstep_due (n : nat) (ins : list (step * R * bool)) : list (episode * bool * nat) :=
  let (eps, rest) := cut [] ins in
  flat_map (fun ep => map (fun t => (ep, true, t)) (seq 0 (length ep))) eps ++
  map (fun t => (rest, false, t)) (seq 0 (length rest - n)).

(** The same for Monte-Carlo: finished episodes only, backwards in time. *)
Definition mc_due (ins : list (step * R * bool)) : list (episode * nat) :=
  flat_map (fun ep => map (fun t => (ep, t)) (rev (seq 0 (length ep)))) (fst (cut [] ins)).

(** An episode as a list of add calls: done on the last step only. *)
Fixpoint add_calls (ep : episode) : list (step * R * bool) :=
  match ep with
  | [] => []
  | [(x, r)] => [(x, r, true)]
  | (x, r) :: ep' => (x, r, false) :: add_calls ep'
  end.

(** Episodes and programs whose steps are valid. *)
Definition valid_episode (ep : episode) : Prop := forall x r, In (x, r) ep -> valid_step x.
Definition prog_valid (os : list (top S A)) : Prop := forall x r d, In (TAdd x r d) os -> valid_step x.

(** Adding a whole episode. *)
Fixpoint add_all (T : Type) (tadd : T -> step -> R -> bool -> T * option exn) (t : T) (l : list (step * R * bool)) : T * list exn :=
  match l with
  | [] => (t, [])
  | (x, r, d) :: l' => let (t1, e) := tadd t x r d in
                       let (t2, es) := add_all tadd t1 l' in
                       (t2, match e with Some e => e :: es | None => es end)
  end.

End Spec.
