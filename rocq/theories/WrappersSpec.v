(** Specification vocabulary for coax/wrappers. *)
From Coq Require Import List ZArith Reals.
From Verif Require Import UtilsSpec WrappersModel.
Import ListNotations.
Local Open Scope R_scope.

(** * Histories of a monitor: what the caller did and what the environment returned *)
Definition is_reset (e : mon_event) : bool := match e with MReset => true | _ => false end.
Definition is_step (e : mon_event) : bool := match e with MStep _ _ _ _ _ => true | _ => false end.
Definition count (f : mon_event -> bool) (es : list mon_event) : nat := length (filter f es).
Definition reward (e : mon_event) : R := match e with MStep _ _ _ r _ => r | _ => 0 end.
Definition rewards_total (es : list mon_event) : R := total (map reward es).
(** [post] is the part of the history since the last reset. *)
Definition current_episode (es post : list mon_event) : Prop :=
  (forall e, In e post -> is_reset e = false) /\ (es = post \/ exists pre, es = pre ++ MReset :: post).

(** The returns at the steps that ended an episode; [g] is the return so far. *)
Fixpoint end_returns (g : R) (es : list mon_event) : list R :=
  match es with
  | [] => []
  | MReset :: es' => end_returns 0 es'
  | MStep _ _ _ r d :: es' => if d then (g + r) :: end_returns (g + r) es' else end_returns (g + r) es'
  | _ :: es' => end_returns g es'
  end.
(** The documented smooth update rule: n <- min(smoothing, n + 1), avg <- avg + (x - avg) / n. *)
Fixpoint smooth (s n : nat) (avg : R) (xs : list R) : R :=
  match xs with
  | [] => avg
  | x :: xs' => let n' := Nat.min s (n + 1) in smooth s n' (avg + (x - avg) / INR n') xs'
  end.

(** All values recorded under a name. *)
Fixpoint recorded (k : nat) (es : list mon_event) : list R :=
  match es with
  | [] => []
  | MRecord kvs :: es' => map snd (filter (fun kv => Nat.eqb (fst kv) k) kvs) ++ recorded k es'
  | _ :: es' => recorded k es'
  end.

(** What the attributes of a monitor contain. *)
Record view_t : Type := mkView { v_T : nat; v_ep : nat; v_t : nat; v_G : R; v_avg_G : R; v_n : nat; v_met : metrics; v_act : ss Z; v_per : UtilsModel.dict nat * UtilsModel.dict nat }.
Definition view (m : monitor) : view_t :=
  let c := m_c m in mkView (c_T c) (c_ep c) (c_t c) (c_G c) (c_avg_G c) (c_n c) (m_met m) (m_act m) (m_per m).

(** * Finite probability distributions: weighted outcomes *)
Definition dist (A : Type) : Type := list (R * A).
Definition prob {A} (d : dist A) (P : A -> bool) : R := total (map (fun wx => if P (snd wx) then fst wx else 0) d).
Definition dbind {A B} (d : dist A) (f : A -> dist B) : dist B := flat_map (fun wx => map (fun vy => (fst wx * fst vy, snd vy)) (f (snd wx))) d.
Definition is_dist {A} (d : dist A) : Prop := (forall w x, In (w, x) d -> 0 <= w) /\ prob d (fun _ => true) = 1.

(** One append as a distribution: rnd.rand() is below maxlen/count with probability maxlen/count (here the draws 0 and
    maxlen/count stand for the two cases), rnd.randint is uniform. *)
Definition append_dist (s : ss nat) (x : nat) : dist (ss nat) :=
  if Nat.ltb (length (ss_items s)) (ss_max s) then [(1, ss_append s x 0 0)]
  else
    let p := INR (ss_max s) / INR (S (ss_count s)) in
    map (fun i => (p * / INR (ss_max s), ss_append s x 0 i)) (seq 0 (ss_max s)) ++ [(1 - p, ss_append s x p 0)].
(** The stream 0, 1, ..., n-1. *)
Fixpoint reservoir (m n : nat) : dist (ss nat) := match n with O => [(1, ss_new nat m)] | S n' => dbind (reservoir m n') (fun s => append_dist s n') end.
(** Whether the reservoir contains stream position i. *)
Definition has (i : nat) (s : ss nat) : bool := existsb (Nat.eqb i) (ss_items s).
(** A sequence of appends: item, draw of rand, draw of randint. *)
Definition appends {A} (s : ss A) (xs : list (A * (R * nat))) : ss A := fold_left (fun s x => ss_append s (fst x) (fst (snd x)) (snd (snd x))) xs s.

(** The converted actions of nested wrappers, outermost first. *)
Fixpoint converted {A} (ws : list (A -> A)) (a : A) : list A := match ws with [] => [] | w :: ws' => w a :: converted ws' (w a) end.

(** How often a history makes period(name, ...) return True. *)
Fixpoint fires (s : nat) (m : monitor) (name : nat) (es : list mon_event) : nat :=
  match es with
  | [] => 0%nat
  | e :: es' =>
      ((match e with
        | MPeriod k Tp epp => if Nat.eqb k name then match snd (mon_period m k Tp epp) with PyCommon.Ok true => 1 | _ => 0 end else 0
        | _ => 0
        end) + fires s (mon_do s m e) name es')%nat
  end.
(** e asks for [name]. *)
Definition asks (name : nat) (e : mon_event) : Prop := exists Tp epp, e = MPeriod name Tp epp.
(** period(name, T_period=p) and period(name, ep_period=p): the counter they watch, the call, the events that increment it. *)
Inductive clock : Type := ClockT | ClockEp.
Definition ask (ck : clock) (name p : nat) : mon_event := match ck with ClockT => MPeriod name (Some p) None | ClockEp => MPeriod name None (Some p) end.
Definition ticks (ck : clock) (e : mon_event) : bool := match ck with ClockT => is_reset e || is_step e | ClockEp => is_reset e end.
Definition clock_value (ck : clock) (m : monitor) : nat := match ck with ClockT => c_T (m_c m) | ClockEp => c_ep (m_c m) end.
