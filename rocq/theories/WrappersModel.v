(** Model of coax/wrappers: _frame_stacking.py, _train_monitor.py, _box_spaces.py.  Rewards and averages are exact reals; the
    wrapped environment is represented by the observations, rewards and flags it returns. *)
From Coq Require Import List ZArith Lia Bool Reals.
From Verif Require Import PyCommon UtilsModel.
Import ListNotations.
Set Implicit Arguments.

(** * FrameStacking *)
Section Frames.
Variable Obs : Type.

(** collections.deque(maxlen=n).append: a full deque drops its leftmost element (maxlen 0 drops the new one). *)
Definition dq_append (n : nat) (q : list Obs) (x : Obs) : list Obs :=
  match n with
  | O => []
  | _ => if Nat.eqb (length q) n then tl q ++ [x] else q ++ [x]
  end.

(** _frame_stacking.py:45-51 [__init__]: num_frames must be a positive int. *)
Definition fs_new (num_frames : nat) : outcome (list Obs) := match num_frames with O => Err EType | _ => Ok [] end.
(** _frame_stacking.py:53-56 [step] with the observation [o] of the wrapped env; the returned tuple is the new deque. *)
Definition fs_step (n : nat) (frames : list Obs) (o : Obs) : list Obs := dq_append n frames o.
(** _frame_stacking.py:58-61 [reset]: extend appends maxlen copies, one by one. *)
Definition fs_reset (n : nat) (frames : list Obs) (o : Obs) : list Obs := fold_left (dq_append n) (repeat o n) frames.

Inductive fs_event : Type := FStep (o : Obs) | FReset (o : Obs).
Definition fs_do (n : nat) (q : list Obs) (e : fs_event) : list Obs := match e with FStep o => fs_step n q o | FReset o => fs_reset n q o end.
Definition fs_run (n : nat) (q : list Obs) (es : list fs_event) : list Obs := fold_left (fs_do n) es q.
End Frames.

(** * StreamingSample *)
Section Stream.
Variable A : Type.
(** _train_monitor.py:26-29. *)
Record ss : Type := mkSS { ss_max : nat; ss_items : list A; ss_count : nat }.
Definition ss_new (maxlen : nat) : ss := mkSS maxlen [] 0.
(** _train_monitor.py:31-33 [reset]. *)
Definition ss_reset (s : ss) : ss := mkSS (ss_max s) [] 0.
(** _train_monitor.py:35-41 [append]: [u] is the draw of rnd.rand(), [i] the draw of rnd.randint(maxlen). *)
Definition ss_append (s : ss) (x : A) (u : R) (i : nat) : ss :=
  let c := S (ss_count s) in
  if Nat.ltb (length (ss_items s)) (ss_max s) then mkSS (ss_max s) (ss_items s ++ [x]) c
  else if Rlt_dec u (INR (ss_max s) / INR c) then mkSS (ss_max s) (upd (ss_items s) i x) c
  else mkSS (ss_max s) (ss_items s) c.
End Stream.

(** * TrainMonitor *)
Local Open Scope R_scope.

(** Mutable objects are cells of a heap; attributes that hold them are references (positions).  A metrics dict maps names to
    (sum, count); a period dict maps names to counters, one dict for 'T' and one for 'ep'. *)
Definition metrics : Type := dict (R * nat).
Record heap : Type := mkHeap { h_met : list metrics; h_act : list (ss Z); h_per : list (dict nat * dict nat) }.

(** The counter attributes (lines 136-138), without the wall clock and tensorboard ones; [_ep_metrics], [_ep_actions] and
    [_period] are references. *)
Record counters : Type := mkC { c_T : nat; c_ep : nat; c_t : nat; c_G : R; c_avg_G : R; c_n : nat; c_met : nat; c_act : nat; c_per : nat }.
(** The monitor: heap and counters.  The smoothing is a constant of the run (positive int). *)
Record monitor : Type := mkMon { m_heap : heap; m_c : counters }.

Definition maxlen_actions : nat := Nat.mul 10 (Nat.mul 10 10).

(** _train_monitor.py:157-168 [reset_global]: fresh objects. *)
Definition reset_global (h : heap) : monitor :=
  mkMon (mkHeap (h_met h ++ [[]]) (h_act h ++ [ss_new Z maxlen_actions]) (h_per h ++ [([], [])]))
    (mkC 0 0 0 0 0 0 (length (h_met h)) (length (h_act h)) (length (h_per h))).
Definition mon_new : monitor := reset_global (mkHeap [] [] []).

Definition cell {A} (l : list A) (k : nat) (d : A) : A := nth k l d.
Definition m_met (m : monitor) : metrics := cell (h_met (m_heap m)) (c_met (m_c m)) [].
Definition m_act (m : monitor) : ss Z := cell (h_act (m_heap m)) (c_act (m_c m)) (ss_new Z 0).
Definition m_per (m : monitor) : dict nat * dict nat := cell (h_per (m_heap m)) (c_per (m_c m)) ([], []).

(** _train_monitor.py:170-186 [reset]: a new metrics dict; the action sample object is emptied in place. *)
Definition mon_reset (m : monitor) : monitor :=
  let h := m_heap m in let c := m_c m in
  mkMon (mkHeap (h_met h ++ [[]]) (upd (h_act h) (c_act c) (ss_reset (m_act m))) (h_per h))
    (mkC (c_T c + 1) (c_ep c + 1) 0 0 (c_avg_G c) (c_n c) (length (h_met h)) (c_act c) (c_per c)).

(** _train_monitor.py:200-214 [step]: the wrapped env returns reward [r] and the flag [d] = done or truncated; [a] is the
    action, [u] and [i] the draws of the action sample.  [s] is smoothing, a positive int (0 would divide by zero). *)
Definition mon_step (s : nat) (m : monitor) (a : Z) (u : R) (i : nat) (r : R) (d : bool) : monitor :=
  let h := m_heap m in let c := m_c m in
  let G := c_G c + r in
  let n := if d then (if Nat.ltb (c_n c) s then S (c_n c) else c_n c) else c_n c in
  let avg := if d then c_avg_G c + (G - c_avg_G c) / INR n else c_avg_G c in
  mkMon (mkHeap (h_met h) (upd (h_act h) (c_act c) (ss_append (m_act m) a u i)) (h_per h))
    (mkC (c_T c + 1) (c_ep c) (c_t c + 1) G avg n (c_met c) (c_act c) (c_per c)).
(** Line 205: what the step writes into info['monitor']: T and ep before the step. *)
Definition mon_info (m : monitor) : nat * nat := (c_T (m_c m), c_ep (m_c m)).

(** _train_monitor.py:194-198 [avg_r]; None is nan. *)
Definition avg_r (m : monitor) : option R := if Nat.leb (c_t (m_c m)) 0 then None else Some (c_G (m_c m) / INR (c_t (m_c m))).

(** _train_monitor.py:237-244, the averages part of [record_metrics] (tensorboard is left out). *)
Definition record_one (d : metrics) (kv : nat * R) : metrics :=
  match dget (fst kv) d with
  | None => dset (fst kv) (snd kv, 1%nat) d
  | Some (x, n) => dset (fst kv) (x + snd kv, S n) d
  end.
Definition mon_record (m : monitor) (kvs : list (nat * R)) : monitor :=
  let h := m_heap m in let c := m_c m in
  mkMon (mkHeap (upd (h_met h) (c_met c) (fold_left record_one kvs (m_met m))) (h_act h) (h_per h)) c.
(** _train_monitor.py:246-257 [get_metrics]. *)
Definition get_metrics (m : monitor) : dict R := map (fun kv => (fst kv, fst (snd kv) / INR (snd (snd kv)))) (m_met m).

(** _train_monitor.py:259-277 [period], the part for one counter: [now] is T or ep, [p] the period. *)
Definition poll (d : dict nat) (name p now : nat) : dict nat * bool :=
  let d := if has_key name d then d else dset name 1%nat d in
  let c := match dget name d with Some c => c | None => 0%nat end in
  if Nat.leb (c * p) now then (dset name (S c) d, true) else (d, false).
(** The whole method; a period of 0 fails the assertion.  [True or ...] does not consult the episode counter. *)
Definition mon_set_per (m : monitor) (pr : dict nat * dict nat) : monitor :=
  mkMon (mkHeap (h_met (m_heap m)) (h_act (m_heap m)) (upd (h_per (m_heap m)) (c_per (m_c m)) pr)) (m_c m).
Definition period_ep (m : monitor) (name : nat) (epp : option nat) : monitor * outcome bool :=
  match epp with
  | None => (m, Ok false)
  | Some O => (m, Err EAssertion)
  | Some p => let (de, b) := poll (snd (m_per m)) name p (c_ep (m_c m)) in (mon_set_per m (fst (m_per m), de), Ok b)
  end.
Definition mon_period (m : monitor) (name : nat) (Tp epp : option nat) : monitor * outcome bool :=
  match Tp with
  | None => period_ep m name epp
  | Some O => (m, Err EAssertion)
  | Some p => let (dT, b) := poll (fst (m_per m)) name p (c_T (m_c m)) in
              let m' := mon_set_per m (dT, snd (m_per m)) in
              if b then (m', Ok true) else period_ep m' name epp
  end.

(** _train_monitor.py:358-370 [get_counters]: the attributes themselves, so references are shared. *)
Definition get_counters (m : monitor) : counters := m_c m.
(** _train_monitor.py:372-386 [set_counters] with a complete dict. *)
Definition set_counters (m : monitor) (c : counters) : monitor := mkMon (m_heap m) c.
(** _train_monitor.py:388-420 [save_counters]/[load_counters]: pickling copies the referenced objects. *)
Record saved : Type := mkSaved { s_c : counters; s_met : metrics; s_act : ss Z; s_per : dict nat * dict nat }.
Definition save_counters (m : monitor) : saved := mkSaved (m_c m) (m_met m) (m_act m) (m_per m).
Definition load_counters (m : monitor) (f : saved) : monitor :=
  let h := m_heap m in let c := s_c f in
  mkMon (mkHeap (h_met h ++ [s_met f]) (h_act h ++ [s_act f]) (h_per h ++ [s_per f]))
    (mkC (c_T c) (c_ep c) (c_t c) (c_G c) (c_avg_G c) (c_n c) (length (h_met h)) (length (h_act h)) (length (h_per h))).

(** Everything a caller can do between two observations. *)
Inductive mon_event : Type :=
| MReset | MStep (a : Z) (u : R) (i : nat) (r : R) (d : bool) | MRecord (kvs : list (nat * R)) | MPeriod (name : nat) (Tp epp : option nat).
Definition mon_do (s : nat) (m : monitor) (e : mon_event) : monitor :=
  match e with
  | MReset => mon_reset m
  | MStep a u i r d => mon_step s m a u i r d
  | MRecord kvs => mon_record m kvs
  | MPeriod name Tp epp => fst (mon_period m name Tp epp)
  end.
Definition mon_run (s : nat) (m : monitor) (es : list mon_event) : monitor := fold_left (mon_do s) es m.

(** * Box wrappers *)

Definition sigmoid (x : R) : R := / (1 + exp (- x)).
(** The bound 1e15. *)
Definition big : R := 1000000000 * 1000000.
(** _box_spaces.py:49-53 [_compactify], one coordinate; exact reals.  Lines 42-47 [step] assert that the action lies in the
    box [-1e15, 1e15]. *)
Definition compactify (lo hi a : R) : R := lo + (hi - lo) * sigmoid (clip a (- big) big).
(** _box_spaces.py:90-95 [_discrete_to_box], one coordinate: bin [k] of [n], uniform draw [u]. *)
Definition discrete_to_box (lo hi : R) (n k : nat) (u : R) : R := lo + (INR k + u) / INR n * (hi - lo).

(** num_bins: an int, a tuple of ints, or something else. *)
Inductive num_bins_arg : Type := NInt (n : nat) | NTuple (ns : list nat) | NOther.
(** _box_spaces.py:97-109 [_init_action_space]: the bins per coordinate. *)
Definition init_nvec (size : nat) (a : num_bins_arg) : outcome (list nat) :=
  match a with
  | NInt n => Ok (repeat n size)
  | NTuple ns => if Nat.eqb (length ns) size then Ok ns else Err EValue
  | NOther => Err EType
  end.

(** * a_orig in the info dict *)

(** _base/mixins/_add_orig_to_info.py:22-30: [info] is None or (the part of) a dict, here its entry 'a_orig'.  A missing info
    gets a fresh dict that the caller never sees. *)
Definition add_a_orig {A} (info : option (option (list A))) (a : A) : option (option (list A)) :=
  match info with
  | None => None
  | Some None => Some (Some [a])
  | Some (Some l) => Some (Some (l ++ [a]))
  end.
(** Nested action wrappers, outermost first; each one converts the action, steps the inner environment, then adds its own
    converted action.  [info0] is what the innermost environment returns. *)
Fixpoint nested_step {A} (ws : list (A -> A)) (info0 : A -> option (option (list A))) (a : A) : option (option (list A)) :=
  match ws with
  | [] => info0 a
  | w :: ws' => let a' := w a in add_a_orig (nested_step ws' info0 a') a'
  end.
