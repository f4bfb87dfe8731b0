(** Model of coax/_core/worker.py: rollouts, the shared step counter, the exchange of states between learners and the parameter store,
    waiting for the replay buffer, dotted attribute names. *)
From Coq Require Import List Bool Arith ZArith String Ascii Reals.
From Verif Require Import PyCommon.
Import ListNotations.
Set Implicit Arguments.

(** * rollout *)

Section Rollout.
(** Environment state, policy state (random keys), observations, actions.  The environment and the policy are arbitrary. *)
Variables E P S A : Type.
Variable reset : E -> E * S.
(** env.step(a): observation, reward, terminated, truncated. *)
Variable step : E -> A -> E * (S * R * bool * bool).
(** pi(s, return_logp=True). *)
Variable pi : P -> S -> P * (A * R).
(** The arguments of one call self.trace(s, a, r, done or truncated, logp). *)
Record call : Type := mkCall { c_s : S; c_a : A; c_r : R; c_done : bool; c_logp : R }.
(** worker.py:167-178: the for loop with n iterations left; returns the states, the trace calls and the observation s. *)
Fixpoint roll (n : nat) (e : E) (p : P) (s : S) : E * P * list call :=
  match n with
  | O => (e, p, [])
  | Datatypes.S n' =>
      let '(p1, (a, logp)) := pi p s in
      let '(e1, (s_next, r, done, truncated)) := step e a in
      let c := mkCall s a r (done || truncated) logp in
      if done || truncated then (e1, p1, [c])
      else let '(e2, p2, cs) := roll n' e1 p1 s_next in (e2, p2, c :: cs)
  end.
(** worker.py:164-178 [rollout]; [n] = env.spec.max_episode_steps. *)
Definition rollout (n : nat) (e : E) (p : P) : E * P * list call := let (e1, s) := reset e in roll n e1 p s.
(** Rollouts in a row, as rollout_loop makes them (lines 183-185); the calls of each. *)
Fixpoint rollouts (k n : nat) (e : E) (p : P) : E * P * list (list call) :=
  match k with
  | O => (e, p, [])
  | Datatypes.S k' => let '(e1, p1, cs) := rollout n e p in let '(e2, p2, css) := rollouts k' n e1 p1 in (e2, p2, cs :: css)
  end.
End Rollout.

(** * rollout_loop *)

(** Where a rollout worker is in worker.py:180-191: before line 182; at the test of line 183 with its T_global; after the rollout of t
    steps (line 185); between pull_getattr and push_setattr (lines 188-189) holding the pulled value; stopped. *)
Inductive wpc : Type := WInit | WIdle (tg : nat) | WRolled (t : nat) | WPulled (x t : nat) | WDone.
(** The counter env.T of the parameter store, the workers, and two counters that are not in the code: environment steps and rollouts made
    so far by all workers together. *)
Record wsys : Type := mkW { w_T : nat; w_pcs : list wpc; w_steps : nat; w_rolls : nat }.
(** The scheduler picks a worker; [ch_t]: the length of the rollout, should it make one; [ch_stop]: avg_G >= reward_threshold, should it
    test that. *)
Record choice : Type := mkChoice { ch_w : nat; ch_t : nat; ch_stop : bool }.
(** worker.py:180-191 [rollout_loop], one access to the parameter store or one rollout at a time.  Without metrics and pull_state. *)
Definition wstep (limit : nat) (s : wsys) (c : choice) : wsys :=
  let go pc := upd (w_pcs s) (ch_w c) pc in
  match nth_error (w_pcs s) (ch_w c) with
  | Some WInit => mkW (w_T s) (go (WIdle (w_T s))) (w_steps s) (w_rolls s)
  | Some (WIdle tg) =>
      if Nat.ltb tg limit && negb (ch_stop c) then mkW (w_T s) (go (WRolled (ch_t c))) (w_steps s + ch_t c) (Datatypes.S (w_rolls s))
      else mkW (w_T s) (go WDone) (w_steps s) (w_rolls s)
  | Some (WRolled t) => mkW (w_T s) (go (WPulled (w_T s) t)) (w_steps s) (w_rolls s)
  | Some (WPulled x t) => mkW (x + t) (go (WIdle (x + t))) (w_steps s) (w_rolls s)
  | Some WDone | None => s
  end.
Definition wrun (limit : nat) (s : wsys) (cs : list choice) : wsys := fold_left (wstep limit) cs s.
Definition wstart (T0 k : nat) : wsys := mkW T0 (repeat WInit k) 0 0.

(** * learn_loop *)

Section Learn.
Variables St B : Type.
(** self.learn(batch) as a function of the state of the learner (arbitrary). *)
Variable learn : St -> B -> St.
(** A learner: idle with the state it last had; pulled (line 197); learned (line 198).  The parameter store has one state. *)
Inductive lpc : Type := LIdle | LPulled (x : St) | LLearned (x : St).
Record lsys : Type := mkLS { ls_store : St; ls_pcs : list lpc; ls_used : list B }.
(** worker.py:193-202 [learn_loop]: pull_state, learn on a batch, push_state; the scheduler picks a learner and a batch.  [ls_used] lists the
    batches learned from (not in the code). *)
Definition lsys_step (s : lsys) (c : nat * B) : lsys :=
  let (i, b) := c in
  match nth_error (ls_pcs s) i with
  | Some LIdle => mkLS (ls_store s) (upd (ls_pcs s) i (LPulled (ls_store s))) (ls_used s)
  | Some (LPulled x) => mkLS (ls_store s) (upd (ls_pcs s) i (LLearned (learn x b))) (ls_used s ++ [b])
  | Some (LLearned x) => mkLS x (upd (ls_pcs s) i LIdle) (ls_used s)
  | None => s
  end.
Definition lsys_run (s : lsys) (cs : list (nat * B)) : lsys := fold_left lsys_step cs s.
Definition lsys_start (x : St) (k : nat) : lsys := mkLS x (repeat LIdle k) [].
End Learn.

(** * buffer_sample *)

(** worker.py:238: max(self.buffer_warmup or 0, batch_size). *)
Definition needed (warmup : option nat) (batch_size : nat) : nat := Nat.max (match warmup with Some w => w | None => 0 end) batch_size.
(** worker.py:239-247: [lens k] is the k-th observed buffer length.  Waits are counted in units of 1/1024 s (30 s = 30720).  The while loop
    may not end; [fuel] bounds the number of observations; None: still waiting.  Result: the sleeps made. *)
Fixpoint wait_loop (fuel : nat) (need : nat) (lens : nat -> nat) (k : nat) (wait : Z) : option (list Z) :=
  match fuel with
  | O => None
  | Datatypes.S fuel' =>
      if Nat.ltb (lens k) need then match wait_loop fuel' need lens (Datatypes.S k) (Z.min (30 * 1024) (wait * 2)) with Some ws => Some (wait :: ws) | None => None end
      else Some []
  end.
Definition wait_for_buffer (fuel : nat) (warmup : option nat) (batch_size : nat) (lens : nat -> nat) : option (list Z) := wait_loop fuel (needed warmup batch_size) lens 0 1%Z.
(** worker.py:237-258 for a worker with a parameter store: it waits until the observed length suffices and then calls buffer_sample of the
    parameter store, which waits again, with its own buffer_warmup.  The parameter store handles one call at a time, so the length of its
    buffer does not change while it waits: it stays that of the last observation, or [len'] if another call came in between. *)
Definition remote_sample (fuel : nat) (warmup store_warmup : option nat) (batch_size : nat) (lens : nat -> nat) (len' : nat) : option (list Z * list Z) :=
  match wait_for_buffer fuel warmup batch_size lens with
  | None => None
  | Some ws => match wait_for_buffer fuel store_warmup batch_size (fun _ => len') with None => None | Some ws' => Some (ws, ws') end
  end.

(** * Attribute names *)

(** Python objects as trees of attributes (no sharing); integers stand for values without settable attributes. *)
Inductive val : Type := VInt (z : Z) | VObj (attrs : list (string * val)).
Fixpoint lookup (attrs : list (string * val)) (n : string) : option val :=
  match attrs with [] => None | (m, v) :: attrs' => if String.eqb m n then Some v else lookup attrs' n end.
Fixpoint assign (attrs : list (string * val)) (n : string) (v : val) : list (string * val) :=
  match attrs with [] => [(n, v)] | (m, u) :: attrs' => if String.eqb m n then (m, v) :: attrs' else (m, u) :: assign attrs' n v end.
(** name.split('.', 1), applied again to the rest: first component and the others. *)
Fixpoint split_dots (n : string) : string * list string :=
  match n with
  | EmptyString => (EmptyString, [])
  | String c n' => let (h, t) := split_dots n' in if Ascii.eqb c "." then (EmptyString, h :: t) else (String c h, t)
  end.
(** getattr(obj, name). *)
Definition get1 (v : val) (n : string) : outcome val := match v with VInt _ => Err EAttribute | VObj attrs => match lookup attrs n with Some u => Ok u | None => Err EAttribute end end.
(** worker.py:337-342 [_getattr_recursive]; [d] = None: no default. *)
Fixpoint get_path (v : val) (n : string) (rest : list string) (d : option val) : outcome val :=
  match rest with
  | [] => match get1 v n, d with Ok u, _ => Ok u | Err _, Some u => Ok u | Err e, None => Err e end
  | m :: rest' => bind (get1 v n) (fun u => get_path u m rest' d)
  end.
Definition getattr_recursive (v : val) (name : string) (d : option val) : outcome val := let (n, rest) := split_dots name in get_path v n rest d.
(** worker.py:345-350 [_setattr_recursive]; the object is changed in place: the result is the new tree. *)
Fixpoint set_path (v : val) (n : string) (rest : list string) (x : val) : outcome val :=
  match v with
  | VInt _ => Err EAttribute
  | VObj attrs =>
      match rest with
      | [] => Ok (VObj (assign attrs n x))
      | m :: rest' => bind (get1 v n) (fun u => bind (set_path u m rest' x) (fun u' => Ok (VObj (assign attrs n u'))))
      end
  end.
Definition setattr_recursive (v : val) (name : string) (x : val) : outcome val := let (n, rest) := split_dots name in set_path v n rest x.
