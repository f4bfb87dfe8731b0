(** Model of coax/reward_tracing/_base.py, _nstep.py, _montecarlo.py and of TransitionBatch.from_single as the tracers
    use it.

    Simplifications, for the whole file:
    - states and actions are of arbitrary types; rewards, log-propensities and weights are real numbers
      (array-valued rewards are not modelled);
    - of the type checks in from_single only isinstance(w, (float, int)) is kept, as a flag recorded with w
      (numpy's float32 for example fails it); r, done, gamma and logp always have the right type;
    - the fields of a transition are those of the batch with one row, without the batch axis (see TransModel.v). *)
From Coq Require Import List ZArith Lia Bool Reals.
From Verif Require Import PyCommon.
Import ListNotations.
Set Implicit Arguments.

Section Tracers.
Variables S A : Type.

(** What _nstep.py:54 stores: (s, a, logp, w); the flag says whether w is a python float or int. *)
Record step : Type := mkStep { st_s : S; st_a : A; st_logp : R; st_w : R; st_wnative : bool }.

(** One position of the tuples in extra_info (_nstep.py:99-104). *)
Record entry : Type := mkEntry { e_step : step; e_r : R; e_done : bool }.

(** A transition as returned by pop: S, A, logP, Rn, In, S_next, A_next, logP_next, W, extra_info. *)
Record single : Type := mkSingle {
  x_s : S; x_a : A; x_logp : R; x_rn : R; x_in : R;
  x_s_next : S; x_a_next : A; x_logp_next : R; x_w : R; x_extra : option (list entry) }.

(** _transition.py:156-183 [from_single]: the checks, then In = gamma * (1 - done). *)
Definition from_single (s : S) (a : A) (logp r : R) (done : bool) (gamma : R) (s_next : S) (a_next : A) (logp_next : R)
    (w : R) (wnative : bool) (extra : option (list entry)) : outcome single :=
  if Rle_dec logp 0 then
    if Rle_dec 0 gamma then
      if Rle_dec gamma 1 then
        if Rle_dec logp_next 0 then
          if wnative then
            if Rlt_dec 0 w then
              Ok (mkSingle s a logp r (gamma * (1 - if done then 1 else 0)) s_next a_next logp_next w extra)
            else Err EType
          else Err EType
        else Err EType
      else Err EType
    else Err EType
  else Err EType.

(** ---- NStep ---- *)

(** _nstep.py:42-47: the attributes that change; n, gamma and record_extra_info are fixed by the constructor. *)
Record nstate : Type := mkN { n_s : list step; n_r : list R; n_done : bool }.

(** _nstep.py:42-45 [reset]. *)
Definition nstep_reset : nstate := mkN [] [] false.

(** _nstep.py:58-62 [__len__], [__bool__]. *)
Definition nstep_len (t : nstate) : nat := length (n_s t).
Definition nstep_bool (n : nat) (t : nstate) : bool :=
  negb (Nat.eqb (nstep_len t) 0) && (n_done t || Nat.ltb n (nstep_len t)).

(** _nstep.py:49-56 [add]. *)
Definition nstep_add (t : nstate) (x : step) (r : R) (done : bool) : nstate * option exn :=
  if n_done t && negb (Nat.eqb (nstep_len t) 0) then (t, Some EEpisodeDone)
  else (mkN (n_s t ++ [x]) (n_r t ++ [r]) done, None).

(** _nstep.py:46,73-74: sum(x * r for x, r in islice(zip(gammas, deque_r), n)). *)
Definition partial_return (n : nat) (gamma : R) (rs : list R) : R :=
  fold_left (fun acc xr => acc + fst xr * snd xr)%R (firstn n (combine (map (fun k => gamma ^ k)%R (seq 0 n)) rs)) 0%R.

(** _nstep.py:105-120, the loop of [_extra_info]; [left] iterations remain, [i] is the loop variable, [last] the
    last_* variables, [done0] the argument done, [ds]/[dr]/[sdone] the deques and flag after the pop. *)
Fixpoint extra_loop (left i : nat) (last : entry) (done0 : bool) (ds : list step) (dr : list R) (sdone : bool) : list entry :=
  match left with
  | O => []
  | Datatypes.S left' =>
      last ::
      extra_loop left' (i + 1)
        (match nth_error ds i, nth_error dr i with
         | Some x, Some r => mkEntry x r (done0 || (Nat.eqb (i + 1) (length ds) && sdone))   (* 112-118 *)
         | _, _ => mkEntry (e_step last) (e_r last) true                                      (* 120 *)
         end) done0 ds dr sdone
  end.

(** _nstep.py:64-90 [pop]; the deques are popped before from_single can raise.  deque_s[n - 1] with n = 0 is the last
    element (IndexError when empty). *)
Definition nstep_pop (n : nat) (gamma : R) (extra : bool) (t : nstate) : nstate * outcome single :=
  if negb (nstep_bool n t) then (t, Err EInsufficientCache)
  else
    match n_s t, n_r t with
    | x :: ds, r :: dr =>
        let t' := mkN ds dr (n_done t) in
        let rn := partial_return n gamma (n_r t) in
        let info := if extra then
                      Some (extra_loop (n + 1) 0 (mkEntry x r (Nat.eqb (length ds) 0)) (Nat.eqb (length ds) 0) ds dr (n_done t))
                    else None in
        if Nat.leb n (length ds) then
          match (match n with O => nth_error ds (length ds - 1) | Datatypes.S m => nth_error ds m end) with
          | Some y => (t', from_single (st_s x) (st_a x) (st_logp x) rn false (gamma ^ n) (st_s y) (st_a y) (st_logp y)
                             (st_w x) (st_wnative x) info)
          | None => (t', Err EIndex)
          end
        else (t', from_single (st_s x) (st_a x) (st_logp x) rn true (gamma ^ n) (st_s x) (st_a x) (st_logp x)
                    (st_w x) (st_wnative x) info)
    | _, _ => (t, Err EIndex)
    end.

(** ---- MonteCarlo ---- *)

(** _montecarlo.py:26-29 [reset]. *)
Record mstate : Type := mkM { m_list : list (step * R); m_done : bool; m_g : R }.
Definition mc_reset : mstate := mkM [] false 0%R.

(** _montecarlo.py:41-45. *)
Definition mc_len (t : mstate) : nat := length (m_list t).
Definition mc_bool (t : mstate) : bool := negb (Nat.eqb (mc_len t) 0) && m_done t.

(** _montecarlo.py:31-39 [add]. *)
Definition mc_add (t : mstate) (x : step) (r : R) (done : bool) : mstate * option exn :=
  if m_done t && negb (Nat.eqb (mc_len t) 0) then (t, Some EEpisodeDone)
  else (mkM (m_list t ++ [(x, r)]) done (if done then 0%R else m_g t), None).

(** _montecarlo.py:47-64 [pop]: list.pop takes the last element. *)
Definition mc_pop (gamma : R) (t : mstate) : mstate * outcome single :=
  if negb (mc_bool t) then (t, Err EInsufficientCache)
  else
    match rev (m_list t) with
    | (x, r) :: rest =>
        let g := (r + gamma * m_g t)%R in
        (mkM (rev rest) (m_done t) g,
         from_single (st_s x) (st_a x) (st_logp x) g true gamma (st_s x) (st_a x) (st_logp x) (st_w x) (st_wnative x) None)
    | [] => (t, Err EIndex)
    end.

(** ---- both ---- *)
Section Flush.
Variable T : Type.
Variable tbool : T -> bool.
Variable tlen : T -> nat.
Variable tadd : T -> step -> R -> bool -> T * option exn.
Variable tpop : T -> T * outcome single.

(** _base.py:88-93: pop while the tracer is true; the rows in order (the concatenation along the batch axis).  The
    number of iterations is bounded by len(self), as each pop removes one step. *)
Fixpoint flush_loop (fuel : nat) (t : T) : T * outcome (list single) :=
  match fuel with
  | O => (t, Ok [])
  | Datatypes.S fuel' =>
      if tbool t then
        match tpop t with
        | (t1, Err e) => (t1, Err e)
        | (t1, Ok x) =>
            match flush_loop fuel' t1 with
            | (t2, Err e) => (t2, Err e)
            | (t2, Ok xs) => (t2, Ok (x :: xs))
            end
        end
      else (t, Ok [])
  end.

(** _base.py:73-93 [flush]. *)
Definition flush (t : T) : T * outcome (list single) :=
  if negb (tbool t) then (t, Err EInsufficientCache) else flush_loop (tlen t) t.

(** Programs: add and pop calls in any order. *)
Inductive top : Type := TAdd (x : step) (r : R) (done : bool) | TPop.

(** Run a program: final state, the adds that were accepted, the transitions popped successfully, the exceptions. *)
Fixpoint trun (t : T) (os : list top) : T * (list (step * R * bool) * (list single * list exn)) :=
  match os with
  | [] => (t, ([], ([], [])))
  | TAdd x r d :: os' =>
      let (t1, e) := tadd t x r d in
      let '(t2, (ins, (outs, errs))) := trun t1 os' in
      match e with
      | None => (t2, ((x, r, d) :: ins, (outs, errs)))
      | Some e => (t2, (ins, (outs, e :: errs)))
      end
  | TPop :: os' =>
      let (t1, x) := tpop t in
      let '(t2, (ins, (outs, errs))) := trun t1 os' in
      match x with
      | Ok y => (t2, (ins, (y :: outs, errs)))
      | Err e => (t2, (ins, (outs, e :: errs)))
      end
  end.

End Flush.

End Tracers.

Arguments TAdd {S A} x r done.
Arguments TPop {S A}.
