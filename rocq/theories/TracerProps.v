(** Properties C13-C18: reward tracers (coax/reward_tracing). *)
From Coq Require Import List ZArith Lia Bool Reals Lra.
From Verif Require Import PyCommon SegTreeSpec TracerModel TracerSpec TracerProofs TracerProofs2.
Import ListNotations.

(** C13: adding an episode and flushing gives one n-step transition per step, in order; the tracer is empty. *)
Theorem C13_nstep_episode : forall S A n gamma extra (ep : episode S A),
  1 <= n -> (0 <= gamma <= 1)%R -> ep <> [] -> valid_episode ep ->
  let t := fst (add_all (@nstep_add S A) (nstep_reset S A) (add_calls ep)) in
  exists ys, flush (nstep_bool n) (@nstep_len S A) (nstep_pop n gamma extra) t = (mkN [] [] true, Ok ys) /\
    Forall2 (fun i y => nstep_spec n gamma extra ep true i y) (seq 0 (length ep)) ys.
Proof. exact (fun S A n gamma extra ep => @nstep_flush_episode S A n gamma extra ep). Qed.
Print Assumptions C13_nstep_episode.

Definition ex_step (s : nat) : step nat nat := mkStep s (10 * s) (-1)%R 2%R true.
Definition ex_ep : episode nat nat := [(ex_step 1, 1%R); (ex_step 2, 2%R); (ex_step 3, 4%R)].
Lemma ex_ep_valid : valid_episode ex_ep.
Proof. intros x r [E|[E|[E|[]]]]; injection E as <- <-; unfold valid_step; cbn; repeat split; lra. Qed.

Example C13_example : ex_ep <> [] /\ valid_episode ex_ep /\ (0 <= 1/2 <= 1)%R /\
  exists ys, snd (flush (nstep_bool 2) (@nstep_len nat nat) (nstep_pop 2 (1/2) true)
                    (fst (add_all (@nstep_add nat nat) (nstep_reset nat nat) (add_calls ex_ep)))) = Ok ys /\
    map (@x_rn nat nat) ys = [2; 4; 4]%R /\ map (@x_in nat nat) ys = [1/4; 0; 0]%R.
Proof.
  split; [discriminate|]. split; [exact ex_ep_valid|]. split; [lra|].
  destruct (C13_nstep_episode nat nat 2 (1/2) true ex_ep ltac:(lia) ltac:(lra) ltac:(discriminate) ex_ep_valid) as [ys [H1 H2]].
  exists ys. rewrite H1. split; [reflexivity|]. cbn in H2.
  inversion H2 as [|i0 y0 l0 m0 S0 F0]; subst. inversion F0 as [|i1 y1 l1 m1 S1 F1]; subst. inversion F1 as [|i2 y2 l2 m2 S2 F2]; subst.
  inversion F2; subst. cbn [map].
  destruct S0 as (x0 & r0 & _ & _ & _ & _ & _ & A0 & B0 & _), S1 as (x1 & r1 & _ & _ & _ & _ & _ & A1 & _ & B1 & _), S2 as (x2 & r2 & _ & _ & _ & _ & _ & A2 & _ & B2 & _).
  rewrite A0, A1, A2. destruct B0 as [B0 _]; [cbn; lia|]. destruct B1 as [B1 _]; [cbn; lia|]. destruct B2 as [B2 _]; [cbn; lia|].
  rewrite B0, B1, B2.
  assert (L : forall a b c a' b' c' : R, a = a' -> b = b' -> c = c' -> [a; b; c] = [a'; b'; c']) by (intros; subst; reflexivity).
  split; apply L; cbn; lra.
Qed.

(** C14: any schedule of add and pop calls from a fresh tracer.  The accepted adds [ins] determine the list of due
    transitions: all steps of the finished episodes, and those steps of the unfinished one that have n successors. The
    popped transitions are the correct ones for a prefix of that list, the whole list once the tracer is False. *)
Theorem C14_any_schedule : forall S A n gamma extra (os : list (top S A)), 1 <= n -> (0 <= gamma <= 1)%R -> prog_valid os ->
  let '(t, (ins, (outs, errs))) := trun (@nstep_add S A) (nstep_pop n gamma extra) (nstep_reset S A) os in
  exists pre post, nstep_due n ins = pre ++ post /\
    Forall2 (fun d y => nstep_spec n gamma extra (fst (fst d)) (snd (fst d)) (snd d) y) pre outs /\
    (nstep_bool n t = false -> post = []).
Proof. exact (fun S A n gamma extra os Hn Hg Hv => @nrun_fresh S A n gamma extra Hn Hg os Hv). Qed.
Print Assumptions C14_any_schedule.

(** C14: two schedules that accept the same adds and end drained give equal transitions. *)
Theorem C14_schedule_independent : forall S A n gamma extra (os1 os2 : list (top S A)),
  1 <= n -> (0 <= gamma <= 1)%R -> prog_valid os1 -> prog_valid os2 ->
  let '(t1, (ins1, (outs1, _))) := trun (@nstep_add S A) (nstep_pop n gamma extra) (nstep_reset S A) os1 in
  let '(t2, (ins2, (outs2, _))) := trun (@nstep_add S A) (nstep_pop n gamma extra) (nstep_reset S A) os2 in
  ins1 = ins2 -> nstep_bool n t1 = false -> nstep_bool n t2 = false -> outs1 = outs2.
Proof. exact (fun S A n gamma extra os1 os2 Hn Hg => @nrun_schedule S A n gamma extra Hn Hg os1 os2). Qed.
Print Assumptions C14_schedule_independent.

(** C14: add is rejected exactly when the finished episode was not drained, and then nothing changes. *)
Theorem C14_add_rejected : forall S A (t : nstate S A) x r d,
  (snd (nstep_add t x r d) <> None <-> (n_done t = true /\ n_s t <> [])) /\
  (n_done t = true -> n_s t <> [] -> nstep_add t x r d = (t, Some EEpisodeDone)).
Proof. exact (fun S A t x r d => conj (nstep_add_rejected t x r d) (@nstep_add_rejected_eq S A t x r d)). Qed.
Print Assumptions C14_add_rejected.

(** Two schedules for the same two episodes. *)
Definition ex_sched1 : list (top nat nat) :=
  [TAdd (ex_step 1) 1 false; TAdd (ex_step 2) 2 false; TAdd (ex_step 3) 4 true; TPop; TPop; TPop; TAdd (ex_step 4) 8 true; TPop].
Definition ex_sched2 : list (top nat nat) :=
  [TAdd (ex_step 1) 1 false; TPop; TAdd (ex_step 2) 2 false; TPop; TAdd (ex_step 3) 4 true; TPop; TAdd (ex_step 9) 0 true; TPop; TAdd (ex_step 4) 8 true; TPop; TPop].
Example C14_example : prog_valid ex_sched1 /\ prog_valid ex_sched2 /\
  (let r1 := trun (@nstep_add nat nat) (nstep_pop 1 1 false) (nstep_reset nat nat) ex_sched1 in
   let r2 := trun (@nstep_add nat nat) (nstep_pop 1 1 false) (nstep_reset nat nat) ex_sched2 in
   fst (snd r1) = fst (snd r2) /\ nstep_bool 1 (fst r1) = false /\ nstep_bool 1 (fst r2) = false /\ length (nstep_due 1 (fst (snd r1))) = 4).
Proof.
  assert (V : forall k, valid_step (ex_step k)) by (intros k; unfold valid_step; cbn; repeat split; lra).
  split; [intros x r d; cbn; intuition (try discriminate); match goal with H : TAdd _ _ _ = _ |- _ => injection H as <- <- <- end; apply V|].
  split; [intros x r d; cbn; intuition (try discriminate); match goal with H : TAdd _ _ _ = _ |- _ => injection H as <- <- <- end; apply V|].
  assert (Hn : 1 <= 1) by lia. assert (Hg : (0 <= 1 <= 1)%R) by lra.
  assert (F : forall s a lp r d s' a' lp' w e, (lp <= 0)%R -> (lp' <= 0)%R -> (0 < w)%R ->
    @from_single nat nat s a lp r d (1 ^ 1) s' a' lp' w true e = Ok (mkSingle s a lp r (1 ^ 1 * (1 - if d then 1 else 0)) s' a' lp' w e)).
  { intros. apply from_single_ok; auto. rewrite pow1. lra. }
  unfold ex_sched1, ex_sched2, ex_step.
  repeat (progress (cbn -[from_single pow Rle_dec]; rewrite ?F by (cbn; lra))). repeat split.
Qed.

(** C15: Monte-Carlo, whole episode. *)
Theorem C15_montecarlo_episode : forall S A gamma (ep : episode S A), (0 <= gamma <= 1)%R -> ep <> [] -> valid_episode ep ->
  let t := fst (add_all (@mc_add S A) (mc_reset S A) (add_calls ep)) in
  exists ys, snd (flush (@mc_bool S A) (@mc_len S A) (mc_pop gamma) t) = Ok ys /\
    m_list (fst (flush (@mc_bool S A) (@mc_len S A) (mc_pop gamma) t)) = [] /\
    Forall2 (fun i y => mc_spec gamma ep i y) (rev (seq 0 (length ep))) ys.
Proof. exact (fun S A gamma ep => @mc_flush_whole S A gamma ep). Qed.
Print Assumptions C15_montecarlo_episode.

(** C15: Monte-Carlo, any schedule. *)
Theorem C15_any_schedule : forall S A gamma (os : list (top S A)), (0 <= gamma <= 1)%R -> prog_valid os ->
  let '(t, (ins, (outs, errs))) := trun (@mc_add S A) (mc_pop gamma) (mc_reset S A) os in
  exists pre post, mc_due ins = pre ++ post /\ Forall2 (fun d y => mc_spec gamma (fst d) (snd d) y) pre outs /\
    (mc_bool t = false -> post = []).
Proof. exact (fun S A gamma os Hg Hv => @mrun_fresh S A gamma Hg os Hv). Qed.
Print Assumptions C15_any_schedule.

(** C15: add is rejected exactly when a finished episode was not drained, and then nothing changes. *)
Theorem C15_add_rejected : forall S A (t : mstate S A) x r d,
  (snd (mc_add t x r d) <> None <-> (m_done t = true /\ m_list t <> [])) /\
  (m_done t = true -> m_list t <> [] -> mc_add t x r d = (t, Some EEpisodeDone)).
Proof. exact (fun S A t x r d => mc_add_rejected t x r d). Qed.
Print Assumptions C15_add_rejected.

Example C15_example : ex_ep <> [] /\ valid_episode ex_ep /\ prog_valid ex_sched1 /\
  length (mc_due (fst (snd (trun (@mc_add nat nat) (mc_pop 1) (mc_reset nat nat) [TAdd (ex_step 1) 1 false; TAdd (ex_step 2) 5 true])))) = 2.
Proof.
  split; [discriminate|]. split; [exact ex_ep_valid|]. split; [|reflexivity]. apply C14_example.
Qed.

(** C16: consistency of the transitions of both tracers, step by step. *)
Theorem C16_consistent : forall S A n gamma extra fin (ep : episode S A) t x y z,
  nstep_spec n gamma extra ep fin t x -> mc_spec gamma ep t y ->
  (t + n < length ep -> mc_spec gamma ep (t + n) z ->
     x_s_next x = x_s z /\ x_a_next x = x_a z /\ (x_rn x + x_in x * x_rn z)%R = x_rn y) /\
  (length ep <= t + n -> x_rn x = x_rn y /\ x_in x = 0%R).
Proof. exact (fun S A n gamma extra fin ep t x y z => @nstep_mc_consistent S A n gamma extra fin ep t x y z). Qed.
Print Assumptions C16_consistent.

(** C16: for the flushed outputs: [xs] of NStep in time order, [ys] of MonteCarlo in reverse. *)
Theorem C16_flushed : forall S A n gamma extra (ep : episode S A) xs ys,
  1 <= n -> (0 <= gamma <= 1)%R -> ep <> [] -> valid_episode ep ->
  snd (flush (nstep_bool n) (@nstep_len S A) (nstep_pop n gamma extra) (fst (add_all (@nstep_add S A) (nstep_reset S A) (add_calls ep)))) = Ok xs ->
  snd (flush (@mc_bool S A) (@mc_len S A) (mc_pop gamma) (fst (add_all (@mc_add S A) (mc_reset S A) (add_calls ep)))) = Ok ys ->
  length xs = length ep /\ length ys = length ep /\
  forall t x y, nth_error xs t = Some x -> nth_error (rev ys) t = Some y ->
    match nth_error (rev ys) (t + n) with
    | Some z => x_s_next x = x_s z /\ x_a_next x = x_a z /\ (x_rn x + x_in x * x_rn z)%R = x_rn y
    | None => x_rn x = x_rn y /\ x_in x = 0%R
    end.
Proof. exact (fun S A n gamma extra ep xs ys => @flushed_consistent S A n gamma extra ep xs ys). Qed.
Print Assumptions C16_flushed.

Example C16_example : exists xs ys,
  snd (flush (nstep_bool 2) (@nstep_len nat nat) (nstep_pop 2 (1/2) false) (fst (add_all (@nstep_add nat nat) (nstep_reset nat nat) (add_calls ex_ep)))) = Ok xs /\
  snd (flush (@mc_bool nat nat) (@mc_len nat nat) (mc_pop (1/2)) (fst (add_all (@mc_add nat nat) (mc_reset nat nat) (add_calls ex_ep)))) = Ok ys.
Proof.
  destruct (C13_nstep_episode nat nat 2 (1/2) false ex_ep ltac:(lia) ltac:(lra) ltac:(discriminate) ex_ep_valid) as [xs [H1 _]].
  destruct (C15_montecarlo_episode nat nat (1/2) ex_ep ltac:(lra) ltac:(discriminate) ex_ep_valid) as [ys [H2 _]].
  exists xs, ys. rewrite H1. auto.
Qed.

(** C17: extra_info of the flushed transitions: n+1 entries; entry k is step min(t+k, T-1), done from the last step on. *)
Theorem C17_extra_info : forall S A n gamma (ep : episode S A) t y, nstep_spec n gamma true ep true t y ->
  exists es, x_extra y = Some es /\ length es = n + 1 /\
    forall k, k <= n -> exists x r, nth_error ep (Nat.min (t + k) (length ep - 1)) = Some (x, r) /\
      nth_error es k = Some (mkEntry x r (Nat.leb (length ep - 1) (t + k))).
Proof. exact (fun S A n gamma ep t y H => extra_info_padded H). Qed.
Print Assumptions C17_extra_info.

Example C17_example : exists y, nstep_spec 2 (1/2) true ex_ep true 1 y.
Proof.
  destruct (C13_nstep_episode nat nat 2 (1/2) true ex_ep ltac:(lia) ltac:(lra) ltac:(discriminate) ex_ep_valid) as [ys [_ H2]].
  cbn in H2. inversion H2 as [|i0 y0 l0 m0 S0 F0]; subst. inversion F0 as [|i1 y1 l1 m1 S1 F1]; subst. exists y1. exact S1.
Qed.

(** C18: pop of a step with a positive logp raises and the step is gone (also for MonteCarlo). *)
Theorem C18_failing_pop_loses_data_refuted :
  (exists t : nstate nat nat, snd (nstep_pop 1 1 false t) = Err EType /\ n_s (fst (nstep_pop 1 1 false t)) <> n_s t /\
     t = fst (nstep_add (nstep_reset nat nat) (mkStep 5 6 1%R 1%R true) 7%R true)) /\
  (exists t : mstate nat nat, snd (mc_pop 1 t) = Err EType /\ m_list (fst (mc_pop 1 t)) <> m_list t /\
     t = fst (mc_add (mc_reset nat nat) (mkStep 5 6 1%R 1%R true) 7%R true)).
Proof.
  split; eexists; (split; [|split; [|reflexivity]]); cbn; try discriminate; unfold from_single;
    destruct (Rle_dec 1 0); try reflexivity; lra.
Qed.
Print Assumptions C18_failing_pop_loses_data_refuted.

(** C18: exact behaviour. InsufficientCacheError leaves the tracer unchanged; any other failure is a TypeError and has
    removed exactly the step that could not be converted. *)
Theorem C18_failing_pop_exact : forall S A,
  (forall n gamma extra (t : nstate S A) e, 1 <= n -> length (n_r t) = length (n_s t) ->
     snd (nstep_pop n gamma extra t) = Err e ->
     (e = EInsufficientCache /\ nstep_bool n t = false /\ fst (nstep_pop n gamma extra t) = t) \/
     (e = EType /\ nstep_bool n t = true /\ exists x r, n_s t = x :: n_s (fst (nstep_pop n gamma extra t)) /\
        n_r t = r :: n_r (fst (nstep_pop n gamma extra t)))) /\
  (forall gamma (t : mstate S A) e, snd (mc_pop gamma t) = Err e ->
     (e = EInsufficientCache /\ mc_bool t = false /\ fst (mc_pop gamma t) = t) \/
     (e = EType /\ mc_bool t = true /\ exists x, m_list t = m_list (fst (mc_pop gamma t)) ++ [x])).
Proof. exact (fun S A => conj (@nstep_pop_err S A) (@mc_pop_err S A)). Qed.
Print Assumptions C18_failing_pop_exact.

Example C18_example : let t := fst (nstep_add (nstep_reset nat nat) (mkStep 5 6 1%R 1%R true) 7%R true) in
  length (n_r t) = length (n_s t) /\ snd (nstep_pop 1 1 false t) = Err EType.
Proof. cbn. split; auto. unfold from_single. destruct (Rle_dec 1 0); [lra|reflexivity]. Qed.

(** C18: a tracer that is not ready (nothing stored, or an unfinished episode with at most n steps; for MonteCarlo any
    unfinished episode) refuses pop and flush with InsufficientCacheError and keeps everything; otherwise it is ready. *)
Theorem C18_not_ready : forall S A,
  (forall n gamma extra (t : nstate S A),
     ((n_s t = [] \/ (n_done t = false /\ length (n_s t) <= n)) ->
        nstep_bool n t = false /\ nstep_pop n gamma extra t = (t, Err EInsufficientCache) /\
        flush (nstep_bool n) (@nstep_len S A) (nstep_pop n gamma extra) t = (t, Err EInsufficientCache)) /\
     (n_s t <> [] -> (n_done t = true \/ n < length (n_s t)) -> nstep_bool n t = true)) /\
  (forall gamma (t : mstate S A),
     ((m_list t = [] \/ m_done t = false) ->
        mc_bool t = false /\ mc_pop gamma t = (t, Err EInsufficientCache) /\
        flush (@mc_bool S A) (@mc_len S A) (mc_pop gamma) t = (t, Err EInsufficientCache)) /\
     (m_list t <> [] -> m_done t = true -> mc_bool t = true)).
Proof.
  intros S A. split.
  - intros n gamma extra t. split.
    + intros H. assert (B : nstep_bool n t = false).
      { unfold nstep_bool, nstep_len. destruct H as [->|[-> H]]; [reflexivity|]. cbn [orb]. rewrite (proj2 (Nat.ltb_ge _ _) H). apply andb_false_r. }
      unfold nstep_pop, flush. rewrite B. auto.
    + intros H1 H2. unfold nstep_bool, nstep_len. destruct H2 as [->|H2].
      * destruct (n_s t); [congruence|reflexivity].
      * rewrite (proj2 (Nat.ltb_lt _ _) H2), orb_true_r. destruct (n_s t); [congruence|reflexivity].
  - intros gamma t. split.
    + intros H. assert (B : mc_bool t = false). { unfold mc_bool, mc_len. destruct H as [->| ->]; [reflexivity|]. apply andb_false_r. }
      unfold mc_pop, flush. rewrite B. auto.
    + intros H1 H2. unfold mc_bool, mc_len. rewrite H2. destruct (m_list t); [congruence|reflexivity].
Qed.
Print Assumptions C18_not_ready.

Example C18_not_ready_example : let t := fst (nstep_add (nstep_reset nat nat) (ex_step 1) 7%R false) in
  (n_done t = false /\ length (n_s t) <= 1) /\ n_s t <> [] /\ 0 < length (n_s t).
Proof. cbn. repeat split; try discriminate; lia. Qed.

(** C18: the constructor accepts n = 0; the last step of an episode then cannot be popped (IndexError) and is lost. *)
Theorem C18_zero_steps : forall S A gamma extra (t : nstate S A) x r, n_s t = [x] -> n_r t = [r] ->
  nstep_pop 0 gamma extra t = (mkN [] [] (n_done t), Err EIndex).
Proof. intros S A gamma extra t x r Hs Hr. unfold nstep_pop, nstep_bool, nstep_len. rewrite Hs, Hr. cbn [length Nat.eqb negb andb Nat.ltb Nat.leb]. rewrite orb_true_r. reflexivity. Qed.
Print Assumptions C18_zero_steps.
Example C18_zero_steps_ex : let t := fst (nstep_add (nstep_reset nat nat) (ex_step 1) 7%R true) in n_s t = [ex_step 1] /\ n_r t = [7%R].
Proof. split; reflexivity. Qed.
