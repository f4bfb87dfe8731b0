(** Property theorems C53, C78 - C81: workers. *)
From Coq Require Import List Bool Arith ZArith Lia String Ascii Reals Lra.
From Verif Require Import PyCommon TracerModel TracerSpec WorkerModel WorkerSpec WorkerProofs WorkerProofs2.
Import ListNotations.

(** * C53: the shared step counter *)

(** Whatever the interleaving of any number of workers, the counter never exceeds the number of environment steps made (plus its initial
    value), not even when the steps that are still on their way to the counter are added. *)
Theorem C53_never_overcounts : forall limit T0 k cs, let s := wrun limit (wstart T0 k) cs in w_T s + pending s <= T0 + w_steps s.
Proof. exact over_run. Qed.
Print Assumptions C53_never_overcounts.
Definition turn (i t : nat) : choice := mkChoice i t false.
Example C53_never_overcounts_ex : let s := wrun 100 (wstart 5 2) [turn 0 7; turn 0 7; turn 1 3; turn 1 3; turn 0 0; turn 1 0; turn 0 0] in w_T s = 12 /\ pending s = 3 /\ w_steps s = 10.
Proof. cbv. auto. Qed.

(** If no worker is interrupted between reading the counter and writing it, the counter is exact: initial value plus all steps, up to those
    still on their way. *)
Theorem C53_exact_if_uninterrupted_partial : forall limit T0 k cs, uninterrupted limit (wstart T0 k) cs -> let s := wrun limit (wstart T0 k) cs in w_T s + pending s = T0 + w_steps s.
Proof. exact exact_run. Qed.
Print Assumptions C53_exact_if_uninterrupted_partial.
Example C53_exact_if_uninterrupted_ex : let cs := [turn 0 7; turn 0 7; turn 1 3; turn 1 3; turn 0 0; turn 0 0; turn 1 0; turn 1 0] in uninterrupted 100 (wstart 5 2) cs /\ w_T (wrun 100 (wstart 5 2) cs) = 15.
Proof.
  cbv zeta. split; [|reflexivity]. cbn [uninterrupted]. repeat split; intros i (x & t & H); cbn in H |- *; do 3 (try destruct i as [|i]; cbn in H; try discriminate; auto).
Qed.
(** In particular with one worker. *)
Theorem C53_single_worker_exact : forall limit T0 cs, (forall c, In c cs -> ch_w c = 0) -> let s := wrun limit (wstart T0 1) cs in w_T s + pending s = T0 + w_steps s.
Proof. intros limit T0 cs H. apply exact_run, single_uninterrupted; auto. Qed.
Print Assumptions C53_single_worker_exact.
Example C53_single_worker_exact_ex : w_T (wrun 10 (wstart 0 1) (repeat (turn 0 4) 20)) = 12 /\ w_pcs (wrun 10 (wstart 0 1) (repeat (turn 0 4) 20)) = [WDone].
Proof. cbv. auto. Qed.

(** The counter can be moved back, and any number of steps can be lost: two workers, for every N. *)
Theorem C53_refuted : forall N, exists cs c, fair_lengths 1 (cs ++ [c]) /\ w_T (wrun (N + 1) (wstart 0 2) cs) = N /\ w_T (wrun (N + 1) (wstart 0 2) (cs ++ [c])) = 1 /\ w_steps (wrun (N + 1) (wstart 0 2) (cs ++ [c])) = N + 1.
Proof.
  intros N. set (one := [turn 1 1; turn 1 1; turn 1 1]). exists ([turn 0 1; turn 0 1; turn 0 1; turn 1 1] ++ List.concat (repeat one N)), (turn 0 1).
  assert (R : forall n m, m + n <= N -> wrun (N + 1) (mkW m [WPulled 0 1; WIdle m] (m + 1) (m + 1)) (List.concat (repeat one n)) = mkW (m + n) [WPulled 0 1; WIdle (m + n)] (m + n + 1) (m + n + 1)).
  { induction n as [|n IH]; intros m H; [cbn; now rewrite Nat.add_0_r|]. cbn [repeat List.concat]. unfold wrun. rewrite fold_left_app. fold (wrun (N + 1)).
    assert (Q : fold_left (wstep (N + 1)) one (mkW m [WPulled 0 1; WIdle m] (m + 1) (m + 1)) = mkW (Datatypes.S m) [WPulled 0 1; WIdle (Datatypes.S m)] (Datatypes.S m + 1) (Datatypes.S m + 1)).
    { assert (L : Nat.ltb m (N + 1) = true) by (apply Nat.ltb_lt; lia). unfold one. cbn [fold_left]. unfold wstep at 3. cbn [w_pcs ch_w turn nth_error ch_stop negb]. rewrite L. cbn [andb w_T w_steps w_rolls ch_t upd]. cbn. rewrite !Nat.add_1_r. reflexivity. }
    rewrite Q. specialize (IH (Datatypes.S m) ltac:(lia)). unfold wrun in IH. rewrite IH. replace (Datatypes.S m + n) with (m + Datatypes.S n) by lia. reflexivity. }
  assert (S0 : fold_left (wstep (N + 1)) [turn 0 1; turn 0 1; turn 0 1; turn 1 1] (wstart 0 2) = mkW 0 [WPulled 0 1; WIdle 0] 1 1).
  { cbn [fold_left wstart repeat]. unfold wstep at 4. cbn [w_pcs ch_w turn nth_error w_T w_steps w_rolls upd]. unfold wstep at 3. cbn [w_pcs ch_w turn nth_error w_T w_steps w_rolls upd ch_stop]. rewrite Nat.add_1_r. reflexivity. }
  assert (S1 : wrun (N + 1) (wstart 0 2) ([turn 0 1; turn 0 1; turn 0 1; turn 1 1] ++ List.concat (repeat one N)) = mkW N [WPulled 0 1; WIdle N] (N + 1) (N + 1)).
  { unfold wrun. rewrite fold_left_app, S0. apply (R N 0). lia. }
  split; [|split; [now rewrite S1|]].
  - intros c H. assert (E : ch_t c = 1); [|lia]. rewrite !in_app_iff in H. destruct H as [[H|H]|H].
    + cbn in H. intuition subst; reflexivity.
    + apply in_concat in H. destruct H as (l & A & B). apply repeat_spec in A. subst l. unfold one in B. cbn in B. intuition subst; reflexivity.
    + cbn in H. intuition subst; reflexivity.
  - unfold wrun at 1 2. rewrite !fold_left_app. fold (wrun (N + 1)). unfold wrun in S1. rewrite fold_left_app in S1. rewrite S1. cbn. auto.
Qed.
Print Assumptions C53_refuted.
Example C53_refuted_ex : w_T (wrun 4 (wstart 0 2) [turn 0 1; turn 0 1; turn 0 1; turn 1 1; turn 1 1; turn 1 1; turn 1 1; turn 1 1; turn 1 1; turn 1 1; turn 1 1; turn 1 1; turn 1 1]) = 3.
Proof. reflexivity. Qed.
(** Also the final value, after all workers have stopped, can be too small: two workers that both make rollouts of M steps. *)
Theorem C53_final_refuted : forall M, 1 <= M -> exists cs, fair_lengths M cs /\ let s := wrun M (wstart 0 2) cs in all_stopped s /\ w_T s = M /\ w_steps s = 2 * M.
Proof.
  intros M HM. exists [turn 0 M; turn 0 M; turn 1 M; turn 1 M; turn 0 M; turn 1 M; turn 0 M; turn 1 M; turn 0 M; turn 1 M].
  split; [intros c H; cbn in H; intuition subst; cbn; lia|]. cbv zeta.
  assert (L : Nat.ltb 0 M = true) by (apply Nat.ltb_lt; lia). assert (L2 : Nat.ltb M M = false) by (apply Nat.ltb_ge; lia).
  assert (E : wrun M (wstart 0 2) [turn 0 M; turn 0 M; turn 1 M; turn 1 M; turn 0 M; turn 1 M; turn 0 M; turn 1 M; turn 0 M; turn 1 M] = mkW M [WDone; WDone] (M + M) 2).
  { unfold wrun, wstart. cbn [repeat fold_left].
    repeat match goal with |- context [wstep M (mkW ?T ?pcs ?a ?b) ?c] => let r := fresh "r" in let Hr := fresh "Hr" in
      remember (wstep M (mkW T pcs a b) c) as r eqn:Hr; unfold wstep in Hr; cbn [w_pcs ch_w turn nth_error w_T w_steps w_rolls upd ch_stop ch_t negb Nat.add] in Hr; rewrite ?L, ?L2 in Hr; cbn [andb] in Hr; subst r end. reflexivity. }
  rewrite E. split; [intros pc [<-|[<-|[]]]; reflexivity|]. cbn [w_T w_steps]. lia.
Qed.
Print Assumptions C53_final_refuted.

(** For all interleavings: with rollouts of 1 to M steps, the counter overshoots the limit by less than M per worker, and the loops end: the
    number of rollouts all workers make together is bounded. *)
Theorem C53_bounded : forall limit M k T0 cs, T0 < limit -> fair_lengths M cs -> let s := wrun limit (wstart T0 k) cs in
  w_T s <= limit - 1 + M * k /\ w_rolls s <= k * (k + 1) ^ (limit - 1 + M * k - T0) + k.
Proof. intros limit M k T0 cs H F. apply bounded_run; auto. lia. Qed.
Print Assumptions C53_bounded.
Example C53_bounded_ex : fair_lengths 4 (repeat (turn 0 4) 20) /\ w_rolls (wrun 10 (wstart 0 1) (repeat (turn 0 4) 20)) = 3.
Proof. split; [intros c H; apply repeat_spec in H; subst; cbn; lia|reflexivity]. Qed.
(** Without interruptions the total number of steps is bounded by limit - 1 - T0 + M k, and a worker that stops without having reached the
    reward threshold stops because the counter has reached the limit. *)
Theorem C53_stop_partial : forall limit M k T0 cs, T0 < limit -> fair_lengths M cs -> uninterrupted limit (wstart T0 k) cs -> no_threshold cs ->
  let s := wrun limit (wstart T0 k) cs in T0 + w_steps s <= limit - 1 + M * k + pending s /\ ((exists i, nth_error (w_pcs s) i = Some WDone) -> limit <= w_T s).
Proof.
  intros limit M k T0 cs H F U NT s. split.
  - destruct (C53_bounded limit M k T0 cs H F) as [A _]. pose proof (exact_run _ _ _ _ U) as B. fold s in A. cbv zeta in B. fold s in B. lia.
  - intros [i Q]. exact (@stopped_run limit T0 k cs U NT i Q).
Qed.
Print Assumptions C53_stop_partial.
Example C53_stop_ex : uninterrupted 10 (wstart 0 1) (repeat (turn 0 4) 20) /\ no_threshold (repeat (turn 0 4) 20) /\ nth_error (w_pcs (wrun 10 (wstart 0 1) (repeat (turn 0 4) 20))) 0 = Some WDone.
Proof.
  split; [apply single_uninterrupted; [reflexivity|]; intros c H; apply repeat_spec in H; now subst|]. split; [intros c H; apply repeat_spec in H; now subst|reflexivity].
Qed.

(** * C78: rollout *)

(** A rollout makes at least one and at most max_episode_steps steps, each traced once with what the policy and the environment returned,
    in order; only the last call may carry the done flag, and it does unless max_episode_steps was reached first. *)
Theorem C78_rollout : forall E P S A (reset : E -> E * S) (step : E -> A -> E * (S * R * bool * bool)) (pi : P -> S -> P * (A * R)) n e p e' p' cs, rollout reset step pi n e p = (e', p', cs) ->
  played step pi (fst (reset e)) p (snd (reset e)) cs e' p' /\ List.length cs <= n /\ (n <> 0 -> cs <> []) /\ (forall i c, nth_error cs i = Some c -> c_done c = true -> i = List.length cs - 1) /\
  ((exists c, last (map Some cs) None = Some c /\ c_done c = true) \/ List.length cs = n).
Proof.
  intros E P S A reset step pi n e p e' p' cs H. unfold rollout in H. destruct (reset e) as [e1 s]. cbn [fst snd]. split; [now apply roll_played with (n := n)|]. exact (roll_flags step pi n e1 p s H).
Qed.
Print Assumptions C78_rollout.
(** A corridor of length 5 with observation = position; the policy goes right and counts its calls. *)
Definition corridor_reset (e : nat) : nat * nat := (0, 0).
Definition corridor_step (e : nat) (a : nat) : nat * (nat * R * bool * bool) := (e + a, (e + a, INR e, Nat.leb 5 (e + a), false)).
Definition go_right (p : nat) (s : nat) : nat * (nat * R) := (p + 1, (1, 0%R)).
Example C78_rollout_ex : map (@c_s nat nat) (snd (rollout corridor_reset corridor_step go_right 9 3 0)) = [0; 1; 2; 3; 4] /\ map (@c_done nat nat) (snd (rollout corridor_reset corridor_step go_right 9 3 0)) = [false; false; false; false; true].
Proof. split; reflexivity. Qed.
(** If the environment's clock truncates an episode at max_episode_steps (TimeLimit), then the trace calls of any number of rollouts in a
    row are cut by the tracer into exactly these rollouts, with nothing left over. *)
Theorem C78_rollouts_are_episodes : forall E P S A (reset : E -> E * S) (step : E -> A -> E * (S * R * bool * bool)) (pi : P -> S -> P * (A * R)) (clock : E -> nat) n,
  (forall e e1 s, reset e = (e1, s) -> clock e1 = 0) -> (forall e a e1 s r d tr, step e a = (e1, (s, r, d, tr)) -> clock e1 = Datatypes.S (clock e) /\ (n <= clock e1 -> d || tr = true)) -> n <> 0 ->
  forall k e p e' p' css, rollouts reset step pi k n e p = (e', p', css) -> List.length css = k /\ cut [] (map as_add (List.concat css)) = (map (map as_step) css, []).
Proof. intros E P S A reset step pi clock n HR HS Hn. exact (rollouts_cut reset step pi clock HR HS Hn). Qed.
Print Assumptions C78_rollouts_are_episodes.
(** The corridor with a clock in its state. *)
Definition clocked_reset (e : nat * nat) : (nat * nat) * nat := ((0, 0), 0).
Definition clocked_step (n : nat) (e : nat * nat) (a : nat) : (nat * nat) * (nat * R * bool * bool) := ((fst e + a, Datatypes.S (snd e)), (fst e + a, INR (fst e), Nat.leb 5 (fst e + a), Nat.leb n (Datatypes.S (snd e)))).
Example C78_rollouts_are_episodes_ex : forall k e p e' p' css, rollouts clocked_reset (clocked_step 3) go_right k 3 e p = (e', p', css) -> List.length css = k /\ cut [] (map as_add (List.concat css)) = (map (map as_step) css, []).
Proof.
  apply (C78_rollouts_are_episodes (nat * nat) nat nat nat clocked_reset (clocked_step 3) go_right snd 3); [| |lia].
  - intros e e1 s H. injection H as <- <-. reflexivity.
  - intros e a e1 s r d tr H. unfold clocked_step in H. remember (Nat.leb 3 (Datatypes.S (snd e))) as b eqn:Hb. injection H as <- <- <- <- <-. cbn [snd]. split; [reflexivity|]. intros L. apply orb_true_intro. right. subst b. now apply Nat.leb_le.
Qed.
(** Without such a clock (env.spec.max_episode_steps is set, but the environment does not truncate) the tracer never learns that the episode
    was cut, and the steps of two rollouts become one episode. *)
Theorem C78_cut_refuted : exists (reset : nat -> nat * nat) step (pi : nat -> nat -> nat * (nat * R)) n css e' p', rollouts reset step pi 2 n 0 0 = (e', p', css) /\ map (@List.length _) css = [n; n] /\
  cut [] (map as_add (List.concat css)) = ([], map as_step (List.concat css)) /\ n <> 0.
Proof.
  exists corridor_reset, corridor_step, go_right, 3. exists (snd (rollouts corridor_reset corridor_step go_right 2 3 0 0)). exists 3, 6. split; [reflexivity|]. split; [reflexivity|]. split; [reflexivity|lia].
Qed.
Print Assumptions C78_cut_refuted.

(** * C79: buffer_sample *)

(** buffer_sample goes on to sample as soon as it observes a buffer of at least max(buffer_warmup or 0, batch_size) transitions, and not
    before; between observations it sleeps 2^j/1024 s, at most 30 s. *)
Lemma needed_serves : forall warmup batch len, needed warmup batch <= len <-> serves warmup batch len.
Proof.
  intros [w|] batch len; unfold needed, serves.
  - split; [intros H; split; [lia|]; intros w' E; injection E as <-; lia|]. intros [H1 H2]. specialize (H2 w eq_refl). lia.
  - split; [intros H; split; [lia|discriminate]|]. intros [H1 _]. lia.
Qed.
Theorem C79_waits_until_filled : forall fuel warmup batch lens ws, wait_for_buffer fuel warmup batch lens = Some ws ->
  serves warmup batch (lens (List.length ws)) /\ (forall j, j < List.length ws -> ~ serves warmup batch (lens j)) /\ (forall j a, nth_error ws j = Some a -> a = Z.min (30 * 1024) (2 ^ Z.of_nat j)).
Proof.
  intros fuel warmup batch lens ws H. destruct (wait_some _ _ _ _ _ H) as (A & _ & C). split; [now apply needed_serves|]. split; [intros j J S; apply needed_serves in S; specialize (C j J); cbn in C; lia|]. intros j a J. exact (wait_exact _ _ _ _ H J).
Qed.
Print Assumptions C79_waits_until_filled.
Example C79_waits_until_filled_ex : wait_for_buffer 10 (Some 3) 2 (fun k => k) = Some [1; 2; 4]%Z /\ serves (Some 3) 2 3 /\ ~ serves (Some 3) 2 2.
Proof. split; [reflexivity|]. split; [split; [lia|intros w E; injection E as <-; lia]|]. intros [_ H]. specialize (H 3 eq_refl). lia. Qed.
(** It returns (within j+1 observations) if the j-th observed length suffices. *)
Theorem C79_returns : forall fuel warmup batch lens j, j < fuel -> serves warmup batch (lens j) -> exists ws, wait_for_buffer fuel warmup batch lens = Some ws.
Proof. intros fuel warmup batch lens j J H. apply needed_serves in H. exact (@wait_ends fuel (needed warmup batch) lens 0 1%Z j J H). Qed.
Print Assumptions C79_returns.
Example C79_returns_ex : exists ws, wait_for_buffer 6 None 5 (fun k => k) = Some ws.
Proof. apply (C79_returns 6 None 5 (fun k => k) 5); [lia|split; [lia|discriminate]]. Qed.
(** With a buffer whose capacity is below the warmup or the batch size it waits for ever. *)
Theorem C79_small_buffer_refuted : forall warmup batch lens cap, (forall k, lens k <= cap) -> ~ serves warmup batch cap -> forall fuel, wait_for_buffer fuel warmup batch lens = None.
Proof.
  intros warmup batch lens cap H C fuel. destruct (wait_for_buffer fuel warmup batch lens) as [ws|] eqn:E; auto. destruct (C79_waits_until_filled _ _ _ _ _ E) as [A _]. specialize (H (List.length ws)). exfalso. apply C. apply needed_serves in A. apply needed_serves. lia.
Qed.
Print Assumptions C79_small_buffer_refuted.
Example C79_small_buffer_ex : forall fuel, wait_for_buffer fuel None 32 (fun k => Nat.min k 16) = None.
Proof. apply (C79_small_buffer_refuted None 32 (fun k => Nat.min k 16) 16); [intros; lia|intros [H _]; lia]. Qed.
(** Sampling through a parameter store: the store waits again with its own buffer_warmup.  With a warmup that needs at most as many
    transitions as the worker's it never sleeps; with a larger one it can block, and since it does nothing else meanwhile, for ever. *)
Theorem C79_store_does_not_wait : forall fuel warmup store_warmup batch lens ws len', 0 < fuel -> wait_for_buffer fuel warmup batch lens = Some ws -> (forall len, serves warmup batch len -> serves store_warmup batch len) -> lens (List.length ws) <= len' ->
  remote_sample fuel warmup store_warmup batch lens len' = Some (ws, []).
Proof.
  intros fuel warmup store_warmup batch lens ws len' F H N L. unfold remote_sample. rewrite H. destruct (C79_waits_until_filled _ _ _ _ _ H) as [A _]. destruct fuel as [|fuel]; [lia|]. unfold wait_for_buffer. cbn [wait_loop]. assert (Q : Nat.ltb len' (needed store_warmup batch) = false) by (apply Nat.ltb_ge; apply N in A; apply needed_serves in A; lia). now rewrite Q.
Qed.
Print Assumptions C79_store_does_not_wait.
Example C79_store_does_not_wait_ex : remote_sample 10 (Some 3) None 2 (fun k => k) 3 = Some ([1; 2; 4]%Z, []).
Proof. apply C79_store_does_not_wait; cbn; auto; try lia. intros len [H _]. split; [lia|discriminate]. Qed.
Theorem C79_store_blocks_refuted : forall warmup store_warmup batch lens len', ~ serves store_warmup batch len' -> forall fuel, remote_sample fuel warmup store_warmup batch lens len' = None.
Proof.
  intros warmup store_warmup batch lens len' H fuel. unfold remote_sample. destruct (wait_for_buffer fuel warmup batch lens); auto. now rewrite (C79_small_buffer_refuted store_warmup batch (fun _ => len') len').
Qed.
Print Assumptions C79_store_blocks_refuted.
Example C79_store_blocks_ex : wait_for_buffer 100 None 2 (fun k => k) = Some [1; 2]%Z /\ forall fuel, remote_sample fuel None (Some 50) 2 (fun k => k) 2 = None.
Proof. split; [reflexivity|]. apply C79_store_blocks_refuted. intros [_ H]. specialize (H 50 eq_refl). lia. Qed.

(** * C80: attribute names *)

(** Reading a dotted name gives the attribute at the end of the path, with or without default; if there is none, AttributeError. *)
Theorem C80_get : forall v n ns, dotless n -> Forall dotless ns ->
  (forall w d, at_path v (n :: ns) w -> getattr_recursive v (dotted n ns) d = Ok w) /\ (forall w, getattr_recursive v (dotted n ns) None = Ok w -> at_path v (n :: ns) w) /\
  ((forall w, ~ at_path v (n :: ns) w) -> getattr_recursive v (dotted n ns) None = Err EAttribute).
Proof.
  intros v n ns H F. unfold getattr_recursive. rewrite split_dotted by auto. split; [|split].
  - intros w d. apply get_path_spec.
  - apply (get_path_spec ns v n None).
  - apply (get_path_spec ns v n None).
Qed.
Print Assumptions C80_get.
Definition a_worker : val := VObj [("env", VObj [("T", VInt 7); ("name", VInt 1)]); ("buffer_warmup", VInt 50)]%string.
Lemma dotless_env : dotless "env" /\ Forall dotless ["T"%string].
Proof. split; [|repeat constructor]; unfold dotless; cbn; intuition discriminate. Qed.
Example C80_get_ex : getattr_recursive a_worker "env.T" None = Ok (VInt 7) /\ dotted "env" ["T"%string] = "env.T"%string /\ at_path a_worker ["env"; "T"]%string (VInt 7).
Proof. split; [reflexivity|]. split; [reflexivity|]. repeat (econstructor; [reflexivity|]). constructor. Qed.
(** After a successful assignment the name reads back as the assigned value, and every name that is neither above nor below it on the path is
    unaffected.  A failing assignment is an AttributeError. *)
Theorem C80_set : forall v n ns x, dotless n -> Forall dotless ns ->
  (forall v', setattr_recursive v (dotted n ns) x = Ok v' -> (forall d, getattr_recursive v' (dotted n ns) d = Ok x) /\ forall q w, apart (n :: ns) q -> (at_path v q w <-> at_path v' q w)) /\
  ((exists v', setattr_recursive v (dotted n ns) x = Ok v') \/ setattr_recursive v (dotted n ns) x = Err EAttribute).
Proof.
  intros v n ns x H F. unfold setattr_recursive. rewrite split_dotted by auto. split.
  - intros v' E. split.
    + intros d. destruct (C80_get v' n ns H F) as [G _]. apply G. now apply set_path_get with (v := v).
    + intros q w AP. exact (@set_path_frame ns v n x v' q w E AP).
  - apply set_path_fails.
Qed.
Print Assumptions C80_set.
Example C80_set_ex : exists v', setattr_recursive a_worker "env.T" (VInt 12) = Ok v' /\ getattr_recursive v' "env.T" None = Ok (VInt 12) /\ getattr_recursive v' "env.name" None = Ok (VInt 1) /\ apart ["env"; "T"]%string ["env"; "name"]%string.
Proof. eexists. split; [reflexivity|]. split; [reflexivity|]. split; [reflexivity|]. exists 1, "T"%string, "name"%string. repeat split. discriminate. Qed.
(** A default is used for the last component only: a missing attribute further up raises although a default was given. *)
Theorem C80_default : forall v n ns d, dotless n -> Forall dotless ns -> (forall w, ~ at_path v (n :: ns) w) ->
  getattr_recursive v (dotted n ns) (Some d) = Ok d \/ getattr_recursive v (dotted n ns) (Some d) = Err EAttribute.
Proof.
  intros v n ns d H F NP. unfold getattr_recursive. rewrite split_dotted by auto. revert v n H NP. induction ns as [|m ns IH]; intros v n H NP; cbn [get_path].
  - destruct (get1 v n) as [u|] eqn:G; [|auto]. exfalso. apply (NP u). now apply get1_ok.
  - destruct (get1 v n) as [u|e] eqn:G.
    + cbn [bind]. inversion F; subst. apply IH; auto. intros w Q. apply (NP w). apply at_cons. eauto.
    + right. destruct v as [z|attrs]; cbn in G; [now injection G as <-|]. destruct (lookup attrs n); [discriminate|]. now injection G as <-.
Qed.
Print Assumptions C80_default.
Example C80_default_ex : getattr_recursive a_worker "env.t" (Some (VInt 0)) = Ok (VInt 0).
Proof. reflexivity. Qed.
Theorem C80_default_refuted : exists v n ns d, dotless n /\ Forall dotless ns /\ (forall w, ~ at_path v (n :: ns) w) /\ getattr_recursive v (dotted n ns) (Some d) <> Ok d.
Proof.
  exists (VObj []), "env"%string, ["T"%string], (VInt 0). destruct dotless_env. split; auto. split; auto. split; [intros w Q; inversion Q; discriminate|]. discriminate.
Qed.
Print Assumptions C80_default_refuted.

(** * C81: learners *)

(** With one learner the state in the parameter store has learned from every batch used, in order (up to one that is being pushed). *)
Theorem C81_single_learner : forall St B (learn : St -> B -> St) x0 cs, let s := lsys_run learn (lsys_start B x0 1) cs in
  (forall i x, nth_error (ls_pcs s) i <> Some (LLearned x)) -> learned learn x0 (ls_used s) (ls_store s).
Proof.
  intros St B learn x0 cs s H. destruct (lsys_single learn x0 cs) as [[_ L]|[[_ L]|(x & E & _)]]; auto. exfalso. apply (H 0 x). unfold s. rewrite E. reflexivity.
Qed.
Print Assumptions C81_single_learner.
Example C81_single_learner_ex : ls_store (lsys_run (fun x b => x * 10 + b) (lsys_start nat 0 1) [(0, 1); (0, 1); (0, 1); (0, 2); (0, 2); (0, 2)]) = 12.
Proof. reflexivity. Qed.
(** With any number of learners in any interleaving, every state that is stored or held has learned from some of the batches used, in order:
    there are no mixtures of states. *)
Theorem C81_no_mixed_states : forall St B (learn : St -> B -> St) x0 k cs x, lheld (lsys_run learn (lsys_start B x0 k) cs) x ->
  exists bs, subseq bs (ls_used (lsys_run learn (lsys_start B x0 k) cs)) /\ learned learn x0 bs x.
Proof. exact lsys_reach. Qed.
Print Assumptions C81_no_mixed_states.
Example C81_no_mixed_states_ex : lheld (lsys_run (fun x b => x * 10 + b) (lsys_start nat 0 2) [(0, 1); (0, 1); (1, 3); (1, 3); (0, 1)]) 1 /\ lheld (lsys_run (fun x b => x * 10 + b) (lsys_start nat 0 2) [(0, 1); (0, 1); (1, 3); (1, 3); (0, 1)]) 3.
Proof. split; [now left|]. right. exists 1. now right. Qed.
(** With two learners updates can be lost: for every N there is a schedule in which N + 1 batches are used and all but one are lost. *)
Theorem C81_lost_updates_refuted : forall St B (learn : St -> B -> St) x0 (b : B) (bs : list B), exists cs, let s := lsys_run learn (lsys_start B x0 2) cs in
  ls_used s = b :: bs /\ ls_store s = learn x0 b /\ ls_pcs s = [LIdle St; LIdle St].
Proof.
  intros St B learn x0 b bs. exists ((0, b) :: (0, b) :: flat_map (fun c => [(1, c); (1, c); (1, c)]) bs ++ [(0, b)]). cbv zeta. unfold lsys_run. cbn [fold_left lsys_start lsys_step repeat ls_pcs nth_error upd ls_store ls_used app].
  assert (G : forall bs us x, fold_left (lsys_step learn) (flat_map (fun c => [(1, c); (1, c); (1, c)]) bs) (mkLS x [LLearned (learn x0 b); LIdle St] us) = mkLS (fold_left learn bs x) [LLearned (learn x0 b); LIdle St] (us ++ bs)).
  { clear bs. induction bs as [|c bs IH]; intros us x; [cbn; now rewrite app_nil_r|]. cbn [flat_map]. rewrite fold_left_app. cbn [fold_left lsys_step ls_pcs nth_error upd ls_store ls_used]. rewrite IH. cbn [fold_left]. now rewrite <- app_assoc. }
  rewrite fold_left_app, G. cbn. auto.
Qed.
Print Assumptions C81_lost_updates_refuted.
