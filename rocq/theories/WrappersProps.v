(** Properties C31-C36, C60 and C61: environment wrappers. *)
From Coq Require Import List ZArith Lia Bool Reals Lra.
From Verif Require Import PyCommon CommonProofs UtilsModel UtilsSpec UtilsProofs2 UtilsProofs3 WrappersModel WrappersSpec WrappersProofs WrappersProofs2.
Import ListNotations.

(** C31: whatever happened before, after a reset with observation o and steps os the frames are the last n elements of n copies
    of o followed by os. *)
Theorem C31_frames : forall Obs n pre (o : Obs) os, 1 <= n ->
  fs_run n [] (pre ++ FReset o :: map (@FStep Obs) os) = lastn n (repeat o n ++ os) /\ length (fs_run n [] (pre ++ FReset o :: map (@FStep Obs) os)) = n.
Proof.
  intros Obs n pre o os H. rewrite (fs_spec pre o os H). split; auto. rewrite lastn_length, app_length, repeat_length. lia.
Qed.
Print Assumptions C31_frames.
(** C31: frame k of the tuple is the observation of n-1-k steps ago, or the first one. *)
Theorem C31_frame_k : forall Obs n pre (o : Obs) os k, 1 <= n -> k < n ->
  nth_error (fs_run n [] (pre ++ FReset o :: map (@FStep Obs) os)) k = (if Nat.ltb (length os + k) n then Some o else nth_error os (length os + k - n)).
Proof.
  intros Obs n pre o os k Hn Hk. rewrite (fs_spec pre o os Hn). unfold lastn. rewrite app_length, repeat_length. replace (n + length os - n) with (length os) by lia.
  assert (S : forall (l : list Obs) a b, nth_error (skipn a l) b = nth_error l (a + b)).
  { induction l as [|x l IH]; intros [|a] b; cbn; auto. now destruct b. }
  rewrite S. destruct (Nat.ltb_spec (length os + k) n) as [L|L].
  - rewrite nth_error_app1 by (rewrite repeat_length; lia). assert (R : forall m j, j < m -> nth_error (repeat o m) j = Some o) by (induction m; intros [|j] Hj; cbn; try lia; auto; apply IHm; lia). now apply R.
  - rewrite nth_error_app2, repeat_length by (rewrite repeat_length; lia). reflexivity.
Qed.
Print Assumptions C31_frame_k.
Theorem C31_rejects : forall Obs n, (n = 0 -> fs_new Obs n = Err EType) /\ (1 <= n -> fs_new Obs n = Ok []).
Proof. intros Obs [|n]; split; intros; auto; lia. Qed.
Print Assumptions C31_rejects.
Example C31_example : fs_run 3 [] ([FReset 7; FStep 8; FStep 9] ++ FReset 1 :: map (@FStep nat) [2]) = [1; 1; 2].
Proof. reflexivity. Qed.

Local Open Scope R_scope.

(** C32: the counters after any history whose current episode is [post]. *)
Theorem C32_counters : forall s es post, (1 <= s)%nat -> current_episode es post -> let m := mon_run s mon_new es in let c := m_c m in
  c_T c = (count is_step es + count is_reset es)%nat /\ c_ep c = count is_reset es /\
  c_t c = count is_step post /\ c_G c = rewards_total post /\
  (avg_r m = if Nat.eqb (count is_step post) 0 then None else Some (rewards_total post / INR (count is_step post))) /\
  c_avg_G c = smooth s 0 0 (end_returns 0 es).
Proof. exact (fun s es post H E => @monitor_counters s es post H E). Qed.
Print Assumptions C32_counters.
(** C32: the numbers that step writes into info['monitor'], T and ep. *)
Theorem C32_info : forall s es, (1 <= s)%nat -> mon_info (mon_run s mon_new es) = ((count is_step es + count is_reset es)%nat, count is_reset es).
Proof.
  intros s es H. assert (E : exists post, current_episode es post).
  { induction es as [|e es [post [H1 H2]]] using rev_ind; [exists []; split; [intros e []|now left]|]. destruct (is_reset e) eqn:R.
    - exists []. split; [intros e' []|]. right. exists es. destruct e; try discriminate. reflexivity.
    - exists (post ++ [e]). split; [intros e' He; apply in_app_or in He; destruct He as [He|[<-|[]]]; auto|]. destruct H2 as [->|[pre ->]]; [now left|right; exists pre; now rewrite <- app_assoc]. }
  destruct E as [post E]. destruct (@monitor_counters s es post H E) as [ET [EP _]]. unfold mon_info. now rewrite ET, EP.
Qed.
Print Assumptions C32_info.
Example C32_info_ex : mon_info (mon_run 10 mon_new [MReset; MStep 0%Z 0 0%nat 1 true; MReset; MStep 0%Z 0 0%nat 1 false]) = (4%nat, 2%nat).
Proof. reflexivity. Qed.
(** C32: every history has such a decomposition. *)
Theorem C32_total : forall es, exists post, current_episode es post.
Proof.
  induction es as [|e es [post [H1 H2]]] using rev_ind; [exists []; split; [intros e []|now left]|]. destruct (is_reset e) eqn:R.
  - exists []. split; [intros e' []|]. right. exists es. destruct e; try discriminate. reflexivity.
  - exists (post ++ [e]). split; [intros e' He; apply in_app_or in He; destruct He as [He|[<-|[]]]; auto|].
    destruct H2 as [->|[pre ->]]; [now left|right; exists pre; now rewrite <- app_assoc].
Qed.
Print Assumptions C32_total.
(** While no more than [smoothing] episodes have ended, avg_G is their plain mean. *)
Lemma smooth_first : forall s xs n avg, (n + length xs <= s)%nat -> (1 <= n + length xs)%nat -> smooth s n avg xs = (INR n * avg + total xs) / INR (n + length xs).
Proof.
  intros s. induction xs as [|x xs IH]; intros n avg H1 H2.
  - cbn [smooth length] in *. rewrite Nat.add_0_r in *. change (total []) with 0. assert (0 < INR n) by (apply lt_0_INR; lia). field. lra.
  - cbn [smooth length] in *. rewrite Nat.min_r by lia. rewrite IH by lia. rewrite total_cons. replace (n + S (length xs))%nat with (n + 1 + length xs)%nat by lia.
    rewrite (plus_INR n 1). cbn [INR]. assert (0 <= INR n) by apply pos_INR. assert (0 < INR (n + 1 + length xs)) by (apply lt_0_INR; lia). field. lra.
Qed.
Theorem C32_avg_G_mean : forall s es post, (1 <= length (end_returns 0 es))%nat -> (length (end_returns 0 es) <= s)%nat -> current_episode es post ->
  c_avg_G (m_c (mon_run s mon_new es)) = mean (end_returns 0 es).
Proof.
  intros s es post H1 H2 H. assert (Hs : (1 <= s)%nat) by lia. destruct (monitor_counters Hs H) as [_ [_ [_ [_ [_ ->]]]]]. rewrite smooth_first by lia. unfold mean. cbn [INR Nat.add]. f_equal. lra.
Qed.
Print Assumptions C32_avg_G_mean.
Definition ex_step (r : R) (d : bool) : mon_event := MStep 0%Z 0 0%nat r d.
Definition ex_history : list mon_event := [MReset; ex_step 1 false; ex_step 2 true; MReset; ex_step 5 false; MRecord [(0%nat, 1)]; ex_step 7 false].
Example C32_example : current_episode ex_history [ex_step 5 false; MRecord [(0%nat, 1)]; ex_step 7 false] /\
  c_T (m_c (mon_run 10 mon_new ex_history)) = 6%nat /\ c_G (m_c (mon_run 10 mon_new ex_history)) = 12 /\ c_avg_G (m_c (mon_run 10 mon_new ex_history)) = 3.
Proof.
  split; [|split; [reflexivity|split; [cbn; lra|cbn; field]]]. split.
  - intros e [<-|[<-|[<-|[]]]]; reflexivity.
  - right. exists [MReset; ex_step 1 false; ex_step 2 true]. reflexivity.
Qed.
(** C32, documented "Global step counter": T is not the number of steps. *)
Theorem C32_T_counts_steps_refuted : exists es, c_T (m_c (mon_run 10 mon_new es)) <> count is_step es.
Proof. exists [MReset]. cbn. lia. Qed.
Print Assumptions C32_T_counts_steps_refuted.
(** C32, documented "averaged over the past 100 episodes": not the mean of the returns of eleven episodes with the default smoothing. *)
Lemma smooth_zeros : forall s k n xs, (n <= s)%nat -> smooth s n 0 (repeat 0 k ++ xs) = smooth s (Nat.min s (n + k)) 0 xs.
Proof.
  intros s. induction k as [|k IH]; intros n xs H; [now rewrite Nat.add_0_r, Nat.min_r by lia|]. cbn [repeat app smooth].
  replace (0 + (0 - 0) / INR (Nat.min s (n + 1))) with 0 by (unfold Rdiv; lra). rewrite IH by lia. f_equal. lia.
Qed.
Theorem C32_avg_over_100_refuted : exists es, (length (end_returns 0 es) <= 100)%nat /\ c_avg_G (m_c (mon_run 10 mon_new es)) <> mean (end_returns 0 es).
Proof.
  set (ep := fun r => [MReset; ex_step r true]). exists (concat (repeat (ep 0) 10) ++ ep 1). split; [cbn; lia|].
  assert (C : current_episode (concat (repeat (ep 0) 10) ++ ep 1) [ex_step 1 true]).
  { split; [intros e [<-|[]]; reflexivity|]. right. exists (concat (repeat (ep 0) 10)). reflexivity. }
  destruct (@monitor_counters 10 _ _ ltac:(lia) C) as [_ [_ [_ [_ [_ ->]]]]]. 
  assert (R : end_returns 0 (concat (repeat (ep 0) 10) ++ ep 1) = repeat 0 10 ++ [1]) by (cbn; rewrite !Rplus_0_l; reflexivity).
  rewrite R, smooth_zeros by lia. unfold mean. rewrite total_app. cbn. lra.
Qed.
Print Assumptions C32_avg_over_100_refuted.

(** C33: however often period(name, T_period=p) (or ep_period=p) is asked, it returns True at most T//p (ep//p) times. *)
Theorem C33_never_too_often : forall s ck name p es, (1 <= p)%nat -> (forall e, In e es -> asks name e -> e = ask ck name p) ->
  (fires s mon_new name es <= clock_value ck (mon_run s mon_new es) / p)%nat.
Proof. exact period_bound. Qed.
Print Assumptions C33_never_too_often.
(** C33: when asked at least once per p increments of the counter, it has returned True exactly once per multiple of p reached,
    at the first poll after it was reached (the statement holds after every poll). *)
Theorem C33_once_per_period : forall s ck name p chunks, (1 <= p)%nat ->
  (forall c, In c chunks -> (forall e, In e c -> ~ asks name e) /\ (count (ticks ck) c <= p)%nat) ->
  let es := flat_map (fun c => c ++ [ask ck name p]) chunks in fires s mon_new name es = (clock_value ck (mon_run s mon_new es) / p)%nat.
Proof. exact period_exact. Qed.
Print Assumptions C33_once_per_period.
(** C33: missed periods are caught up, one per poll. *)
Theorem C33_catches_up : forall s ck name p es n, (1 <= p)%nat -> (forall e, In e es -> asks name e -> e = ask ck name p) ->
  fires s mon_new name (es ++ repeat (ask ck name p) n) = Nat.min (fires s mon_new name es + n) (clock_value ck (mon_run s mon_new es) / p).
Proof. exact period_catch_up. Qed.
Print Assumptions C33_catches_up.
(** C33: other names have no influence, and a period of 0 is an error. *)
Theorem C33_zero_rejected : forall m name epp, snd (mon_period m name (Some 0%nat) epp) = Err EAssertion /\ snd (mon_period m name None (Some 0%nat)) = Err EAssertion.
Proof. intros. split; reflexivity. Qed.
Print Assumptions C33_zero_rejected.
Example C33_example :
  let chunks := [[MReset; ex_step 1 false]; [ex_step 1 false; MPeriod 1 (Some 5%nat) None]; [ex_step 1 false; ex_step 1 true]] in
  (forall c, In c chunks -> (forall e, In e c -> ~ asks 0 e) /\ (count (ticks ClockT) c <= 2)%nat) /\
  fires 10 mon_new 0 (flat_map (fun c => c ++ [ask ClockT 0 2]) chunks) = 2%nat.
Proof.
  split; [|reflexivity]. intros c [<-|[<-|[<-|[]]]]; (split; [|cbn; lia]); intros e [<-|[<-|[]]] [Tp [epp C]]; discriminate.
Qed.
(** C33, "polled after every step": with p = 1 one poll per step is too few, because reset also increments T. *)
Theorem C33_after_every_step_refuted : exists es, (forall e, In e es -> asks 0 e -> e = ask ClockT 0 1) /\
  es = [MReset; ex_step 0 false; ask ClockT 0 1] /\ fires 10 mon_new 0 es <> (clock_value ClockT (mon_run 10 mon_new es) / 1)%nat.
Proof.
  eexists. split; [|split; [reflexivity|cbn; lia]]. intros e [<-|[<-|[<-|[]]]] [Tp [epp C]]; try discriminate; reflexivity.
Qed.
Print Assumptions C33_after_every_step_refuted.
(** With p >= 2 one poll after every step is enough: between two polls at most one reset and one step. *)
Theorem C33_after_every_step : forall s name p chunks, (2 <= p)%nat ->
  (forall c, In c chunks -> exists e, is_step e = true /\ (c = [e] \/ c = [MReset; e])) ->
  let es := flat_map (fun c => c ++ [ask ClockT name p]) chunks in fires s mon_new name es = (clock_value ClockT (mon_run s mon_new es) / p)%nat.
Proof.
  intros s name p chunks Hp H. apply period_exact; [lia|]. intros c Hc. destruct (H c Hc) as [e [He [->| ->]]]; (split; [|rewrite ?count_one; cbn; destruct e; try discriminate; cbn; lia]).
  - intros e' [<-|[]] [Tp [epp C]]. subst. discriminate.
  - intros e' [<-|[<-|[]]] [Tp [epp C]]; subst; discriminate.
Qed.
Print Assumptions C33_after_every_step.

(** C34: the sample after n appends is a probability distribution over reservoirs of min(n, maxlen) distinct stream positions;
    each position is included with probability min(n, maxlen)/n. *)
Theorem C34_distribution : forall m n, (1 <= m)%nat -> is_dist (reservoir m n).
Proof.
  intros m n Hm. destruct (reservoir_total n Hm) as [H1 H2]. split; [exact H2|]. rewrite prob_E. exact H1.
Qed.
Print Assumptions C34_distribution.
Theorem C34_distinct_positions : forall m n w s, In (w, s) (reservoir m n) ->
  length (ss_items s) = Nat.min n m /\ NoDup (ss_items s) /\ (forall x, In x (ss_items s) -> (x < n)%nat).
Proof. intros m n w s H. apply reservoir_inv in H. destruct H as [_ [_ H]]. exact H. Qed.
Print Assumptions C34_distinct_positions.
Theorem C34_uniform : forall m n i, (1 <= m)%nat -> (i < n)%nat -> prob (reservoir m n) (has i) = INR (Nat.min n m) / INR n.
Proof. exact reservoir_prob. Qed.
Print Assumptions C34_uniform.
(** The two draws used in [append_dist] stand for all: append depends on the draw u only through u < maxlen/count. *)
Theorem C34_draws : forall (s : ss nat) x u i,
  let p := INR (ss_max s) / INR (S (ss_count s)) in
  (0 <= u < p -> ss_append s x u i = ss_append s x 0 i) /\ (p <= u -> ss_append s x u i = ss_append s x p 0).
Proof.
  intros s x u i p. split; intros H; unfold ss_append; fold p; destruct (Nat.ltb _ _); auto;
    repeat (match goal with |- context [Rlt_dec ?a ?b] => destruct (Rlt_dec a b) end); auto; lra.
Qed.
Print Assumptions C34_draws.
(** C34 for any items and any draws: size, and reset. *)
Theorem C34_size : forall A m xs, ss_count (appends (ss_new A m) xs) = length xs /\ length (ss_items (appends (ss_new A m) xs)) = Nat.min (length xs) m /\
  ss_reset (appends (ss_new A m) xs) = ss_new A m.
Proof.
  intros A m xs. destruct (@appends_len A m xs) as [H1 [H2 H3]]. split; [auto|split; [auto|]]. unfold ss_reset. now rewrite H1.
Qed.
Print Assumptions C34_size.
Example C34_example : prob (reservoir 2 3) (has 0) = INR 2 / INR 3.
Proof. apply (C34_uniform 2 3 0); lia. Qed.

(** C35: a snapshot through a file restores everything that the attributes contain, and all that follows is as if nothing had
    happened in between. *)
Theorem C35_file : forall s before between after,
  let m0 := mon_run s mon_new before in
  view (mon_run s (load_counters (mon_run s m0 between) (save_counters m0)) after) = view (mon_run s m0 after).
Proof. exact load_restores. Qed.
Print Assumptions C35_file.
(** The same when the snapshot is loaded by another monitor. *)
Theorem C35_file_fresh : forall s s' before other after, view (mon_run s (load_counters (mon_run s' mon_new other) (save_counters (mon_run s mon_new before))) after) = view (mon_run s (mon_run s mon_new before) after).
Proof.
  intros s s' before other after. destruct (mon_run_view s before new_valid) as [V0 _]. destruct (load_view (mon_run s' mon_new other) (mon_run s mon_new before)) as [L1 L2].
  destruct (mon_run_view s after L2) as [_ ->]. destruct (mon_run_view s after V0) as [_ ->]. now rewrite L1.
Qed.
Print Assumptions C35_file_fresh.
(** C35 in memory, [partial]: the numbers T, ep, t, G, avg_G are restored; missing: metrics, actions and periods, see below. *)
Theorem C35_memory_partial : forall s before between,
  let m0 := mon_run s mon_new before in let m1 := set_counters (mon_run s m0 between) (get_counters m0) in
  v_T (view m1) = v_T (view m0) /\ v_ep (view m1) = v_ep (view m0) /\ v_t (view m1) = v_t (view m0) /\ v_G (view m1) = v_G (view m0) /\
  v_avg_G (view m1) = v_avg_G (view m0) /\ v_n (view m1) = v_n (view m0).
Proof. intros. repeat split. Qed.
Print Assumptions C35_memory_partial.
(** C35 in memory is false: the snapshot shares the mutable attributes, so a poll that fired in between stays consumed, recorded
    metrics stay, and a reset has emptied the actions. *)
Theorem C35_memory_refuted : exists before between, let m0 := mon_run 10 mon_new before in let m1 := set_counters (mon_run 10 m0 between) (get_counters m0) in
  v_met (view m1) <> v_met (view m0) /\ ss_items (v_act (view m1)) <> ss_items (v_act (view m0)) /\ v_per (view m1) <> v_per (view m0) /\
  snd (mon_period m0 0 (Some 2%nat) None) = Ok true /\ snd (mon_period m1 0 (Some 2%nat) None) = Ok false.
Proof.
  exists [MReset; ex_step 0 false], [MPeriod 0 (Some 2%nat) None; MRecord [(0%nat, 1)]; MReset]. cbn. repeat split; discriminate.
Qed.
Print Assumptions C35_memory_refuted.
Example C35_example : let m0 := mon_run 10 mon_new ex_history in
  snd (mon_period (load_counters (mon_run 10 m0 [MPeriod 0 (Some 2%nat) None; MReset]) (save_counters m0)) 0 (Some 6%nat) None) = Ok true.
Proof. reflexivity. Qed.

Lemma big_eq : big = 10 ^ 15.
Proof. unfold big. cbn [pow]. lra. Qed.
(** C36: BoxActionsToReals: into the open interval, strictly increasing on [-1e15, 1e15], constant outside, and every value
    between the extremes is reached. *)
Theorem C36_reals : forall lo hi, lo < hi ->
  (forall a, lo < compactify lo hi a < hi) /\
  (forall a b, - (10 ^ 15) <= a -> a < b -> b <= 10 ^ 15 -> compactify lo hi a < compactify lo hi b) /\
  (forall a, 10 ^ 15 <= a -> compactify lo hi a = compactify lo hi (10 ^ 15)) /\ (forall a, a <= - (10 ^ 15) -> compactify lo hi a = compactify lo hi (- 10 ^ 15)).
Proof. rewrite <- big_eq. exact (fun lo hi H => @compactify_spec lo hi H). Qed.
Print Assumptions C36_reals.
Theorem C36_reals_onto : forall lo hi y, lo < hi -> compactify lo hi (- 10 ^ 15) <= y <= compactify lo hi (10 ^ 15) -> exists a, - (10 ^ 15) <= a <= 10 ^ 15 /\ compactify lo hi a = y.
Proof.
  rewrite <- big_eq. intros lo hi y H Hy. apply compactify_onto; auto. destruct (compactify_spec H) as [B _]. pose proof (B (- big)). pose proof (B big). lra.
Qed.
Print Assumptions C36_reals_onto.
(** C36: BoxActionsToDiscrete: bin k goes to the k-th of n equal parts; the part determines the bin. *)
Theorem C36_discrete : forall lo hi n k u, lo < hi -> (k < n)%nat -> 0 <= u < 1 ->
  lo + INR k / INR n * (hi - lo) <= discrete_to_box lo hi n k u < lo + INR (k + 1) / INR n * (hi - lo) /\ lo <= discrete_to_box lo hi n k u < hi.
Proof. exact discrete_to_box_spec. Qed.
Print Assumptions C36_discrete.
Theorem C36_discrete_recover : forall lo hi n k u k', lo < hi -> (k < n)%nat -> 0 <= u < 1 ->
  lo + INR k' / INR n * (hi - lo) <= discrete_to_box lo hi n k u < lo + INR (k' + 1) / INR n * (hi - lo) -> k' = k.
Proof. exact discrete_recover. Qed.
Print Assumptions C36_discrete_recover.
Theorem C36_discrete_onto : forall lo hi n y, lo < hi -> (1 <= n)%nat -> lo <= y < hi -> exists k u, (k < n)%nat /\ 0 <= u < 1 /\ discrete_to_box lo hi n k u = y.
Proof.
  intros lo hi n y H Hn Hy. set (z := (y - lo) / (hi - lo) * INR n). assert (N0 : 0 < INR n) by (apply lt_0_INR; lia).
  assert (Z : 0 <= z < INR n).
  { assert (P : 0 <= (y - lo) / (hi - lo) < 1); [|unfold z; split; nra]. split; [apply Rmult_le_pos; [lra|left; apply Rinv_0_lt_compat; lra]|].
    apply (Rmult_lt_reg_r (hi - lo)); [lra|]. unfold Rdiv. rewrite Rmult_assoc, Rinv_l by lra. lra. }
  destruct (archimed z) as [A1 A2]. set (j := (up z - 1)%Z). assert (J : IZR j <= z < IZR j + 1) by (unfold j; rewrite minus_IZR; lra).
  assert (J0 : (0 <= j)%Z). { assert ((-1 < j)%Z); [|lia]. apply lt_IZR. lra. } exists (Z.to_nat j), (z - IZR j).
  assert (EJ : INR (Z.to_nat j) = IZR j) by (rewrite INR_IZR_INZ, Z2Nat.id; auto). split; [|split; [lra|]].
  - apply INR_lt. rewrite EJ. lra.
  - unfold discrete_to_box. rewrite EJ. unfold z. field. lra.
Qed.
Print Assumptions C36_discrete_onto.
Theorem C36_num_bins : forall size, (forall n, init_nvec size (NInt n) = Ok (repeat n size)) /\
  (forall ns, length ns = size -> init_nvec size (NTuple ns) = Ok ns) /\ (forall ns, length ns <> size -> init_nvec size (NTuple ns) = Err EValue) /\ init_nvec size NOther = Err EType.
Proof.
  intros size. repeat split; intros ns H; cbn; destruct (Nat.eqb_spec (length ns) size); congruence.
Qed.
Print Assumptions C36_num_bins.
Example C36_example : discrete_to_box (-1) 1 4 2 (1/2) = 1/4 /\ compactify 0 2 0 = 1.
Proof.
  split; [unfold discrete_to_box; cbn; lra|]. unfold compactify. rewrite clip_in by (pose proof big_pos; lra). unfold sigmoid. rewrite Ropp_0, exp_0. lra.
Qed.

(** C60: the metrics of a monitor are the means of what was recorded since the last reset. *)
Theorem C60_metrics : forall s es post k, current_episode es post ->
  dget k (get_metrics (mon_run s mon_new es)) = match recorded k post with [] => None | xs => Some (mean xs) end.
Proof. exact monitor_metrics. Qed.
Print Assumptions C60_metrics.
Example C60_example : let es := [MReset; MRecord [(0%nat, 100)]; MReset; MRecord [(0%nat, 1); (1%nat, 5)]; ex_step 0 false; MRecord [(0%nat, 2)]] in
  current_episode es [MRecord [(0%nat, 1); (1%nat, 5)]; ex_step 0 false; MRecord [(0%nat, 2)]] /\ dget 0 (get_metrics (mon_run 10 mon_new es)) = Some ((1 + 2) / (1 + 1)).
Proof.
  split; [|reflexivity]. split; [intros e [<-|[<-|[<-|[]]]]; reflexivity|]. right. exists [MReset; MRecord [(0%nat, 100)]]. reflexivity.
Qed.

(** C61: with an inner environment that returns an info dict, a_orig lists the converted actions of all wrappers, innermost
    first. *)
Theorem C61_a_orig : forall A (ws : list (A -> A)) info0 a, (forall b, info0 b = Some None) -> ws <> [] -> nested_step ws info0 a = Some (Some (rev (converted ws a))).
Proof. exact nested_dict. Qed.
Print Assumptions C61_a_orig.
(** C61 fails when the environment returns info = None: the entry is lost. *)
Theorem C61_none_refuted : exists (ws : list (nat -> nat)) info0 a, ws <> [] /\ (forall b, info0 b = None) /\ nested_step ws info0 a = None.
Proof. exists [S], (fun _ => None), 0%nat. repeat split. discriminate. Qed.
Print Assumptions C61_none_refuted.
Example C61_example : nested_step [fun a => a + 1; fun a => a * 10]%nat (fun _ => Some None) 3%nat = Some (Some [40; 4]%nat).
Proof. reflexivity. Qed.
