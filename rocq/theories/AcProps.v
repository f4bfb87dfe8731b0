(** Property C119: actor-critic training with n-step TD errors as advantages (A2C). *)
From Coq Require Import List Lia Bool Arith Reals Lra.
From Verif Require Import PyCommon CommonProofs UtilsModel UtilsSpec UtilsProofs2 UtilsProofs3 WrappersProofs DistModel DistSpec DistProofs LossModel LossSpec LossProofs QModel TDModel TDSpec TDProofs TDProofs3 CoreModel CoreSpec CoreProofs CoreProofs2 TracerModel TracerSpec TracerProofs WorkerModel PolicyModel PolicySpec PolicyProofs PolicyProofs4 LearnModel LearnProofs2 LearnProofs3 PgModel PgSpec PgProofs PgProofs2 PgProofs3 PgProofs4 AcModel AcSpec PgProps AcProofs AcProofs2 AcProofs3.
Import ListNotations.
Local Open Scope R_scope.

(** ** C119: the loop *)
(** C119: one episode changes the parameters one step after the other, in order of time, each with the parameters left by the one before
    ([ac_after]): with d the difference between the n-step target (bootstrapped from the target network, if there is one) and the prediction, clipped
    for the Huber loss, the critic moves by lrv d grad v, the actor by lrp d grad ln pi, and the target network by the fraction tau towards the new
    critic. The tracer is empty afterwards and no exception is raised. *)
Theorem C119_episode : forall nA Nv N vnet slope loss pull vgrads dgrads net score grads sub tau gamma n p,
  smooth_value Nv vnet slope -> pulls_by loss pull -> v_differentiates Nv vnet loss vgrads -> d_differentiates loss dgrads -> smooth_policy nA N net score -> pg_differentiates nA N net grads ->
  (1 <= n)%nat -> 0 <= gamma <= 1 -> par_sized Nv N p ->
  ac_trains nA vnet loss vgrads dgrads net grads sub tau n gamma p (fun lrv lrp => ac_after Nv N vnet slope score pull lrv lrp tau gamma n p).
Proof. intros. now apply after_trains. Qed.
Print Assumptions C119_episode.

(** C119: all hypotheses can be met: for mean squared errors and Huber losses, gradients exist for all differentiable value networks, for example
    for linear layers on one-hot encoded observations, which are tables. *)
Theorem C119_critics : forall Nv vnet slope loss pull, smooth_value Nv vnet slope -> pulls_by loss pull -> (exists vgrads, v_differentiates Nv vnet loss vgrads) /\ exists dgrads, d_differentiates loss dgrads.
Proof. intros. split; [eapply v_grads_exist; eauto|eapply d_grads_exist; eauto]. Qed.
Print Assumptions C119_critics.
Theorem C119_tables : forall nS, (forall w s, value_table nS w s = if Nat.ltb s nS then nth s w 0 else 0) /\ smooth_value nS (value_table nS) (fun _ s i => if Nat.ltb s nS && Nat.eqb i s then 1 else 0).
Proof. intros nS. split; [apply value_table_is|apply value_table_smooth]. Qed.
Print Assumptions C119_tables.

Definition ex_p : acparams := mkPar [3 / 2] (Some [3 / 2]) [0].
Lemma ex_setup : forall loss pull, pulls_by loss pull -> exists vgrads dgrads grads, v_differentiates 1 (value_table 1) loss vgrads /\ d_differentiates loss dgrads /\ pg_differentiates 2 1 ex_shared grads /\
  forall sub tau gamma n, (1 <= n)%nat -> 0 <= gamma <= 1 -> ac_trains 2 (value_table 1) loss vgrads dgrads ex_shared grads sub tau n gamma ex_p (fun lrv lrp => ac_after 1 1 (value_table 1) (table_slope 1) (softmax_score 2 ex_shared ex_jac) pull lrv lrp tau gamma n ex_p).
Proof.
  intros loss pull PB. destruct (v_grads_exist (value_table_smooth 1) PB) as [vgrads VG]. destruct (d_grads_exist PB) as [dgrads DG]. destruct (grads_exist ex_shared_smooth) as [grads GR]. exists vgrads, dgrads, grads. split; [exact VG|]. split; [exact DG|]. split; [exact GR|].
  intros sub tau gamma n Hn HG. apply C119_episode; auto; [apply value_table_smooth|exact ex_shared_smooth|]. repeat split.
Qed.
Example C119_episode_ex : pulls_by mse (fun x => x) /\ pulls_by (huber 1) (fun x => Rmax (- 1) (Rmin x 1)) /\ par_sized 1 1 ex_p /\ (1 <= 3)%nat /\ 0 <= 9 / 10 <= 1 /\
  exists vgrads dgrads grads, v_differentiates 1 (value_table 1) (huber 1) vgrads /\ d_differentiates (huber 1) dgrads /\ pg_differentiates 2 1 ex_shared grads.
Proof.
  assert (PB : pulls_by (huber 1) (fun x => Rmax (- 1) (Rmin x 1))) by (apply pull_huber; lra). split; [constructor|]. split; [exact PB|]. split; [repeat split|]. split; [lia|]. split; [lra|]. destruct (ex_setup _ _ PB) as (a & b & c & A & B & C & _). exists a, b, c. auto.
Qed.

(** C119: the values of a table never exceed the bound on discounted sums of rewards, over any number of episodes of any lengths; with or
    without target network, whatever the policy and its learning rate. *)
Theorem C119_bounded : forall nA nS N loss pull vgrads dgrads net score grads sub lrv lrp tau gamma n M,
  pulls_by loss pull -> v_differentiates nS (value_table nS) loss vgrads -> d_differentiates loss dgrads -> smooth_policy nA N net score -> pg_differentiates nA N net grads ->
  (1 <= n)%nat -> 0 <= gamma <= 1 -> 0 <= lrv <= 1 -> 0 <= tau <= 1 -> 0 <= M ->
  forall ess css y p t, Forall2 records ess css -> (forall es s a r, In es ess -> In (s, a, r) es -> (a < nA)%nat /\ - ((1 - gamma) * M) <= r <= (1 - gamma) * M) ->
  sgd_actor_critic sub lrv lrp y -> has_params y p -> par_sized nS N p -> par_bounded M p -> n_s t = [] -> n_r t = [] ->
  exists y' t' p', ac_loop nA (value_table nS) loss vgrads dgrads net grads sub tau n gamma y t (concat css) = (y', t', Ok tt) /\ n_s t' = [] /\ has_params y' p' /\ par_sized nS N p' /\ par_bounded M p'.
Proof.
  intros nA nS N loss pull vgrads dgrads net score grads sub lrv lrp tau gamma n M PB VG DG SM GR Hn HG HL HT HM ess css y p t F HR HS HP HZ HB T1 T2.
  destruct (@loop_episodes nA nS N (value_table nS) (table_slope nS) (value_table_smooth nS) loss pull PB vgrads VG dgrads DG net score SM grads GR sub tau gamma n Hn HG lrv lrp (par_bounded M)
    (fun es => forall s a r, In (s, a, r) es -> - ((1 - gamma) * M) <= r <= (1 - gamma) * M)) with (ess := ess) (css := css) (y := y) (p := p) (t := t) as (y' & t' & E & X1 & _ & _ & p' & X2 & X3 & X4); auto.
  - intros q es Q1 Q2 Q3. eapply after_bounded; eauto.
  - apply Forall_forall. intros es I s a r J. apply (HR es s a r I J).
  - apply Forall_forall. intros es I s a r J. apply (HR es s a r I J).
  - exists y', t', p'. auto.
Qed.
Print Assumptions C119_bounded.
Example C119_bounded_ex : Forall2 records [[(0%nat, 1%nat, 1); (0%nat, 0%nat, - (1))]] [[mkCall 0%nat 1%nat 1 false 0; mkCall 0%nat 0%nat (- (1)) true 0]] /\ par_bounded 10 ex_p /\ (1 - 9 / 10) * 10 = 1.
Proof.
  split; [|split; [|lra]].
  - constructor; [|constructor]. cbn. repeat split; lra.
  - split; intros x [<-|[]]; lra.
Qed.

(** ** C119: the TD error as an estimate of the advantage *)
(** C119: doc/examples/stubs/a2c.rst: if v is the value function of the policy, the mean of the n-step TD error after taking action a in state s
    is the advantage q(s, a) - v(s); its mean over the policy's actions is 0. (T bounds the lengths of the episodes: they contain n more steps or
    end by themselves.) *)
Theorem C119_advantage : forall nA N net score th P dyn gamma v n T s, smooth_policy nA N net score -> length th = N -> total P = 1 -> evaluates nA net P dyn gamma th v ->
  (1 <= n)%nat -> (n < T)%nat \/ ends nA P dyn T s ->
  (forall a, (a < nA)%nat -> mean_after nA net P dyn th T s a (fun es => nstep_target gamma v n es - v s) = action_value P dyn gamma v s a - v s) /\
  mean_from nA net P dyn th T s (fun es => nstep_target gamma v n es - v s) = 0.
Proof.
  intros nA N net score th P dyn gamma v n T s SM L TP EV Hn HT. assert (HE : enough nA P dyn T s n). { split; auto. destruct HT as [HT|HT]; [lia|]. destruct T; [contradiction|lia]. }
  assert (A : forall a, (a < nA)%nat -> mean_after nA net P dyn th T s a (fun es => nstep_target gamma v n es - v s) = action_value P dyn gamma v s a - v s).
  { intros a Ha. pose proof (@after_affine nA N net score SM th L P dyn TP T s a 1 (- v s) (nstep_target gamma v n)) as E. rewrite (@target_action nA N net score SM gamma th L P dyn TP v EV n T s a Hn HE Ha) in E.
    transitivity (mean_after nA net P dyn th T s a (fun es => 1 * nstep_target gamma v n es + - v s)); [|rewrite E; lra]. unfold mean_after. apply total_ext. intros w _. f_equal. destruct (dyn w s a) as [[s' r] [|]]; [lra|]. apply mean_ext. intros; lra. }
  split; [exact A|]. destruct T as [|T]; [destruct HE; lia|]. pose proof (@target_mean nA N net score SM gamma th L P dyn TP v EV n (S T) s HE) as E.
  rewrite (@mean_ext nA net P dyn th (S T) s _ (fun es => - v s + 1 * nstep_target gamma v n es)) by (intros; lra). rewrite (@mean_affine nA N net score SM th L P dyn TP), E. lra.
Qed.
Print Assumptions C119_advantage.
(** C119: with any values u for the targets and any baseline b, the mean of the product of TD error and score is the gradient, with respect
    to the policy at the first step, of the expected n-step target. *)
Theorem C119_baseline : forall nA N net score th P dyn gamma u b n T s, smooth_policy nA N net score -> length th = N -> total P = 1 -> (1 <= T)%nat ->
  gradient (fun th' => expectation nA (prob nA net th' s) (fun a => mean_after nA net P dyn th T s a (nstep_target gamma u n))) th
    (map (fun i => mean_from nA net P dyn th T s (td_sum 0 gamma u b n (fun x => x) (fun s a => score th s a i))) (seq 0 N)).
Proof.
  intros nA N net score th P dyn gamma u b n T s SM L TP HT.
  pose proof (@lookahead_gradient nA N net score SM th s (fun a => mean_after nA net P dyn th T s a (nstep_target gamma u n)) L) as G.
  match type of G with gradient _ _ ?x => match goal with |- gradient _ _ ?y => replace y with x; [exact G|] end end. apply map_ext_in. intros i Hi. apply in_seq in Hi. destruct T as [|T]; [lia|]. rewrite (@mean_from_after nA N net th L P dyn).
  transitivity (expectation nA (prob nA net th s) (fun a => mean_after nA net P dyn th (S T) s a (nstep_target gamma u n) * score th s a i) + - b s * expectation nA (prob nA net th s) (fun a => score th s a i)).
  - rewrite (@score_mean nA N net score SM th s i L ltac:(lia)). lra.
  - unfold expectation. rewrite <- total_scal, <- total_plus. apply total_ext. intros a _.
    pose proof (@after_affine nA N net score SM th L P dyn TP (S T) s a (score th s a i) (- b s * score th s a i) (nstep_target gamma u n)) as E.
    transitivity (prob nA net th s a * mean_after nA net P dyn th (S T) s a (fun es => score th s a i * nstep_target gamma u n es + - b s * score th s a i)); [rewrite E; lra|]. f_equal.
    unfold mean_after. apply total_ext. intros w _. f_equal. destruct (dyn w s a) as [[s' r] [|]]; [cbn [td_sum]; lra|]. apply mean_ext. intros es _ _. cbn [td_sum]. lra.
Qed.
Print Assumptions C119_baseline.

(** Two arms: one with a rare large reward, one with a certain small one. *)
Definition arms (w s a : nat) : nat * R * bool := (0%nat, match s with O => if Nat.eqb a 0 then (if Nat.eqb w 0 then 10 else 0) else 1 | _ => 0 end, true).
Lemma arms_total : total [1 / 5; 4 / 5] = 1. Proof. rewrite !total_cons. change (total []) with 0. lra. Qed.
Lemma arms_ends : forall T s, ends 2 [1 / 5; 4 / 5] arms (S T) s.
Proof. intros T s w a s' r e _ _ E. left. unfold arms in E. now injection E. Qed.
Lemma arms_value : forall gamma, evaluates 2 ex_shared [1 / 5; 4 / 5] arms gamma [0] (value_table 1 [3 / 2]).
Proof.
  intros gamma s. unfold expectation, action_value. cbn [seq map length nth arms]. rewrite !total_cons. change (total []) with 0. rewrite !ex_half by lia. rewrite value_table_is. destruct s as [|s]; cbn; lra.
Qed.
Example C119_advantage_ex : smooth_policy 2 1 ex_shared (softmax_score 2 ex_shared ex_jac) /\ evaluates 2 ex_shared [1 / 5; 4 / 5] arms (9 / 10) [0] (value_table 1 [3 / 2]) /\
  action_value [1 / 5; 4 / 5] arms (9 / 10) (value_table 1 [3 / 2]) 0%nat 0%nat - value_table 1 [3 / 2] 0%nat = 1 / 2 /\ ends 2 [1 / 5; 4 / 5] arms 1 0.
Proof.
  split; [exact ex_shared_smooth|]. split; [apply arms_value|]. split; [|apply arms_ends]. rewrite value_table_is. unfold action_value. cbn [seq map length nth arms]. rewrite !total_cons. change (total []) with 0. cbn. lra.
Qed.

(** ** C119: policy gradients *)
(** C119: if v is the value function of the policy and all episodes end, the gradient of the expected return is the mean of
    sum_t gamma^t d_t grad ln pi(A_t|S_t), for the n-step TD errors d_t of v with any n. *)
Theorem C119_gradient : forall nA N net score th P dyn gamma rho T v n, smooth_policy nA N net score -> length th = N -> total P = 1 -> (1 <= T)%nat -> evaluates nA net P dyn gamma th v -> (1 <= n)%nat ->
  (forall s, nth s rho 0 <> 0 -> ends nA P dyn T s) ->
  gradient (expected_return nA net P dyn gamma rho T) th (map (fun i => mean_episode nA net P dyn rho th T (td_sum gamma gamma v v n (fun x => x) (fun s a => score th s a i))) (seq 0 N)).
Proof.
  intros nA N net score th P dyn gamma rho T v n SM L TP HT EV Hn HE. pose proof (@return_gradient nA N net score SM gamma th L P dyn TP rho T HT) as G.
  match type of G with gradient _ _ ?x => match goal with |- gradient _ _ ?y => replace y with x; [exact G|] end end. apply map_ext_in. intros i Hi. apply in_seq in Hi. unfold true_gradient. symmetry. eapply exact_direction; eauto. lia.
Qed.
Print Assumptions C119_gradient.
Example C119_gradient_ex : smooth_policy 2 1 ex_shared (softmax_score 2 ex_shared ex_jac) /\ total [1 / 5; 4 / 5] = 1 /\ evaluates 2 ex_shared [1 / 5; 4 / 5] arms (9 / 10) [0] (value_table 1 [3 / 2]) /\ forall s, nth s [1] 0 <> 0 -> ends 2 [1 / 5; 4 / 5] arms 1 s.
Proof. split; [exact ex_shared_smooth|]. split; [exact arms_total|]. split; [apply arms_value|]. intros; apply arms_ends. Qed.

(** C119: the mean change of the actor's parameters made by one episode, to first order in the learning rates (lrv = c lrp): the same sum
    without the factors gamma^t, with the TD errors of the critic at the beginning of the episode. *)
Theorem C119_direction : forall nA Nv N vnet slope loss pull vgrads dgrads net score grads sub tau gamma n p f P dyn rho T c,
  smooth_value Nv vnet slope -> pulls_by loss pull -> v_differentiates Nv vnet loss vgrads -> d_differentiates loss dgrads -> smooth_policy nA N net score -> pg_differentiates nA N net grads ->
  (1 <= n)%nat -> 0 <= gamma <= 1 -> par_sized Nv N p -> p_u p = None \/ p_u p = Some (p_w p) -> (forall k, sub k k = true) ->
  ac_trains nA vnet loss vgrads dgrads net grads sub tau n gamma p f -> (1 <= T)%nat ->
  forall i, (i < N)%nat -> derivable_pt_lim (fun lr => mean_episode nA net P dyn rho (p_th p) T (fun es => nth i (p_th (f (c * lr) lr es)) 0)) 0
    (mean_episode nA net P dyn rho (p_th p) T (td_sum 1 gamma (vnet (p_w p)) (vnet (p_w p)) n pull (fun s a => score (p_th p) s a i))).
Proof.
  intros. eapply ac_params_deriv; eauto. eapply trains_after; eauto.
Qed.
Print Assumptions C119_direction.
Example C119_direction_ex : exists vgrads dgrads grads f, v_differentiates 1 (value_table 1) mse vgrads /\ d_differentiates mse dgrads /\ pg_differentiates 2 1 ex_shared grads /\ p_u ex_p = Some (p_w ex_p) /\
  ac_trains 2 (value_table 1) mse vgrads dgrads ex_shared grads Nat.eqb (1 / 100) 1 (9 / 10) ex_p f.
Proof. destruct (ex_setup _ _ pull_mse) as (a & b & c & A & B & C & D). exists a, b, c. eexists. split; [exact A|]. split; [exact B|]. split; [exact C|]. split; [reflexivity|]. apply D; [lia|lra]. Qed.

(** C119: with an exact critic, squared errors and no discounting, unless the gradient is zero, all sufficiently small learning rates
    improve the expected return in the mean. *)
Theorem C119_improves : forall nA Nv N vnet slope vgrads dgrads net score grads sub tau n p f P dyn rho T c g,
  smooth_value Nv vnet slope -> v_differentiates Nv vnet mse vgrads -> d_differentiates mse dgrads -> smooth_policy nA N net score -> pg_differentiates nA N net grads ->
  (1 <= n)%nat -> par_sized Nv N p -> p_u p = None \/ p_u p = Some (p_w p) -> (forall k, sub k k = true) ->
  ac_trains nA vnet mse vgrads dgrads net grads sub tau n 1 p f -> (1 <= T)%nat -> total P = 1 -> total rho = 1 ->
  evaluates nA net P dyn 1 (p_th p) (vnet (p_w p)) -> (forall s, nth s rho 0 <> 0 -> ends nA P dyn T s) ->
  gradient (expected_return nA net P dyn 1 rho T) (p_th p) g -> (exists x, In x g /\ x <> 0) ->
  exists lr0, 0 < lr0 /\ forall lr, 0 < lr < lr0 -> expected_return nA net P dyn 1 rho T (p_th p) < mean_episode nA net P dyn rho (p_th p) T (fun es => expected_return nA net P dyn 1 rho T (p_th (f (c * lr) lr es))).
Proof.
  intros nA Nv N vnet slope vgrads dgrads net score grads sub tau n p f P dyn rho T c g SV VG DG SM GR Hn HZ HU HR TR HT TP TRh EV HE [Lg Dg] (x & Ix & NZ). assert (L := proj1 (proj2 HZ)).
  assert (FA := @trains_after nA Nv N vnet slope SV mse (fun x => x) pull_mse vgrads VG dgrads DG net score SM grads GR sub tau 1 n Hn ltac:(lra) p f HR HZ TR).
  pose proof (@ac_performance nA Nv N vnet slope SV mse (fun x => x) pull_mse net score SM tau 1 c n p HZ HU f FA P dyn TP rho T HT) as D. cbv beta in D.
  assert (E0 := @ac_performance_0 nA Nv N vnet slope SV mse (fun x => x) pull_mse net score SM tau 1 c n p HZ HU f FA P dyn TP rho T HT TRh).
  destruct (positive_slope D) as (d & Hd & H).
  - apply (In_nth _ _ 0) in Ix. destruct Ix as (i & Hi & <-). destruct (@return_gradient nA N net score SM 1 (p_th p) L P dyn TP rho T HT) as [_ D']. specialize (D' i ltac:(lia)). specialize (Dg i ltac:(lia)). rewrite (uniqueness_limite _ _ _ _ Dg D') in NZ. rewrite (@nth_map_any _ _ _ (seq 0 N) i 0 0%nat) in NZ by (rewrite seq_length; lia). rewrite seq_nth in NZ by lia. cbn [Nat.add] in NZ. unfold true_gradient in NZ.
    rewrite (@total_ext _ _ (fun i => Rsqr (mean_episode nA net P dyn rho (p_th p) T (return_sum 1 1 (fun s a => score (p_th p) s a i))))).
    + eapply Rlt_le_trans; [|apply (@total_in_le nat (fun i => Rsqr (mean_episode nA net P dyn rho (p_th p) T (return_sum 1 1 (fun s a => score (p_th p) s a i)))) (seq 0 N) i); [intros k _; apply Rle_0_sqr|apply in_seq; lia]]. now apply Rsqr_pos_lt.
    + intros k Hk. apply in_seq in Hk. unfold Rsqr. f_equal. eapply exact_direction; eauto. lia.
  - exists d. split; auto. intros lr Hlr. specialize (H lr Hlr). cbv beta in H. rewrite E0 in H. exact H.
Qed.
Print Assumptions C119_improves.
Lemma arms_mean : forall g gamma, mean_episode 2 ex_shared [1 / 5; 4 / 5] arms [1] [0] 1 (return_sum g gamma (fun s a => softmax_score 2 ex_shared ex_jac [0] s a 0%nat)) = 1 / 4.
Proof.
  intros g gamma. unfold mean_episode, mean_from, expectation. cbn [length seq map nth arms Nat.eqb]. rewrite !total_cons. rewrite !ex_half by lia. change (total []) with 0. cbn [return_sum discounted]. rewrite !ex_score by lia. cbn [Nat.eqb]. lra.
Qed.
Example C119_improves_ex : exists vgrads dgrads grads f g, v_differentiates 1 (value_table 1) mse vgrads /\ d_differentiates mse dgrads /\ pg_differentiates 2 1 ex_shared grads /\
  ac_trains 2 (value_table 1) mse vgrads dgrads ex_shared grads Nat.eqb (1 / 100) 1 1 ex_p f /\ evaluates 2 ex_shared [1 / 5; 4 / 5] arms 1 (p_th ex_p) (value_table 1 (p_w ex_p)) /\
  (forall s, nth s [1] 0 <> 0 -> ends 2 [1 / 5; 4 / 5] arms 1 s) /\ gradient (expected_return 2 ex_shared [1 / 5; 4 / 5] arms 1 [1] 1) (p_th ex_p) g /\ In (1 / 4) g.
Proof.
  destruct (ex_setup _ _ pull_mse) as (a & b & c & A & B & C & D). exists a, b, c. eexists. eexists. split; [exact A|]. split; [exact B|]. split; [exact C|]. split; [apply D; [lia|lra]|]. split; [apply arms_value|]. split; [intros; apply arms_ends|].
  split; [exact (@return_gradient 2 1 ex_shared _ ex_shared_smooth 1 [0] eq_refl [1 / 5; 4 / 5] arms arms_total [1] 1 ltac:(lia))|]. cbn [seq map]. left. unfold true_gradient. apply arms_mean.
Qed.

(** C119: with the default loss huber(delta=1) this fails: its td_error is clipped, and a mean of clipped errors is not an advantage. Even with an
    exact critic the documented updates can make the expected return worse, for all sufficiently small learning rates. *)
Theorem C119_huber_refuted : exists nA Nv N vnet slope vgrads dgrads net score grads sub tau gamma n p f P dyn rho T c,
  smooth_value Nv vnet slope /\ v_differentiates Nv vnet (huber 1) vgrads /\ d_differentiates (huber 1) dgrads /\ smooth_policy nA N net score /\ pg_differentiates nA N net grads /\
  (1 <= n)%nat /\ 0 < gamma <= 1 /\ par_sized Nv N p /\ p_u p = Some (p_w p) /\ (forall k, sub k k = true) /\ 0 < c /\
  ac_trains nA vnet (huber 1) vgrads dgrads net grads sub tau n gamma p f /\ (1 <= T)%nat /\ total P = 1 /\ total rho = 1 /\
  evaluates nA net P dyn gamma (p_th p) (vnet (p_w p)) /\ (forall s, ends nA P dyn T s) /\
  exists lr0, 0 < lr0 /\ forall lr, 0 < lr < lr0 -> mean_episode nA net P dyn rho (p_th p) T (fun es => expected_return nA net P dyn gamma rho T (p_th (f (c * lr) lr es))) < expected_return nA net P dyn gamma rho T (p_th p).
Proof.
  assert (PB : pulls_by (huber 1) (fun x => Rmax (- 1) (Rmin x 1))) by (apply pull_huber; lra). destruct (ex_setup _ _ PB) as (vg & dg & gr & VG & DG & GR & TR). set (sc := softmax_score 2 ex_shared ex_jac).
  exists 2%nat, 1%nat, 1%nat, (value_table 1), (table_slope 1), vg, dg, ex_shared, sc, gr, Nat.eqb, (1 / 100), (9 / 10), 1%nat, ex_p, (fun lrv lrp => ac_after 1 1 (value_table 1) (table_slope 1) sc (fun x => Rmax (- 1) (Rmin x 1)) lrv lrp (1 / 100) (9 / 10) 1 ex_p), [1 / 5; 4 / 5], arms, [1], 1%nat, 2.
  assert (HZ : par_sized 1 1 ex_p) by (repeat split). assert (T1 : total [1] = 1) by (rewrite total_cons; change (total []) with 0; lra).
  split; [apply value_table_smooth|]. split; [exact VG|]. split; [exact DG|]. split; [exact ex_shared_smooth|]. split; [exact GR|]. split; [lia|]. split; [lra|]. split; [exact HZ|]. split; [reflexivity|]. split; [apply Nat.eqb_refl|]. split; [lra|]. split; [apply TR; [lia|lra]|]. split; [lia|]. split; [exact arms_total|]. split; [exact T1|]. split; [apply arms_value|]. split; [intros; apply arms_ends|].
  pose proof (@ac_performance 2 1 1 (value_table 1) (table_slope 1) (value_table_smooth 1) (huber 1) _ PB ex_shared sc ex_shared_smooth (1 / 100) (9 / 10) 2 1 ex_p HZ (or_intror eq_refl) _ (fun _ _ _ _ _ => eq_refl) [1 / 5; 4 / 5] arms arms_total [1] 1 ltac:(lia)) as D. cbv beta in D.
  pose proof (@ac_performance_0 2 1 1 (value_table 1) (table_slope 1) (value_table_smooth 1) (huber 1) _ PB ex_shared sc ex_shared_smooth (1 / 100) (9 / 10) 2 1 ex_p HZ (or_intror eq_refl) _ (fun _ _ _ _ _ => eq_refl) [1 / 5; 4 / 5] arms arms_total [1] 1 ltac:(lia) T1) as E0.
  destruct (negative_slope D) as (d & Hd & H).
  - cbn [seq map]. rewrite total_cons. change (total []) with 0. unfold sc. cbn [ex_p p_w p_th]. rewrite arms_mean.
    assert (E : mean_episode 2 ex_shared [1 / 5; 4 / 5] arms [1] [0] 1 (td_sum 1 (9 / 10) (value_table 1 [3 / 2]) (value_table 1 [3 / 2]) 1 (fun x => Rmax (- 1) (Rmin x 1)) (fun s a => softmax_score 2 ex_shared ex_jac [0] s a 0%nat)) = - (1 / 40)).
    { unfold mean_episode, mean_from, expectation. cbn [length seq map nth arms Nat.eqb]. rewrite !total_cons. rewrite !ex_half by lia. change (total []) with 0. cbn [td_sum nstep_target]. rewrite !ex_score by lia. rewrite value_table_is. cbn [Nat.eqb Nat.ltb Nat.leb nth].
      rewrite (Rmin_right (10 + _ - _)), (Rmax_right (- 1) 1) by lra. rewrite (Rmin_left (0 + _ - _)), (Rmax_left (- 1) (0 + _ - _)) by lra. rewrite (Rmin_left (1 + _ - _)), (Rmax_right (- 1) (1 + _ - _)) by lra. lra. }
    rewrite E. lra.
  - exists d. split; auto. intros lr Hlr. specialize (H lr Hlr). cbv beta in H. rewrite E0 in H. exact H.
Qed.
Print Assumptions C119_huber_refuted.
