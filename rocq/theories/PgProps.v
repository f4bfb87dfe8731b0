(** Property C118: policy gradients with Monte-Carlo returns (REINFORCE). *)
From Coq Require Import List Lia Bool Arith Reals Lra.
From Verif Require Import PyCommon CommonProofs UtilsModel UtilsSpec UtilsProofs2 UtilsProofs3 DistModel DistSpec DistProofs LossModel LossSpec LossProofs QModel TDModel TDSpec TDProofs CoreModel TracerModel WorkerModel PolicyModel PolicySpec PolicyProofs PolicyProofs4 LearnModel PgModel PgSpec PgProofs PgProofs2 PgProofs3 PgProofs4.
Import ListNotations.
Local Open Scope R_scope.

(** ** Examples: a table with 2 states and 2 actions, and one parameter shared by two states *)
Definition ex_dyn (w s a : nat) : nat * R * bool := match s with O => (1%nat, if Nat.eqb a 0 then 1 else 0, false) | _ => (1%nat, if Nat.eqb a 0 then 0 else 3 / 2, true) end.
Definition ex_shared (th : list R) (s : nat) : list R := [nth 0 th 0; 0].
Definition ex_jac (th : list R) (s a i : nat) : R := if Nat.eqb a 0 then 1 else 0.
Lemma ex_shared_smooth : smooth_policy 2 1 ex_shared (softmax_score 2 ex_shared ex_jac).
Proof.
  apply logits_smooth; [lia|reflexivity|]. intros s a Ha. unfold ex_jac. apply smooth_sum. intros th L. cbn [seq map]. rewrite total_cons. change (total []) with 0. destruct a as [|[|a]]; [| |lia]; cbn; lra.
Qed.
Lemma ex_half : forall s a, (a < 2)%nat -> prob 2 ex_shared [0] s a = 1 / 2.
Proof. intros s a Ha. unfold prob, boltzmann. cbn [seq map]. rewrite !total_cons. change (total []) with 0. destruct a as [|[|a]]; [| |lia]; cbn; rewrite exp_0; lra. Qed.
Lemma ex_score : forall s a, (a < 2)%nat -> softmax_score 2 ex_shared ex_jac [0] s a 0 = if Nat.eqb a 0 then 1 / 2 else - (1 / 2).
Proof. intros s a Ha. unfold softmax_score, expectation, ex_jac. cbn [seq map]. rewrite !total_cons, !ex_half by lia. change (total []) with 0. destruct a as [|[|a]]; [| |lia]; cbn; lra. Qed.

(** ** C118: the loop *)
(** C118: one episode changes the parameters by gradient ascent on G_t ln pi(A_t|S_t), one step of the episode after the other from the last to the
    first, each with the parameters left by the one before; the tracer is empty afterwards and no exception is raised. *)
Theorem C118_episode : forall nA N net score grads gamma th, smooth_policy nA N net score -> pg_differentiates nA N net grads -> 0 <= gamma <= 1 -> length th = N ->
  exists after, trains nA net grads gamma th after /\ (forall lr, after lr [] = th) /\
    forall lr s a r es, let th1 := after lr es in let G := r + gamma * discounted gamma es in
      length th1 = N /\ after lr ((s, a, r) :: es) = map (fun i => nth i th1 0 + lr * (G * score th1 s a i)) (seq 0 N).
Proof.
  intros nA N net score grads gamma th SM GR HG L. exists (fun lr es => ascend N score lr gamma th es). split; [now apply ascend_trains with (N := N)|]. split; [reflexivity|]. intros lr s a r es th1 G. split; [now apply ascend_length|reflexivity].
Qed.
Print Assumptions C118_episode.

(** C118: many networks: whenever the logits are differentiable, so are the log-probabilities; linear layers with and without bias on
    one-hot encoded observations; and gradients of the loss exist. *)
Theorem C118_networks : forall nA N net jac, (1 <= nA)%nat -> (forall th s, length th = N -> length (net th s) = nA) -> (forall s a, (a < nA)%nat -> smooth N (fun th => nth a (net th s) 0) (fun th i => jac th s a i)) ->
  smooth_policy nA N net (fun th s a i => jac th s a i - expectation nA (prob nA net th s) (fun c => jac th s c i)) /\ exists grads, pg_differentiates nA N net grads.
Proof. intros nA N net jac HA HL HJ. assert (S := logits_smooth net jac HA HL HJ). split; [exact S|]. exact (grads_exist S). Qed.
Print Assumptions C118_networks.
Theorem C118_tables : forall nS nA, (1 <= nA)%nat ->
  smooth_policy nA (nS * nA) (logit_table nS nA) (fun th s a i => (if Nat.ltb s nS && Nat.eqb i (s * nA + a) then 1 else 0) - expectation nA (prob nA (logit_table nS nA) th s) (fun c => if Nat.ltb s nS && Nat.eqb i (s * nA + c) then 1 else 0)) /\
  (exists score, smooth_policy nA (nA + nS * nA) (logit_table_b nS nA) score).
Proof. intros nS nA HA. split; [exact (table_smooth nS HA)|]. eexists. exact (table_b_smooth nS HA). Qed.
Print Assumptions C118_tables.
Example C118_networks_ex : exists grads, pg_differentiates 2 4 (logit_table 2 2) grads /\ forall gamma, 0 <= gamma <= 1 -> exists after, trains 2 (logit_table 2 2) grads gamma [0; 1; 2; 3] after.
Proof.
  destruct (grads_exist (@table_smooth 2 2 ltac:(lia))) as [grads G]. exists grads. split; [exact G|]. intros gamma Hg. destruct (@C118_episode 2 4 _ _ grads gamma [0; 1; 2; 3] (@table_smooth 2 2 ltac:(lia)) G Hg eq_refl) as (after & A & _). now exists after.
Qed.

(** C118: in a table without bias the sum of the logits of every state stays the same, forever. *)
Theorem C118_row_sums : forall nS nA grads gamma th after lr es s, (1 <= nA)%nat -> pg_differentiates nA (nS * nA) (logit_table nS nA) grads -> 0 <= gamma <= 1 -> length th = (nS * nA)%nat ->
  trains nA (logit_table nS nA) grads gamma th after -> es <> [] -> legal_actions nA es -> (s < nS)%nat ->
  total (map (fun b => nth (s * nA + b) (after lr es) 0) (seq 0 nA)) = total (map (fun b => nth (s * nA + b) th 0) (seq 0 nA)).
Proof.
  intros nS nA grads gamma th after lr es s HA GR HG L TR NE LA Hs. rewrite (@trains_ascend nA (nS * nA) _ _ grads gamma th after (table_smooth nS HA) GR HG L TR lr es NE LA). now apply table_row_sum.
Qed.
Print Assumptions C118_row_sums.
Example C118_row_sums_ex : [(0, 1, 5)]%nat <> @nil (nat * nat * nat) /\ legal_actions 2 [(0%nat, 1%nat, 5)] /\ (0 < 2)%nat.
Proof. split; [discriminate|]. split; [|lia]. intros s a r [E|[]]. inversion E. lia. Qed.

(** ** C118: first-order behaviour *)
(** C118: the gradient of the expected return is the mean of sum_t gamma^t G_t grad ln pi(A_t|S_t); the mean change of the parameters made by an
    episode is, to first order in the learning rate, the mean of the same sum without the factors gamma^t. *)
Theorem C118_direction : forall nA N net score grads gamma th P dyn rho T after, smooth_policy nA N net score -> pg_differentiates nA N net grads -> 0 <= gamma <= 1 -> length th = N ->
  total P = 1 -> (1 <= T)%nat -> trains nA net grads gamma th after ->
  gradient (expected_return nA net P dyn gamma rho T) th (map (fun i => mean_episode nA net P dyn rho th T (return_sum gamma gamma (fun s a => score th s a i))) (seq 0 N)) /\
  forall i, (i < N)%nat -> derivable_pt_lim (fun lr => mean_episode nA net P dyn rho th T (fun es => nth i (after lr es) 0)) 0 (mean_episode nA net P dyn rho th T (return_sum 1 gamma (fun s a => score th s a i))).
Proof.
  intros nA N net score grads gamma th P dyn rho T after SM GR HG L TP HT TR. split; [exact (@return_gradient nA N net score SM gamma th L P dyn TP rho T HT)|].
  intros i Hi. eapply params_deriv; eauto. eapply trains_ascend; eauto.
Qed.
Print Assumptions C118_direction.
Example C118_direction_ex : exists grads after, smooth_policy 2 1 ex_shared (softmax_score 2 ex_shared ex_jac) /\ pg_differentiates 2 1 ex_shared grads /\ trains 2 ex_shared grads (1/2) [0] after /\ total [1] = 1.
Proof.
  destruct (grads_exist ex_shared_smooth) as [grads G]. exists grads, (fun lr es => ascend 1 (softmax_score 2 ex_shared ex_jac) lr (1/2) [0] es). split; [exact ex_shared_smooth|]. split; [exact G|]. split; [apply ascend_trains; auto; [exact ex_shared_smooth|lra]|cbn; lra].
Qed.

(** C118: without discounting this is the gradient of the expected return: REINFORCE is unbiased gradient ascent to first order, although
    the parameters change between the updates of one episode. *)
Theorem C118_undiscounted : forall nA N net score grads th P dyn rho T after g, smooth_policy nA N net score -> pg_differentiates nA N net grads -> length th = N ->
  total P = 1 -> (1 <= T)%nat -> trains nA net grads 1 th after -> gradient (expected_return nA net P dyn 1 rho T) th g ->
  forall i, (i < N)%nat -> derivable_pt_lim (fun lr => mean_episode nA net P dyn rho th T (fun es => nth i (after lr es) 0)) 0 (nth i g 0).
Proof.
  intros nA N net score grads th P dyn rho T after g SM GR L TP HT TR [Lg Dg] i Hi.
  destruct (@C118_direction nA N net score grads 1 th P dyn rho T after SM GR ltac:(lra) L TP HT TR) as [[_ D] A]. specialize (D i ltac:(lia)). specialize (Dg i ltac:(lia)). rewrite (uniqueness_limite _ _ _ _ Dg D). rewrite (@nth_map_any _ _ _ (seq 0 N) i 0 0%nat) by (rewrite seq_length; lia). rewrite seq_nth by lia. apply A. exact Hi.
Qed.
Print Assumptions C118_undiscounted.

(** C118: how the expected return changes, to first order in the learning rate: the inner product of both directions. *)
Theorem C118_performance : forall nA N net score grads gamma th P dyn rho T after, smooth_policy nA N net score -> pg_differentiates nA N net grads -> 0 <= gamma <= 1 -> length th = N ->
  total P = 1 -> (1 <= T)%nat -> trains nA net grads gamma th after ->
  derivable_pt_lim (fun lr => mean_episode nA net P dyn rho th T (fun es => expected_return nA net P dyn gamma rho T (after lr es))) 0
    (total (map (fun i => mean_episode nA net P dyn rho th T (return_sum gamma gamma (fun s a => score th s a i)) * mean_episode nA net P dyn rho th T (return_sum 1 gamma (fun s a => score th s a i))) (seq 0 N))).
Proof.
  intros nA N net score grads gamma th P dyn rho T after SM GR HG L TP HT TR. eapply performance_deriv; eauto. eapply trains_ascend; eauto.
Qed.
Print Assumptions C118_performance.

(** C118: without discounting, unless the gradient is zero, all sufficiently small learning rates improve the expected return in the mean. *)
Theorem C118_improves : forall nA N net score grads th P dyn rho T after g, smooth_policy nA N net score -> pg_differentiates nA N net grads -> length th = N ->
  total P = 1 -> total rho = 1 -> (1 <= T)%nat -> trains nA net grads 1 th after -> gradient (expected_return nA net P dyn 1 rho T) th g -> (exists x, In x g /\ x <> 0) ->
  exists lr0, 0 < lr0 /\ forall lr, 0 < lr < lr0 -> expected_return nA net P dyn 1 rho T th < mean_episode nA net P dyn rho th T (fun es => expected_return nA net P dyn 1 rho T (after lr es)).
Proof.
  intros nA N net score grads th P dyn rho T after g SM GR L TP TR HT TN [Lg Dg] (x & Ix & NZ).
  pose proof (@C118_performance nA N net score grads 1 th P dyn rho T after SM GR ltac:(lra) L TP HT TN) as D.
  assert (E0 := @performance_0 nA N net score SM 1 th L P dyn TP rho T HT after TR (@trains_ascend nA N net score grads 1 th after SM GR ltac:(lra) L TN)).
  destruct (positive_slope D) as (d & Hd & H).
  - apply (In_nth _ _ 0) in Ix. destruct Ix as (i & Hi & <-). destruct (@return_gradient nA N net score SM 1 th L P dyn TP rho T HT) as [_ D']. specialize (D' i ltac:(lia)). specialize (Dg i ltac:(lia)). rewrite (uniqueness_limite _ _ _ _ Dg D') in NZ. rewrite (@nth_map_any _ _ _ (seq 0 N) i 0 0%nat) in NZ by (rewrite seq_length; lia). rewrite seq_nth in NZ by lia. cbn [Nat.add] in NZ. unfold true_gradient in NZ.
    eapply Rlt_le_trans; [|apply (@total_in_le nat _ (seq 0 N) i); [intros k _; apply Rle_0_sqr|apply in_seq; lia]]. now apply Rsqr_pos_lt.
  - exists d. split; auto. intros lr Hlr. specialize (H lr Hlr). cbv beta in H. rewrite E0 in H. exact H.
Qed.
Print Assumptions C118_improves.

Lemma ex_mean : forall gamma g, mean_episode 2 ex_shared [1] ex_dyn [1] [0] 2 (return_sum g gamma (fun s a => softmax_score 2 ex_shared ex_jac [0] s a 0%nat)) = 1 / 4 - g * (3 / 8).
Proof.
  intros gamma g. unfold mean_episode, mean_from, expectation. cbn [length seq map nth ex_dyn Nat.eqb]. rewrite !total_cons. rewrite !ex_half by lia. change (total []) with 0. cbn [return_sum discounted]. rewrite !ex_score by lia. cbn [Nat.eqb]. lra.
Qed.
Example C118_improves_ex : exists grads after g, smooth_policy 2 1 ex_shared (softmax_score 2 ex_shared ex_jac) /\ pg_differentiates 2 1 ex_shared grads /\ trains 2 ex_shared grads 1 [0] after /\
  gradient (expected_return 2 ex_shared [1] ex_dyn 1 [1] 2) [0] g /\ In (- (1 / 8)) g.
Proof.
  destruct (grads_exist ex_shared_smooth) as [grads G]. exists grads, (fun lr es => ascend 1 (softmax_score 2 ex_shared ex_jac) lr 1 [0] es). eexists. split; [exact ex_shared_smooth|]. split; [exact G|].
  assert (TR : trains 2 ex_shared grads 1 [0] (fun lr es => ascend 1 (softmax_score 2 ex_shared ex_jac) lr 1 [0] es)) by (apply ascend_trains; auto; [exact ex_shared_smooth|lra]). split; [exact TR|].
  split; [exact (proj1 (@C118_direction 2 1 ex_shared _ grads 1 [0] [1] ex_dyn [1] 2 _ ex_shared_smooth G ltac:(lra) eq_refl ltac:(cbn; lra) ltac:(lia) TR))|]. cbn [seq map]. left. rewrite ex_mean. lra.
Qed.

(** C118: the same with discounting, if no parameter matters at two different times (for example a table, in an environment whose
    observations contain the time). *)
Theorem C118_improves_layered : forall nA N net score grads gamma th P dyn rho T after g depth d, smooth_policy nA N net score -> pg_differentiates nA N net grads -> 0 < gamma <= 1 -> length th = N ->
  total P = 1 -> total rho = 1 -> (1 <= T)%nat -> trains nA net grads gamma th after -> gradient (expected_return nA net P dyn gamma rho T) th g -> (exists x, In x g /\ x <> 0) ->
  layered P dyn rho depth -> (forall s a i, (a < nA)%nat -> score th s a i <> 0 -> depth s = d i) ->
  exists lr0, 0 < lr0 /\ forall lr, 0 < lr < lr0 -> expected_return nA net P dyn gamma rho T th < mean_episode nA net P dyn rho th T (fun es => expected_return nA net P dyn gamma rho T (after lr es)).
Proof.
  intros nA N net score grads gamma th P dyn rho T after g depth d SM GR HG L TP TR HT TN [Lg Dg] (x & Ix & NZ) LY HD.
  pose proof (@C118_performance nA N net score grads gamma th P dyn rho T after SM GR ltac:(lra) L TP HT TN) as D.
  assert (E0 := @performance_0 nA N net score SM gamma th L P dyn TP rho T HT after TR (@trains_ascend nA N net score grads gamma th after SM GR ltac:(lra) L TN)).
  assert (LD := @layered_direction nA N net score gamma th L P dyn rho T HT depth d LY HD). unfold true_gradient, reinforce_direction in LD.
  destruct (positive_slope D) as (d0 & Hd & H).
  - apply (In_nth _ _ 0) in Ix. destruct Ix as (i & Hi & <-). destruct (@return_gradient nA N net score SM gamma th L P dyn TP rho T HT) as [_ D']. specialize (D' i ltac:(lia)). specialize (Dg i ltac:(lia)). rewrite (uniqueness_limite _ _ _ _ Dg D') in NZ. rewrite (@nth_map_any _ _ _ (seq 0 N) i 0 0%nat) in NZ by (rewrite seq_length; lia). rewrite seq_nth in NZ by lia. cbn [Nat.add] in NZ. unfold true_gradient in NZ.
    rewrite (@total_ext _ _ (fun i => gamma ^ d i * Rsqr (mean_episode nA net P dyn rho th T (return_sum 1 gamma (fun s a => score th s a i))))) by (intros j _; rewrite LD; unfold Rsqr; lra).
    assert (PW : forall k, 0 < gamma ^ k) by (intros k; apply pow_lt; lra). rewrite LD in NZ.
    eapply Rlt_le_trans; [|apply (@total_in_le nat (fun i => gamma ^ d i * Rsqr (mean_episode nA net P dyn rho th T (return_sum 1 gamma (fun s a => score th s a i)))) (seq 0 N) i); [intros k _; apply Rmult_le_pos; [left; apply PW|apply Rle_0_sqr]|apply in_seq; lia]].
    apply Rmult_lt_0_compat; [apply PW|]. apply Rsqr_pos_lt. intros Z. apply NZ. rewrite Z. lra.
  - exists d0. split; auto. intros lr Hlr. specialize (H lr Hlr). cbv beta in H. rewrite E0 in H. exact H.
Qed.
Print Assumptions C118_improves_layered.
Lemma ex_layered : layered [1] ex_dyn [1] (fun s => s).
Proof.
  split.
  - intros [|s] H; [reflexivity|]. exfalso. apply H. destruct s; reflexivity.
  - intros w [|s] a s' r _ E; unfold ex_dyn in E; inversion E. reflexivity.
Qed.
Example C118_layered_ex : layered [1] ex_dyn [1] (fun s => s) /\ exists d : nat -> nat, forall th s a i, (a < 2)%nat ->
  (if Nat.ltb s 2 && Nat.eqb i (s * 2 + a) then 1 else 0) - expectation 2 (prob 2 (logit_table 2 2) th s) (fun c => if Nat.ltb s 2 && Nat.eqb i (s * 2 + c) then 1 else 0) <> 0 -> s = d i.
Proof.
  split; [exact ex_layered|]. exists (fun i => (i / 2)%nat). intros th s a i Ha H. destruct (Nat.eq_dec s (i / 2)) as [E|NE]; auto. exfalso. apply H.
  assert (X : forall c, (c < 2)%nat -> Nat.eqb i (s * 2 + c) = false). { intros c Hc. apply Nat.eqb_neq. intros ->. apply NE. symmetry. rewrite Nat.add_comm, Nat.div_add by lia. rewrite Nat.div_small by lia. reflexivity. }
  unfold expectation. cbn [seq map]. rewrite !total_cons. rewrite !X by lia. rewrite !andb_false_r. change (total []) with 0. lra.
Qed.

(** C118: in general it fails: the documented update of a discounted problem can make the expected discounted return worse, for all
    sufficiently small learning rates. *)
Theorem C118_discounted_refuted : exists nA N net score grads gamma th P dyn rho T after, smooth_policy nA N net score /\ pg_differentiates nA N net grads /\ 0 < gamma < 1 /\ length th = N /\ total P = 1 /\ total rho = 1 /\ (1 <= T)%nat /\ trains nA net grads gamma th after /\
  exists lr0, 0 < lr0 /\ forall lr, 0 < lr < lr0 -> mean_episode nA net P dyn rho th T (fun es => expected_return nA net P dyn gamma rho T (after lr es)) < expected_return nA net P dyn gamma rho T th.
Proof.
  destruct (grads_exist ex_shared_smooth) as [grads G]. set (sc := softmax_score 2 ex_shared ex_jac).
  assert (TR : trains 2 ex_shared grads (1/2) [0] (fun lr es => ascend 1 sc lr (1/2) [0] es)) by (apply ascend_trains; auto; [exact ex_shared_smooth|lra]).
  assert (TP : total [1] = 1) by (cbn; lra).
  exists 2%nat, 1%nat, ex_shared, sc, grads, (1/2), [0], [1], ex_dyn, [1], 2%nat, (fun lr es => ascend 1 sc lr (1/2) [0] es).
  split; [exact ex_shared_smooth|]. split; [exact G|]. split; [lra|]. split; [reflexivity|]. split; [exact TP|]. split; [exact TP|]. split; [lia|]. split; [exact TR|].
  pose proof (@C118_performance 2 1 ex_shared sc grads (1/2) [0] [1] ex_dyn [1] 2 (fun lr es => ascend 1 sc lr (1/2) [0] es) ex_shared_smooth G ltac:(lra) eq_refl TP ltac:(lia) TR) as D.
  assert (E0 := @performance_0 2 1 ex_shared sc ex_shared_smooth (1/2) [0] eq_refl [1] ex_dyn TP [1] 2 ltac:(lia) (fun lr es => ascend 1 sc lr (1/2) [0] es) TP (fun _ _ _ _ => eq_refl)).
  destruct (negative_slope D) as (d & Hd & H).
  - cbn [seq map]. rewrite total_cons. change (total []) with 0. unfold sc. rewrite !ex_mean. lra.
  - exists d. split; auto. intros lr Hlr. specialize (H lr Hlr). cbv beta in H. rewrite E0 in H. exact H.
Qed.
Print Assumptions C118_discounted_refuted.
