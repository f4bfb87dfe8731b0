(** Property C126: deterministic policy gradients in training, for discrete actions.  Specifications in DpgSpec.v. *)
From Coq Require Import List Lia Bool Arith Reals Lra.
From Verif Require Import PyCommon CommonProofs UtilsModel UtilsSpec UtilsProofs2 UtilsProofs3 DistModel DistSpec DistProofs LossModel LossProofs QModel TDModel TDSpec TDProofs TDProofs2 TDProofs3 TDProofs4 CoreModel CoreSpec CoreProofs CoreProofs2 TracerModel WorkerModel PolicyModel PolicySpec PolicyProofs2
  LearnModel LearnSpec LearnProofs LearnProofs2 LearnProofs3 LearnProofs4 LearnProofs5 LearnProofs7 LearnProps PgModel PgSpec PgProofs PgProofs4 PpoSpec PpoProofs PlayModel PlaySpec PlayProofs DpgModel DpgSpec DpgProofs DpgProofs2 DpgProofs3 DpgProofs4.
Import ListNotations.
Set Implicit Arguments.
Local Open Scope R_scope.

Lemma values_tq : forall nS nA qth h, has_values nS nA qth h -> length qth = (nS * nA)%nat /\ forall s a, (s < nS)%nat -> (a < nA)%nat -> h s a = tq nA qth s a.
Proof. intros nS nA qth h [L H]. split; auto. intros s a Hs Ha. specialize (H s a Hs Ha). rewrite (tab_call (@table1_tabular nS nA) qth L Hs Ha) in H. now injection H. Qed.
Lemma worth_ext : forall nA tau z h h', (forall a, (a < nA)%nat -> h a = h' a) -> worth nA tau z h = worth nA tau z h'.
Proof. intros nA tau z h h' H. unfold worth. now apply expectation_ext_in. Qed.

(** C126: what one update does to a table of logits.  The logits of a state move by learning rate times how much the state occurs in the
    batch times (relaxed greedy action) times (value of the action - value of the policy) / tau; the values are those of the critic. *)
Theorem C126_update : forall nS nA tau grads lr l th qth h b rows, (1 <= nA)%nat -> 0 < tau -> dpg_differentiates nS nA (nS * nA) tau (logit_table nS nA) grads -> l_opt l = sgd lr ->
  params_are (l_func l) th -> length th = (nS * nA)%nat -> has_values nS nA qth h -> has_states nS b rows ->
  exists l' th', dpg_update nA tau (logit_table nS nA) (table1 nS) grads (Node [0%nat] [Node [0%nat] [Leaf qth]]) b l = (l', Ok tt) /\ params_are (l_func l') th' /\ length th' = (nS * nA)%nat /\
  forall s a, (s < nS)%nat -> (a < nA)%nat -> let z := logit_table nS nA th s in
    nth a (logit_table nS nA th' s) 0 = nth a z 0 + lr * occurs s rows * (relaxed nA tau z a * (h s a - worth nA tau z (h s)) / tau).
Proof.
  intros nS nA tau grads lr l th qth h b rows HA Ht GR HO HP L HV HR. destruct (values_tq HV) as [Lq EV]. destruct (@table_step nS nA tau grads lr l th qth b rows HA Ht GR HO HP L Lq HR) as (l' & th' & E & _ & _ & _ & P & L' & V).
  exists l', th'. split; [exact E|]. split; [exact P|]. split; auto. intros s a Hs Ha z. unfold z. rewrite !table_logit by auto. destruct (Nat.ltb_spec s nS); [|lia]. rewrite (V s a Hs Ha), EV by auto. rewrite (@worth_ext nA tau _ (h s) (tq nA qth s)) by (intros; now apply EV). reflexivity.
Qed.
Print Assumptions C126_update.

(** An update never makes the policy worse under the values of its critic, in any state, whatever the learning rate and the batch. *)
Theorem C126_improves : forall nS nA tau grads lr l th qth h b rows, (1 <= nA)%nat -> 0 < tau -> dpg_differentiates nS nA (nS * nA) tau (logit_table nS nA) grads -> 0 <= lr -> l_opt l = sgd lr ->
  params_are (l_func l) th -> length th = (nS * nA)%nat -> has_values nS nA qth h -> has_states nS b rows ->
  exists l' th', dpg_update nA tau (logit_table nS nA) (table1 nS) grads (Node [0%nat] [Node [0%nat] [Leaf qth]]) b l = (l', Ok tt) /\ params_are (l_func l') th' /\
  forall s, (s < nS)%nat -> worth nA tau (logit_table nS nA th s) (h s) <= worth nA tau (logit_table nS nA th' s) (h s).
Proof.
  intros nS nA tau grads lr l th qth h b rows HA Ht GR Hlr HO HP L HV HR. destruct (values_tq HV) as [Lq EV]. destruct (@table_step nS nA tau grads lr l th qth b rows HA Ht GR HO HP L Lq HR) as (l' & th' & E & _ & _ & _ & P & L' & V).
  exists l', th'. split; [exact E|]. split; [exact P|]. intros s Hs. rewrite <- !(@soft_worth nS) by auto. pose proof (@occurs_bounds s rows (proj1 HR)) as OB. assert (P2 : 0 < / (tau * tau)) by (apply Rinv_0_lt_compat; now apply Rmult_lt_0_compat).
  pose proof (@step_up nA HA (fun c => nth (s * nA + c) th 0 / tau) (fun c => nth (s * nA + c) th' 0 / tau) (tq nA qth s) (h s) (/ (tau * tau) * (lr * occurs s rows)) 0) as U. assert (X := U ltac:(apply Rmult_le_pos; [lra|apply Rmult_le_pos; lra])). clear U.
  match type of X with ?A -> ?B -> ?C => assert (XA : A) end.
  { intros a Ha. rewrite (V s a Hs Ha). unfold adv. rewrite (@soft_relaxed nS), (@soft_worth nS) by auto. field. lra. }
  specialize (X XA). match type of X with ?A -> ?C => assert (XB : A) end. { intros a Ha. rewrite EV by auto. rewrite Rminus_eq_0, Rabs_R0. lra. } specialize (X XB). lra.
Qed.
Print Assumptions C126_improves.

(** The policy table with zeros and a critic; both batches contain the state 0 only. *)
Definition bandit_grads : list R -> list R -> fbatch nat -> list R := dpg_grads 2 4 1 (logit_table 2 2) (softmax_score 2 (netT 1 (logit_table 2 2)) (tjac 1 (table_jac 2 2))).
Definition bandit_pi : learner := mkLearner KTD (mkFunc 7 (wrap [0; 0; 0; 0]) (Node [] []) 0) (sgd (1/2)) (Node [] []).
Lemma bandit_differentiates : dpg_differentiates 2 2 (2 * 2) 1 (logit_table 2 2) bandit_grads.
Proof. apply (@dpg_grads_ok 2 2 (2 * 2) 1 (logit_table 2 2) _ ltac:(lra) (@tableT_smooth 2 2 1 ltac:(lia) ltac:(lra))). intros; apply table_length. Qed.
Lemma full_states : has_states 2 full_batch [(0%nat, 1); (0%nat, 1); (1%nat, 1); (1%nat, 1)].
Proof. split; [discriminate|]. split; [reflexivity|]. split; [reflexivity|]. intros r Hr. cbn in Hr. decompose [or] Hr; subst; cbn; try lia; contradiction. Qed.
Lemma small_values : has_values 2 2 [1; 2; 5; 0] (fun s a => tq 2 [1; 2; 5; 0] s a).
Proof. split; [reflexivity|]. intros s a Hs Ha. now apply (tab_call (@table1_tabular 2 2)). Qed.
Example C126_update_ex : dpg_differentiates 2 2 (2 * 2) 1 (logit_table 2 2) bandit_grads /\ l_opt bandit_pi = sgd (1/2) /\ params_are (l_func bandit_pi) [0; 0; 0; 0] /\ has_values 2 2 [1; 2; 5; 0] (fun s a => tq 2 [1; 2; 5; 0] s a) /\
  has_states 2 full_batch [(0%nat, 1); (0%nat, 1); (1%nat, 1); (1%nat, 1)].
Proof. split; [exact bandit_differentiates|]. split; [reflexivity|]. split; [reflexivity|]. split; [exact small_values|exact full_states]. Qed.

(** DeterministicPG refuses critics of type 2 with a TypeError, whatever the batch; the policy is not changed. *)
Theorem C126_type2 : forall nA tau net qnet f grads l th qth b, (forall w, qnet w = Type2 (f w)) -> params_are (l_func l) th ->
  exists l', dpg_update nA tau net qnet grads (Node [0%nat] [Node [0%nat] [Leaf qth]]) b l = (l', Err EType) /\ params_are (l_func l') th /\ l_ostate l' = l_ostate l.
Proof.
  intros nA tau net qnet f grads l th qth b HQ HP. eexists. unfold dpg_update, update, params_are in *. rewrite HP. cbn [dpg_grads_and_metrics unwrap]. unfold dpg_loss, dpg_objective. rewrite HQ. split; [reflexivity|]. split; [exact HP|reflexivity].
Qed.
Print Assumptions C126_type2.
Example C126_type2_ex : (forall w, table2 2 2 w = Type2 ((fun w s => linear 2 w (one_hot 2 s)) w)) /\ params_are (l_func bandit_pi) [0; 0; 0; 0].
Proof. split; reflexivity. Qed.

Lemma worth_le : forall nA tau z h m, (1 <= nA)%nat -> is_maximum nA h m -> worth nA tau z h <= m.
Proof.
  intros nA tau z h m HA [_ UB]. set (p := soft nA (fun c => nth c z 0 / tau)). change (worth nA tau z h) with (total (map (fun c => p c * h c) (seq 0 nA))). apply Rle_trans with (total (map (fun c => m * p c) (seq 0 nA))).
  - apply total_le. intros c Hc. apply in_seq in Hc. pose proof (@soft_pos nA HA (fun c => nth c z 0 / tau) c). specialize (UB c ltac:(lia)). unfold p. nra.
  - rewrite total_scal. unfold p. rewrite soft_one by auto. lra.
Qed.

(** With a fixed critic: in every state that occurs in infinitely many batches the value of the policy converges to the largest value of the
    critic, whatever the learning rate, the batches and the initial table. *)
Theorem C126_converges : forall nS nA tau grads loss qgrads sub use_targ lr qth h B d bs s m e, (1 <= nA)%nat -> 0 < tau -> dpg_differentiates nS nA (nS * nA) tau (logit_table nS nA) grads -> 0 < lr -> policy_ready nS nA lr sub d ->
  (if use_targ : bool then targ_params (d_q d) else q_params (d_q d)) = Node [0%nat] [Node [0%nat] [Leaf qth]] -> has_values nS nA qth h -> (1 <= B)%nat ->
  (forall t, exists rows, has_states nS (bs t) rows /\ (length rows <= B)%nat) -> (s < nS)%nat -> (forall K, exists t, (K <= t)%nat /\ In s (fb_S (bs t))) -> is_maximum nA (h s) m -> 0 < e ->
  exists N, forall t, (N <= t)%nat -> exists d' th, drun nA tau (logit_table nS nA) (table1 nS) loss qgrads grads sub use_targ d (map (fun k => DPi (bs k)) (seq 0 t)) = (d', Ok tt) /\ params_are (l_func (d_pi d')) th /\ length th = (nS * nA)%nat /\
    m - e <= worth nA tau (logit_table nS nA th s) (h s) <= m.
Proof.
  intros nS nA tau grads loss qgrads sub use_targ lr qth h B d bs s m e HA Ht GR Hlr (PO & PC & PS & (th0 & PT & LT) & PP) EQ HV HB BS Hs INF Hm He. destruct (values_tq HV) as [Lq EV].
  set (run := drun nA tau (logit_table nS nA) (table1 nS) loss qgrads grads sub use_targ). set (ops := fun k => DPi (bs k)).
  assert (RUN : forall t, exists l, run d (stretch ops 0 t) = (mkD (d_q d) l (d_pi_targ d), Ok tt) /\ l_opt l = sgd lr /\ exists th, f_params (l_func l) = wrap th /\ length th = (nS * nA)%nat).
  { induction t as [|t (l & E & O & th & P & L)].
    - exists (d_pi d). cbn. split; [destruct d; reflexivity|]. split; auto. exists th0. split; auto.
    - destruct (BS t) as (rows & HR & _). destruct (@table_step nS nA tau grads lr l th qth (bs t) rows HA Ht GR O P L Lq HR) as (l' & th' & E' & O' & _ & _ & P' & L' & _).
      exists l'. replace (S t) with (t + 1)%nat by lia. rewrite stretch_app. unfold run. rewrite drun_app. fold run. rewrite E. cbn [stretch seq map Nat.add]. unfold run, ops. cbn [drun dstep d_q d_pi d_pi_targ]. rewrite EQ. change (Node [0%nat] [Node [0%nat] [Leaf qth]]) with (wrap qth). rewrite E'. split; auto. split; auto. eauto. }
  set (lt := fun t => d_pi (fst (run d (stretch ops 0 t)))). set (th := fun t => pars (f_params (l_func (lt t)))).
  assert (LTH : forall t, run d (stretch ops 0 t) = (mkD (d_q d) (lt t) (d_pi_targ d), Ok tt) /\ l_opt (lt t) = sgd lr /\ f_params (l_func (lt t)) = wrap (th t) /\ length (th t) = (nS * nA)%nat).
  { intros t. destruct (RUN t) as (l & E & O & x & P & L). unfold th, lt. rewrite E. cbn [fst d_pi]. rewrite P, pars_wrap. auto. }
  set (eta := fun t => lr * occurs s (combine (fb_S (bs t)) (fb_W (bs t)))).
  assert (STEP : forall t a, (a < nA)%nat -> nth (s * nA + a) (th (S t)) 0 = nth (s * nA + a) (th t) 0 + eta t * (relaxed nA tau (logit_table nS nA (th t) s) a * (h s a - worth nA tau (logit_table nS nA (th t) s) (h s)) / tau)).
  { intros t a Ha. destruct (LTH t) as (E & O & P & L). destruct (LTH (S t)) as (E1 & _ & P1 & _). destruct (BS t) as (rows & HR & _). destruct (@table_step nS nA tau grads lr (lt t) (th t) qth (bs t) rows HA Ht GR O P L Lq HR) as (l' & th' & E' & _ & _ & _ & P' & _ & V).
    replace (S t) with (t + 1)%nat in E1 at 1 by lia. rewrite stretch_app in E1. unfold run in E1, E. rewrite drun_app, E in E1. cbn [stretch seq map Nat.add] in E1. unfold ops in E1. cbn [drun dstep d_q d_pi d_pi_targ] in E1. rewrite EQ in E1. change (Node [0%nat] [Node [0%nat] [Leaf qth]]) with (wrap qth) in E1. rewrite E' in E1. assert (EL : l' = lt (S t)) by (now injection E1).
    assert (th' = th (S t)) by (rewrite EL, P1 in P'; now injection P'). subst th'. rewrite (V s a Hs Ha). unfold eta. rewrite (rows_combine HR). rewrite (EV s a Hs Ha). rewrite (@worth_ext nA tau _ (h s) (tq nA qth s)) by (intros; now apply EV). reflexivity. }
  assert (SZ : forall t, 0 <= eta t <= lr * 10). { intros t. unfold eta. destruct (BS t) as (rows & HR & _). rewrite (rows_combine HR). pose proof (@occurs_bounds s rows (proj1 HR)). split; [apply Rmult_le_pos; lra|apply Rmult_le_compat_l; lra]. }
  assert (HB' : 0 < INR B) by (apply lt_0_INR; lia).
  destruct (@table_ascent nS nA HA tau Ht s Hs th eta (fun _ => h s) (h s) (fun _ => 0) (fun _ => 0) (lr * 10)) with (e := e) as (N & HN); auto.
  - apply (@far_sum _ (lr * / (10 * INR B))); [intros; apply SZ|apply Rmult_lt_0_compat; auto; apply Rinv_0_lt_compat; lra|]. intros K. destruct (INF K) as (t & Lt & TS). exists t. split; auto. unfold eta. destruct (BS t) as (rows & HR & LB). rewrite (rows_combine HR). apply Rmult_le_compat_l; [lra|]. apply occurs_in; auto. destruct HR as (_ & H1 & _). now rewrite <- H1.
  - intros t a Ha. rewrite Rminus_eq_0, Rabs_R0. lra.
  - intros t. lra.
  - intros t. lra.
  - apply bdd_zero.
  - exists N. intros t Lt. destruct (LTH t) as (E & _ & P & L). exists (mkD (d_q d) (lt t) (d_pi_targ d)), (th t). split; [exact E|]. split; [exact P|]. split; auto. split; [|now apply worth_le]. destruct Hm as [(a & Ha & <-) _]. now apply HN.
Qed.
Print Assumptions C126_converges.
Definition bandit_d (targ : option func) : ddpg := mkD (small_y targ) bandit_pi (mkFunc 7 (wrap [0; 0; 0; 0]) (Node [] []) 0).
Lemma bandit_ready : forall targ, policy_ready 2 2 (1/2) Nat.eqb (bandit_d targ).
Proof. intros targ. split; [reflexivity|]. split; [reflexivity|]. split; [reflexivity|]. split; exists [0; 0; 0; 0]; split; reflexivity. Qed.
Example C126_converges_ex : policy_ready 2 2 (1/2) Nat.eqb (bandit_d None) /\ q_params (d_q (bandit_d None)) = Node [0%nat] [Node [0%nat] [Leaf [0; 0; 0; 0]]] /\ forall K, exists t, (K <= t)%nat /\ In 1%nat (fb_S full_batch).
Proof. split; [apply bandit_ready|]. split; [reflexivity|]. intros K. exists K. split; auto. cbn. auto. Qed.

(** Whole programs: updates of the critic (Q-learning, with or without target network) and of the policy in any order.  If every M calls
    contain a round of the critic, then in every state in which the policy keeps being updated its value under the optimal values q
    converges to the optimal value.  DeterministicPG may look at the critic or at its target network. *)
Theorem C126_ddpg : forall nS nA tau dyn gamma loss qgrads grads sub use_targ lr lrp wl cl D B q tau0 M d ops s m e,
  setting nS nA dyn gamma (table1 nS) (target_q nA (table1 nS)) (by_max nA) loss qgrads lr wl cl D B -> gamma < 1 -> bellman nS nA dyn gamma (by_max nA) q -> 0 < tau ->
  dpg_differentiates nS nA (nS * nA) tau (logit_table nS nA) grads -> 0 < lrp -> policy_ready nS nA lrp sub d -> sgd_learner lr sub (d_q d) -> within nS nA (table1 nS) (q_params (d_q d)) q D -> within nS nA (table1 nS) (targ_params (d_q d)) q D ->
  0 < tau0 <= 1 -> (forall t, dop_ok nS nA dyn gamma lr wl B (d_q d) (ops t)) -> critic_regular nS nA dyn gamma lr wl tau0 B M (d_q d) ops -> (s < nS)%nat -> keeps_training s ops -> is_maximum nA (q s) m -> 0 < e ->
  exists N, forall t, (N <= t)%nat -> exists d' th, drun nA tau (logit_table nS nA) (table1 nS) loss qgrads grads sub use_targ d (stretch ops 0 t) = (d', Ok tt) /\ params_are (l_func (d_pi d')) th /\ length th = (nS * nA)%nat /\
    m - e <= worth nA tau (logit_table nS nA th s) (q s) <= m.
Proof.
  intros nS nA tau dyn gamma loss qgrads grads sub use_targ lr lrp wl cl D B q tau0 M d ops s m e SET Hg BE Ht DG Hlrp PR SG W1 W2 Ht0 OKS REG Hs KT Hm He. pose proof (beta_le SET) as Hb. destruct SET as (HA & CL & Hg' & TB & AL & PL & GR & Hlr & Hwl & Hlw & HB & HD). pose proof (table_tabular TB) as T. destruct (algorithm_ok HA T AL) as [ST NX].
  assert (I0 : dinv nS nA sub lr q lrp d D) by (split; auto; now apply (@good_within _ _ _ _ _ _ _ _ T)). assert (Hg2 : 0 <= gamma < 1) by lra.
  pose proof (@ddpg_worth nS nA HA tau Ht dyn CL gamma Hg2 loss qgrads sub D cl lr wl B HD HB ST NX PL GR Hlr Hwl q BE grads DG lrp Hlrp use_targ tau0 Ht0 Hb ops M d I0 OKS REG ltac:(lia) s Hs KT e He) as (N & HN).
  exists N. intros t Lt. destruct (@run_to nS nA HA tau Ht dyn CL gamma Hg2 loss qgrads sub D cl lr wl B HD HB ST NX PL GR Hlr Hwl q BE grads DG lrp use_targ tau0 Ht0 Hb ops M d I0 OKS REG ltac:(lia) t) as (E & I & _). destruct (table_ok I) as (P & L).
  eexists _, _. split; [exact E|]. split; [exact P|]. split; [exact L|]. split; [|now apply worth_le]. destruct Hm as [(a & Ha & <-) _]. now apply HN.
Qed.
Print Assumptions C126_ddpg.
(** A program that updates critic and policy on all pairs and states, as in ddpg.py: policy, critic, synchronisations. *)
Definition cycle_ops (k : nat) : dop := match k mod 4 with 0%nat => DPi full_batch | 1%nat => DQ (YUpdate full_batch) | 2%nat => DQ (YSync (1/10)) | _ => DSync (1/10) end.
Example C126_ddpg_ex : let y := small_y (Some small_targ) in sgd_learner (1/2) Nat.eqb y /\ policy_ready 2 2 (1/2) Nat.eqb (bandit_d (Some small_targ)) /\ (forall t, dop_ok 2 2 small (1/2) (1/2) 1 4 y (cycle_ops t)) /\
  critic_regular 2 2 small (1/2) (1/2) 1 (1/10) 4 4 y cycle_ops /\ forall s, (s < 2)%nat -> keeps_training s cycle_ops.
Proof.
  intros y. destruct (C103_ex (Rle_refl 0)) as (_ & _ & _ & _ & SG & RD). split; [exact SG|]. split; [apply bandit_ready|]. split.
  { intros t. unfold cycle_ops. destruct (t mod 4) as [|[|[|k]]]; cbn [dop_ok].
    - eexists. split; [exact full_states|cbn; lia].
    - split; [exact full_ok|discriminate].
    - split; [cbn; lra|discriminate].
    - lra. }
  assert (MD : forall k j, (j < 4)%nat -> ((k * 4 + j) mod 4 = j)%nat) by (intros k j Hj; rewrite Nat.add_comm, Nat.mod_add by lia; now apply Nat.mod_small).
  split.
  - intros k. exists (k * 4)%nat, 4%nat. split; [lia|]. split; [lia|]. assert (E : critic_ops (stretch cycle_ops (k * 4) 4) = [YUpdate full_batch; YSync (1/10)]); [|rewrite E; exact RD].
    unfold stretch. replace (seq (k * 4) 4) with (map (fun j => (k * 4 + j)%nat) (seq 0 4)) by (cbn [seq map]; repeat (f_equal; try lia)). cbn [seq map]. unfold cycle_ops. rewrite !MD by lia. reflexivity.
  - intros s Hs K. exists (K * 4 + 0)%nat. split; [lia|]. unfold cycle_ops. rewrite MD by lia. cbn. destruct s as [|[|s]]; auto. lia.
Qed.

(** Hence, once every state has been trained often enough, an agent that follows the mode (or mean) of the policy acts optimally for ever, and
    an episode of n steps earns the optimal return up to what can be earned after the last step. *)
Lemma all_states : forall (P : nat -> nat -> Prop) nS, (forall s, (s < nS)%nat -> exists N, forall t, (N <= t)%nat -> P s t) -> exists N, forall t, (N <= t)%nat -> forall s, (s < nS)%nat -> P s t.
Proof.
  intros P nS. induction nS as [|k IH]; intros H; [exists 0%nat; intros; lia|]. destruct IH as (N1 & H1); [intros; apply H; lia|]. destruct (H k ltac:(lia)) as (N2 & H2). exists (Nat.max N1 N2). intros t Lt s Hs. destruct (Nat.eq_dec s k) as [-> | NE]; [apply H2; lia|apply H1; lia].
Qed.
Theorem C126_play : forall nS nA tau dyn gamma loss qgrads grads sub use_targ lr lrp wl cl D B q Q tau0 M d ops, (1 <= nS)%nat ->
  setting nS nA dyn gamma (table1 nS) (target_q nA (table1 nS)) (by_max nA) loss qgrads lr wl cl D B -> gamma < 1 -> bellman nS nA dyn gamma (by_max nA) q -> (forall s a, (s < nS)%nat -> (a < nA)%nat -> Rabs (q s a) <= Q) -> 0 < tau ->
  dpg_differentiates nS nA (nS * nA) tau (logit_table nS nA) grads -> 0 < lrp -> policy_ready nS nA lrp sub d -> sgd_learner lr sub (d_q d) -> within nS nA (table1 nS) (q_params (d_q d)) q D -> within nS nA (table1 nS) (targ_params (d_q d)) q D ->
  0 < tau0 <= 1 -> (forall t, dop_ok nS nA dyn gamma lr wl B (d_q d) (ops t)) -> critic_regular nS nA dyn gamma lr wl tau0 B M (d_q d) ops -> (forall s, (s < nS)%nat -> keeps_training s ops) ->
  exists N, forall t, (N <= t)%nat -> exists d' th, drun nA tau (logit_table nS nA) (table1 nS) loss qgrads grads sub use_targ d (stretch ops 0 t) = (d', Ok tt) /\ params_are (l_func (d_pi d')) th /\ length th = (nS * nA)%nat /\
  forall agent gss s m, greedy_agent nA (fun s => Ok (logit_table nS nA th s)) agent -> (forall gs, In gs gss -> noise nA gs) -> (s < nS)%nat -> is_maximum nA (q s) m ->
  exists h, play agent dyn s gss = Ok h /\ episode_of dyn (length gss) s h /\ (forall s' a r d, In (s', a, r, d) h -> PolicySpec.optimal nA (q s') a) /\
    m - gamma ^ length gss * Q <= gain gamma h <= m + gamma ^ length gss * Q.
Proof.
  intros nS nA tau dyn gamma loss qgrads grads sub use_targ lr lrp wl cl D B q Q tau0 M d ops HS SET Hg BE HQ Ht DG Hlrp PR SG W1 W2 Ht0 OKS REG KT. pose proof (proj1 SET) as HA. pose proof (proj1 (proj2 SET)) as CL. pose proof (proj1 (proj2 (proj2 SET))) as Hg'.
  destruct (@all_gap nS nA q HA) as (gp & Hgp & GAP). assert (PI : 0 < INR nA) by (apply lt_0_INR; lia). assert (He : 0 < gp / (2 * INR nA)) by (apply Rmult_lt_0_compat; auto; apply Rinv_0_lt_compat; lra).
  set (run := drun nA tau (logit_table nS nA) (table1 nS) loss qgrads grads sub use_targ d).
  destruct (@all_states (fun s t => exists d' th, run (stretch ops 0 t) = (d', Ok tt) /\ params_are (l_func (d_pi d')) th /\ length th = (nS * nA)%nat /\ forall a, (a < nA)%nat -> q s a - gp / (2 * INR nA) <= worth nA tau (logit_table nS nA th s) (q s)) nS) as (N & HN).
  { intros s Hs. destruct (@max_exists nA HA (q s)) as (m & Hm). destruct (@C126_ddpg nS nA tau dyn gamma loss qgrads grads sub use_targ lr lrp wl cl D B q tau0 M d ops s m _ SET Hg BE Ht DG Hlrp PR SG W1 W2 Ht0 OKS REG Hs (KT s Hs) Hm He) as (N & HN).
    exists N. intros t Lt. destruct (HN t Lt) as (d' & th & E & P & L & W & _). exists d', th. split; auto. split; auto. split; auto. intros a Ha. pose proof (proj2 Hm a Ha). lra. }
  exists N. intros t Lt. specialize (HN t Lt). destruct (HN 0%nat HS) as (d' & th & E & P & L & _). exists d', th. split; [exact E|]. split; auto. split; auto. intros agent gss s m GA NO Hs Hm.
  assert (OPT : forall s a, (s < nS)%nat -> maximal_at (logit_table nS nA th s) a -> PolicySpec.optimal nA (q s) a).
  { intros s0 a Hs0 MX. destruct (HN s0 Hs0) as (d1 & th1 & E1 & P1 & _ & W). rewrite E in E1. injection E1 as <-. red in P, P1. rewrite P in P1. injection P1 as <-. apply (@mode_best nA tau (logit_table nS nA th s0) (q s0) gp a HA Ht (table_length nS nA th s0) Hgp); auto. }
  assert (CH : forall s gs, (s < nS)%nat -> noise nA gs -> exists a, agent s gs = Ok a /\ PolicySpec.optimal nA (q s) a).
  { intros s0 gs Hs0 Hn. destruct GA as [t0 Ht1|].
    - destruct (@mode_maximal nA t0 (logit_table nS nA th s0) gs HA Ht1 (table_length nS nA th s0) Hn) as (a & Ea & MX). exists a. split; [exact Ea|now apply OPT].
    - destruct (@mean_maximal nA (logit_table nS nA th s0) gs HA (table_length nS nA th s0) Hn) as (a & Ea & MX). exists a. split; [exact Ea|now apply OPT]. }
  assert (OM : forall s a m, is_maximum nA (q s) m -> PolicySpec.optimal nA (q s) a -> (a < nA)%nat /\ q s a = m). { intros s0 a m0 [(c & Hc & <-) UB] [Ha O]. split; auto. apply Rle_antisym; [now apply UB|now apply O]. }
  destruct (@play_gain nS nA dyn gamma q CL Hg' BE Q HQ _ agent (noise nA) 0) with (xs := gss) (s := s) (m := m) as (h & PL & EP & AC & G); auto.
  - intros s0 x m0 Hs0 Hx Hm0. destruct (CH s0 x Hs0 Hx) as (a & Ea & O). destruct (OM s0 a m0 Hm0 O) as [Ha Em]. exists a. split; auto. split; auto. lra.
  - exists h. split; auto. split; auto. split; [|lra]. intros s' a r d0 I. destruct (AC _ _ _ _ I) as (Hs' & x & Ix & Ex). destruct (CH s' x Hs' (NO x Ix)) as (b & Eb & O). assert (a = b) by congruence. now subst b.
Qed.
Print Assumptions C126_play.

(** The number of updates that this takes cannot be bounded: for every N there is an initial table whose most likely action is still the bad one
    after N updates with the same critic and batch. *)
Definition one_row : fbatch nat := mk_fb [0%nat] [one_hot 2 0] [1] (mk_tb [1] [0] [0%nat] [one_hot 2 0]).
Definition slow_grads : list R -> list R -> fbatch nat -> list R := dpg_grads 2 2 1 (logit_table 1 2) (softmax_score 2 (netT 1 (logit_table 1 2)) (tjac 1 (table_jac 1 2))).
Definition slow_d (N : nat) : ddpg := mkD (mkSys (mkLearner KTD (mkFunc 0 (wrap [1; 0]) (Node [] []) 0) (sgd 1) (Node [] [])) None) (mkLearner KTD (mkFunc 7 (wrap [- (2 * INR N + 1); 0]) (Node [] []) 0) (sgd 1) (Node [] [])) (mkFunc 7 (wrap [0; 0]) (Node [] []) 0).
Lemma slow_differentiates : dpg_differentiates 1 2 (1 * 2) 1 (logit_table 1 2) slow_grads.
Proof. apply (@dpg_grads_ok 1 2 (1 * 2) 1 (logit_table 1 2) _ ltac:(lra) (@tableT_smooth 1 2 1 ltac:(lia) ltac:(lra))). intros; apply table_length. Qed.
Lemma one_row_states : has_states 1 one_row [(0%nat, 1)].
Proof. split; [discriminate|]. split; [reflexivity|]. split; [reflexivity|]. intros r [<-|[]]. cbn. lia. Qed.
Theorem C126_slow_refuted : forall N, exists d d' th, policy_ready 1 2 1 Nat.eqb d /\ q_params (d_q d) = Node [0%nat] [Node [0%nat] [Leaf [1; 0]]] /\ has_values 1 2 [1; 0] (fun _ a => nth a [1; 0] 0) /\ dpg_differentiates 1 2 (1 * 2) 1 (logit_table 1 2) slow_grads /\
  has_states 1 one_row [(0%nat, 1)] /\ drun 2 1 (logit_table 1 2) (table1 1) mse slow_grads slow_grads Nat.eqb false d (repeat (DPi one_row) N) = (d', Ok tt) /\ params_are (l_func (d_pi d')) th /\ length th = 2%nat /\
  forall agent gs, greedy_agent 2 (fun s => Ok (logit_table 1 2 th s)) agent -> noise 2 gs -> agent 0%nat gs = Ok 1%nat.
Proof.
  intros N. assert (HV : has_values 1 2 [1; 0] (fun _ a => nth a [1; 0] 0)). { split; [reflexivity|]. intros s a Hs Ha. assert (s = 0%nat) by lia. subst s. exact (tab_call (@table1_tabular 1 2) [1; 0] eq_refl Hs Ha). }
  assert (RUN : forall k l x0 x1, f_params (l_func l) = wrap [x0; x1] -> l_opt l = sgd 1 -> exists l' y0 y1, drun 2 1 (logit_table 1 2) (table1 1) mse slow_grads slow_grads Nat.eqb false (mkD (d_q (slow_d N)) l (d_pi_targ (slow_d N))) (repeat (DPi one_row) k) = (mkD (d_q (slow_d N)) l' (d_pi_targ (slow_d N)), Ok tt) /\
    f_params (l_func l') = wrap [y0; y1] /\ x1 - x0 - 2 * INR k <= y1 - y0).
  { induction k as [|k IH]; intros l x0 x1 P O; [exists l, x0, x1; split; [reflexivity|]; split; auto; cbn; lra|].
    destruct (@table_step 1 2 1 slow_grads 1 l [x0; x1] [1; 0] one_row _ ltac:(lia) ltac:(lra) slow_differentiates O P eq_refl eq_refl one_row_states) as (l' & th' & E & O' & _ & _ & P' & L' & V).
    destruct th' as [|y0 [|y1 [|]]]; try discriminate. pose proof (V 0%nat 0%nat ltac:(lia) ltac:(lia)) as V0. pose proof (V 0%nat 1%nat ltac:(lia) ltac:(lia)) as V1. cbn [Nat.mul Nat.add nth] in V0, V1.
    assert (OC : occurs 0 [(0%nat, 1)] = 1). { unfold occurs, mean, weight, total. cbn. rewrite Rmax_left by lra. rewrite Rmin_left by lra. lra. } rewrite OC in V0, V1.
    set (z := logit_table 1 2 [x0; x1] 0%nat) in *. set (p := relaxed 2 1 z) in *. assert (PW : forall a, (a < 2)%nat -> 0 <= p a <= 1). { intros a Ha. change (p a) with (soft 2 (fun c => nth c z 0 / 1) a). split; [left; apply soft_pos; lia|apply soft_le1; auto; lia]. }
    assert (WV : worth 2 1 z (tq 2 [1; 0] 0%nat) = p 0%nat). { unfold worth, expectation. fold p. unfold total. cbn. unfold tq. cbn. lra. } rewrite WV in V0, V1. unfold tq in V0, V1. cbn [Nat.mul Nat.add nth] in V0, V1.
    pose proof (PW 0%nat ltac:(lia)) as Q0. pose proof (PW 1%nat ltac:(lia)) as Q1. assert (A0 : p 0%nat * (1 - p 0%nat) <= 1) by nra. assert (A1 : p 1%nat * p 0%nat <= 1) by nra.
    destruct (IH l' y0 y1 P' O') as (l2 & w0 & w1 & E2 & P2 & G2). exists l2, w0, w1. split.
    - cbn [repeat drun dstep d_q d_pi d_pi_targ]. change (q_params (d_q (slow_d N))) with (wrap [1; 0]). rewrite E. exact E2.
    - split; auto. rewrite S_INR. lra. }
  destruct (RUN N (d_pi (slow_d N)) (- (2 * INR N + 1)) 0 eq_refl eq_refl) as (l' & y0 & y1 & E & P & G). exists (slow_d N). eexists. exists [y0; y1]. split; [split; [reflexivity|]; split; [reflexivity|]; split; [reflexivity|]; split; eexists; split; reflexivity|]. split; [reflexivity|]. split; [exact HV|]. split; [exact slow_differentiates|]. split; [exact one_row_states|]. split; [exact E|]. split; [exact P|]. split; [reflexivity|].
  intros agent gs GA NO. assert (MX : forall a, maximal_at (logit_table 1 2 [y0; y1] 0%nat) a -> a = 1%nat). { intros a [Ha MX]. rewrite table_length in *. destruct a as [|[|a]]; [|reflexivity|lia]. exfalso. specialize (MX 1%nat ltac:(lia)). rewrite !table_logit in MX by lia. cbn in MX. lra. }
  destruct GA as [t0 Ht1|].
  - destruct (@mode_maximal 2 t0 (logit_table 1 2 [y0; y1] 0%nat) gs ltac:(lia) Ht1 (table_length 1 2 _ _) NO) as (a & Ea & M). rewrite (MX a M) in Ea. exact Ea.
  - destruct (@mean_maximal 2 (logit_table 1 2 [y0; y1] 0%nat) gs ltac:(lia) (table_length 1 2 _ _) NO) as (a & Ea & M). rewrite (MX a M) in Ea. exact Ea.
Qed.
Print Assumptions C126_slow_refuted.

(** With a network with a bias, as hk.Linear has by default (also in ddpg.py), an update on one state can make the policy worse in another. *)
Definition bias_grads_pi : list R -> list R -> fbatch nat -> list R := dpg_grads 2 6 1 (logit_table_b 2 2) (softmax_score 2 (netT 1 (logit_table_b 2 2)) (tjac 1 (table_b_jac 2 2))).
Definition bias_pi : learner := mkLearner KTD (mkFunc 7 (wrap [0; 0; 0; 0; 0; 0]) (Node [] []) 0) (sgd 1) (Node [] []).
Lemma bias_smooth : smooth_policy 2 6 (netT 1 (logit_table_b 2 2)) (softmax_score 2 (netT 1 (logit_table_b 2 2)) (tjac 1 (table_b_jac 2 2))).
Proof. apply (@tableT_b_smooth 2 2 1); [lia|lra]. Qed.
Lemma bias_differentiates : dpg_differentiates 2 2 6 1 (logit_table_b 2 2) bias_grads_pi.
Proof. apply (@dpg_grads_ok 2 2 6 1 (logit_table_b 2 2) _ ltac:(lra) bias_smooth). intros; now apply table_b_length. Qed.
Lemma two_worth : forall z h, worth 2 1 z h = (exp (nth 0 z 0) * h 0%nat + exp (nth 1 z 0) * h 1%nat) / (exp (nth 0 z 0) + exp (nth 1 z 0)).
Proof.
  intros z h. unfold worth, expectation, relaxed, total. cbn [seq map fold_right]. unfold Rdiv. rewrite !Rinv_1, !Rmult_1_r, !Rplus_0_r. ring.
Qed.
Theorem C126_bias_refuted : exists l l' th th' b, has_states 2 b [(0%nat, 1)] /\ dpg_differentiates 2 2 6 1 (logit_table_b 2 2) bias_grads_pi /\ l_opt l = sgd 1 /\ params_are (l_func l) th /\ has_values 2 2 [1; 0; 0; 1] (fun s a => tq 2 [1; 0; 0; 1] s a) /\
  dpg_update 2 1 (logit_table_b 2 2) (table1 2) bias_grads_pi (Node [0%nat] [Node [0%nat] [Leaf [1; 0; 0; 1]]]) b l = (l', Ok tt) /\ params_are (l_func l') th' /\
  worth 2 1 (logit_table_b 2 2 th' 1) (fun a => tq 2 [1; 0; 0; 1] 1 a) < worth 2 1 (logit_table_b 2 2 th 1) (fun a => tq 2 [1; 0; 0; 1] 1 a).
Proof.
  assert (HR : has_states 2 one_row [(0%nat, 1)]) by (split; [discriminate|]; split; [reflexivity|]; split; [reflexivity|]; intros r [<-|[]]; cbn; lia).
  destruct (@dpg_step 2 2 6 1 (logit_table_b 2 2) _ ltac:(lra) bias_smooth ltac:(intros; now apply table_b_length) bias_grads_pi bias_differentiates 1 bias_pi [0; 0; 0; 0; 0; 0] [1; 0; 0; 1] one_row _ eq_refl eq_refl eq_refl eq_refl HR) as (l' & E & _ & _ & _ & P).
  exists bias_pi, l', [0; 0; 0; 0; 0; 0]. eexists. exists one_row. split; [exact HR|]. split; [exact bias_differentiates|]. split; [reflexivity|]. split; [reflexivity|]. split; [split; [reflexivity|]; intros s a Hs Ha; exact (tab_call (@table1_tabular 2 2) [1; 0; 0; 1] eq_refl Hs Ha)|]. split; [exact E|]. split; [exact P|].
  set (sl := fun i => mean (map (fun r : nat * R => weight (snd r) * slope_at 2 1 (logit_table_b 2 2) (softmax_score 2 (netT 1 (logit_table_b 2 2)) (tjac 1 (table_b_jac 2 2))) [1; 0; 0; 1] [0; 0; 0; 0; 0; 0] (fst r) i) [(0%nat, 1)])).
  assert (Z : forall s a, (a < 2)%nat -> nth a (logit_table_b 2 2 [0; 0; 0; 0; 0; 0] s) 0 = 0). { intros s a Ha. rewrite table_b_logit by auto. destruct a as [|[|a]]; [| |lia]; destruct s as [|[|s]]; cbn; lra. }
  assert (PR : forall c, (c < 2)%nat -> prob 2 (netT 1 (logit_table_b 2 2)) [0; 0; 0; 0; 0; 0] 0%nat c = 1/2).
  { intros c Hc. rewrite <- (@relaxed_prob 2 1 (logit_table_b 2 2)) by (auto; now apply table_b_length). unfold relaxed, total. cbn [seq map fold_right]. rewrite !Z by lia. unfold Rdiv. rewrite Rmult_0_l, exp_0. lra. }
  assert (SL : sl 0%nat = 1/4 /\ sl 1%nat = - (1/4) /\ sl 4%nat = 0 /\ sl 5%nat = 0).
  { assert (X : forall i, sl i = 1/4 * (tjac 1 (table_b_jac 2 2) [0; 0; 0; 0; 0; 0] 0%nat 0%nat i - tjac 1 (table_b_jac 2 2) [0; 0; 0; 0; 0; 0] 0%nat 1%nat i)).
    { intros i. unfold sl, mean, total, weight. cbn [map fold_right snd fst length INR]. rewrite Rmax_left by lra. rewrite Rmin_left by lra. unfold slope_at, softmax_score, expectation, total. cbn [seq map fold_right]. rewrite !PR by lia. unfold tq. cbn [Nat.mul Nat.add nth]. lra. }
    rewrite !X. unfold tjac, table_b_jac. cbn. lra. }
  destruct SL as (S0 & S1 & S4 & S5). match goal with |- worth 2 1 (logit_table_b 2 2 ?m 1) _ < _ => change m with (map (fun i => nth i [0; 0; 0; 0; 0; 0] 0 + 1 * sl i) (seq 0 6)) end. clearbody sl. rewrite !two_worth, !Z by lia. rewrite !table_b_logit by (auto; lia). cbn [seq Nat.add Nat.mul map nth Nat.ltb Nat.leb].  rewrite S0, S1, S4, S5. unfold tq. cbn [Nat.mul Nat.add nth]. rewrite exp_0.
  match goal with |- (exp ?a * 0 + exp ?b * 1) / _ < _ => replace a with (1/4) by lra; replace b with (- (1/4)) by lra end. assert (H : exp (- (1/4)) < exp (1/4)) by (apply exp_increasing; lra). pose proof (exp_pos (- (1/4))). pose proof (exp_pos (1/4)).
  apply (Rmult_lt_reg_r (exp (1/4) + exp (- (1/4)))); [lra|]. unfold Rdiv. rewrite Rmult_assoc, Rinv_l by lra. lra.
Qed.
Print Assumptions C126_bias_refuted.
