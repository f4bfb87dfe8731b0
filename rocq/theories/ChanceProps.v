(** Property C131: what an agent earns in a stochastic environment.  Specifications in ChanceSpec.v. *)
From Coq Require Import List Lia Bool Arith Reals Lra.
From Verif Require Import PyCommon CommonProofs UtilsModel UtilsSpec UtilsProofs2 UtilsProofs3 DistModel DistSpec DistProofs DistProofs2 LossModel LossSpec LossProofs QModel TDModel TDSpec TDProofs TDProofs2 TDProofs3 TDProofs4 PolicyModel PolicySpec PolicyProofs PolicyProofs2 PolicyProofs3 PolicyProofs4 PolicyProofs5 PolicyProps.
From Verif Require Import MeanSpec MeanProofs GumbelProps CoreModel CoreSpec LearnModel LearnSpec LearnProofs LearnProofs2 LearnProofs3 LearnProofs4 LearnProofs5 LearnProofs6 LearnProofs7 NoiseSpec NoiseProofs NoiseProofs2 NoiseProofs3 NoiseProofs4 NoiseProofs5 NoiseProps PlayModel PlaySpec PlayProofs PlayProofs2 PlayProofs3 PlayProps ChanceModel ChanceSpec ChanceProofs ChanceProofs2.
Import ListNotations.
Set Implicit Arguments.
Local Open Scope R_scope.

(** C131: an agent that follows the mode (or mean) of EpsilonGreedy or BoltzmannPolicy never raises; its mean discounted sum of rewards, over
    the noise of the environment, is at most 2 D per step below the optimal one, when the numbers that the q-function returns are at most D away
    from the optimal mean values q.  The last term is what can be earned after the last step. *)
Theorem C131_greedy : forall nS nA dyn P gamma q M g f D policy agent gss s m, (1 <= nA)%nat -> distribution P -> all_closed nS nA (length P) dyn -> 0 <= gamma <= 1 ->
  mean_bellman nS nA (length P) dyn P gamma (by_max nA) q -> (forall s a, (s < nS)%nat -> (a < nA)%nat -> Rabs (q s a) <= M) -> rising g -> close_to nS nA g f q D -> value_based nA f policy -> greedy_agent nA policy agent ->
  (forall gs, In gs gss -> noise nA gs) -> (s < nS)%nat -> is_maximum nA (q s) m ->
  (forall ws, noise_list (length P) (length gss) ws -> exists h, chance_play agent dyn s (combine gss ws) = Ok h /\ chance_episode dyn ws s h /\ (forall s' a r d, In (s', a, r, d) h -> PolicySpec.optimal nA (qval nA f s') a)) /\
  forall G, chance_gain gamma agent dyn (length P) s gss G ->
    m - 2 * D * geometric gamma (length gss) - gamma ^ length gss * M <= mean_over P (length gss) G <= m + gamma ^ length gss * M.
Proof.
  intros nS nA dyn P gamma q M g f D policy agent gss s m HA HP CL Hg BE HM Hr C V GA N Hs Hm. pose proof C as [W _].
  assert (CH : forall s x m, (s < nS)%nat -> noise nA x -> is_maximum nA (q s) m -> exists a, agent s x = Ok a /\ (a < nA)%nat /\ m - 2 * D <= q s a).
  { intros s0 x m0 Hs0 Hx Hm0. destruct (agent_greedy s0 HA W V GA Hx) as (a & Ea & O). exists a. split; auto. exact (@greedy_loss nS nA q f g Hr D s0 a m0 C Hs0 Hm0 O). }
  split.
  - intros ws HW. destruct (@chance_runs nS nA dyn P q HA CL _ agent (noise nA) (2 * D) CH gss s ws Hs N HW) as (h & R & E & AC). exists h. split; auto. split; auto. intros s' a r d I. destruct (AC _ _ _ _ I) as (_ & x & Ix & Ex). destruct (agent_greedy s' HA W V GA (N x Ix)) as (b & Eb & O). congruence.
  - intros G HG. rewrite (@mean_ext P (length gss) G (worth_of dyn gamma agent gss s)).
    + now apply (@chance_gain_bounds nS nA dyn P gamma q HA HP CL Hg BE M HM _ agent (noise nA) (2 * D)).
    + intros ws HW. destruct (HG ws HW) as (h & R & ->). unfold worth_of. rewrite R. reflexivity.
Qed.
Print Assumptions C131_greedy.

(** No way to play, even one that remembers everything it has seen, earns more in the mean: the greedy agent loses at most 2 D per step (and
    what can be earned after the last step) against the best strategy. *)
Theorem C131_best : forall nS nA dyn P gamma q M f T past s m, (1 <= nA)%nat -> distribution P -> all_closed nS nA (length P) dyn -> 0 <= gamma <= 1 ->
  mean_bellman nS nA (length P) dyn P gamma (by_max nA) q -> (forall s a, (s < nS)%nat -> (a < nA)%nat -> Rabs (q s a) <= M) -> plays_legally nA f -> (s < nS)%nat -> is_maximum nA (q s) m ->
  mean_over P T (fun ws => earns dyn gamma f past s ws) <= m + gamma ^ T * M.
Proof. intros nS nA dyn P gamma q M f T past s m HA HP CL Hg BE HM Hf Hs Hm. now apply (@earns_upper nS nA dyn P gamma q HA HP CL Hg BE M HM f Hf T past s m). Qed.
Print Assumptions C131_best.
Theorem C131_regret : forall nS nA dyn P gamma q M g f D policy agent gss s G strat, (1 <= nA)%nat -> distribution P -> all_closed nS nA (length P) dyn -> 0 <= gamma <= 1 ->
  mean_bellman nS nA (length P) dyn P gamma (by_max nA) q -> (forall s a, (s < nS)%nat -> (a < nA)%nat -> Rabs (q s a) <= M) -> rising g -> close_to nS nA g f q D -> value_based nA f policy -> greedy_agent nA policy agent ->
  (forall gs, In gs gss -> noise nA gs) -> (s < nS)%nat -> chance_gain gamma agent dyn (length P) s gss G -> plays_legally nA strat ->
  mean_over P (length gss) (fun ws => earns dyn gamma strat [] s ws) - mean_over P (length gss) G <= 2 * D * geometric gamma (length gss) + 2 * (gamma ^ length gss * M).
Proof.
  intros nS nA dyn P gamma q M g f D policy agent gss s G strat HA HP CL Hg BE HM Hr C V GA N Hs HG Hf. destruct (max_exists HA (q s)) as [m Hm].
  destruct (@C131_greedy nS nA dyn P gamma q M g f D policy agent gss s m HA HP CL Hg BE HM Hr C V GA N Hs Hm) as [_ B]. specialize (B G HG). assert (U := @C131_best nS nA dyn P gamma q M strat (length gss) [] s m HA HP CL Hg BE HM Hf Hs Hm). lra.
Qed.
Print Assumptions C131_regret.

(** There is a distance D > 0 such that every q-function within D plays optimally. *)
Theorem C131_optimal_play : forall nS nA dyn P gamma q M, (1 <= nA)%nat -> distribution P -> all_closed nS nA (length P) dyn -> 0 <= gamma <= 1 -> mean_bellman nS nA (length P) dyn P gamma (by_max nA) q ->
  (forall s a, (s < nS)%nat -> (a < nA)%nat -> Rabs (q s a) <= M) ->
  exists D, 0 < D /\ forall g f policy agent gss s m G, rising g -> close_to nS nA g f q D -> value_based nA f policy -> greedy_agent nA policy agent ->
  (forall gs, In gs gss -> noise nA gs) -> (s < nS)%nat -> is_maximum nA (q s) m -> chance_gain gamma agent dyn (length P) s gss G ->
    m - gamma ^ length gss * M <= mean_over P (length gss) G <= m + gamma ^ length gss * M.
Proof.
  intros nS nA dyn P gamma q M HA HP CL Hg BE HM. destruct (@all_gap nS nA q HA) as (d & Hd & GAP). exists (d / 4). split; [lra|]. intros g f policy agent gss s m G Hr C V GA N Hs Hm HG. pose proof C as [W _].
  rewrite (@mean_ext P (length gss) G (worth_of dyn gamma agent gss s)) by (intros ws HW; destruct (HG ws HW) as (h & R & ->); unfold worth_of; rewrite R; reflexivity).
  assert (B := @chance_gain_bounds nS nA dyn P gamma q HA HP CL Hg BE M HM _ agent (noise nA) 0). assert (X : m - 0 * geometric gamma (length gss) - gamma ^ length gss * M <= mean_over P (length gss) (worth_of dyn gamma agent gss s) <= m + gamma ^ length gss * M); [|lra].
  apply B; auto. intros s0 x m0 Hs0 Hx Hm0. destruct (agent_greedy s0 HA W V GA Hx) as (a & Ea & O). exists a. split; auto. destruct (@greedy_loss nS nA q f g Hr (d / 4) s0 a m0 C Hs0 Hm0 O) as [Ha L]. split; auto. rewrite (GAP s0 a m0 Hs0 Ha Hm0); lra.
Qed.
Print Assumptions C131_optimal_play.

(** Agents that sample from BoltzmannPolicy or EpsilonGreedy: the mean over the draws of the agent and the noise of the environment. *)
Theorem C131_boltzmann : forall nS nA dyn P gamma q M f D t tau gss s m F, (1 <= nA)%nat -> distribution P -> all_closed nS nA (length P) dyn -> 0 <= gamma <= 1 ->
  mean_bellman nS nA (length P) dyn P gamma (by_max nA) q -> (forall s a, (s < nS)%nat -> (a < nA)%nat -> Rabs (q s a) <= M) -> close_to nS nA (fun x => x) f q D -> 0 < t -> 0 < tau ->
  (forall gs, In gs gss -> noise nA gs) -> (s < nS)%nat -> is_maximum nA (q s) m -> chance_sampled nA gamma tau (boltzmann_policy nA t f) dyn (length P) s gss F ->
  exists G, (forall ws, noise_list (length P) (length gss) ws -> mean_units (length gss * nA) (F ws) (G ws)) /\
  m - (2 * D + t * ln (INR nA)) * geometric gamma (length gss) - gamma ^ length gss * M <= mean_over P (length gss) G <= m + gamma ^ length gss * M.
Proof.
  intros nS nA dyn P gamma q M f D t tau gss s m F HA HP CL Hg BE HM C Ht Htau N Hs Hm HF. pose proof C as [W _]. assert (PO : forall s, (s < nS)%nat -> exists z, boltzmann_policy nA t f s = Ok z /\ length z = nA) by (intros; now apply boltzmann_ok).
  exists (fun ws => exp_ws nA dyn gamma (boltzmann_policy nA t f) ws s). split.
  - intros ws HW. eapply mean_units_ext; [|exact (@chance_mean nS nA dyn P gamma HA CL Hg tau (boltzmann_policy nA t f) Htau PO gss ws s Hs N HW)]. intros us Lu HU. destruct (HF ws us HW Lu HU) as (h & R & ->). rewrite R. reflexivity.
  - apply (@exp_bounds nS nA dyn P gamma q HA HP CL Hg BE M HM (boltzmann_policy nA t f) PO (2 * D + t * ln (INR nA))); auto. intros s0 m0 Hs0 Hm0. now apply (@boltzmann_expected nS nA q f HA t D s0 m0).
Qed.
Print Assumptions C131_boltzmann.
Theorem C131_epsilon_greedy : forall nS nA dyn P gamma q M g f D eps K tau gss s m F, (1 <= nA)%nat -> distribution P -> all_closed nS nA (length P) dyn -> 0 <= gamma <= 1 ->
  mean_bellman nS nA (length P) dyn P gamma (by_max nA) q -> (forall s a, (s < nS)%nat -> (a < nA)%nat -> Rabs (q s a) <= M) -> rising g -> close_to nS nA g f q D -> 0 <= eps <= 1 ->
  (forall s m a, (s < nS)%nat -> (a < nA)%nat -> is_maximum nA (q s) m -> m - q s a <= K) -> 0 < tau ->
  (forall gs, In gs gss -> noise nA gs) -> (s < nS)%nat -> is_maximum nA (q s) m -> chance_sampled nA gamma tau (eps_greedy nA eps f) dyn (length P) s gss F ->
  exists G, (forall ws, noise_list (length P) (length gss) ws -> mean_units (length gss * nA) (F ws) (G ws)) /\
  m - (2 * D + (eps + INR nA * / 10 ^ 15) * K) * geometric gamma (length gss) - gamma ^ length gss * M <= mean_over P (length gss) G <= m + gamma ^ length gss * M.
Proof.
  intros nS nA dyn P gamma q M g f D eps K tau gss s m F HA HP CL Hg BE HM Hr C He HK Htau N Hs Hm HF. pose proof C as [W _]. assert (PO : forall s, (s < nS)%nat -> exists z, eps_greedy nA eps f s = Ok z /\ length z = nA) by (intros; now apply eps_ok).
  exists (fun ws => exp_ws nA dyn gamma (eps_greedy nA eps f) ws s). split.
  - intros ws HW. eapply mean_units_ext; [|exact (@chance_mean nS nA dyn P gamma HA CL Hg tau (eps_greedy nA eps f) Htau PO gss ws s Hs N HW)]. intros us Lu HU. destruct (HF ws us HW Lu HU) as (h & R & ->). rewrite R. reflexivity.
  - apply (@exp_bounds nS nA dyn P gamma q HA HP CL Hg BE M HM (eps_greedy nA eps f) PO (2 * D + (eps + INR nA * / 10 ^ 15) * K)); auto. intros s0 m0 Hs0 Hm0. apply (@eps_expected nS nA q f HA eps g D K s0 m0); auto.
Qed.
Print Assumptions C131_epsilon_greedy.

(** Learning: if luck cannot change which action is best (in each state the best action is, with the worst luck, worth more than the other
    actions with the best luck), then after enough rounds of Q-learning, whatever the noise, the greedy agent plays optimally in the mean. *)
Theorem C131_separated : forall nS nA dyn P gamma net loss grads sub lr wl cl Mh B lo hi D y tau0 q M best, distribution P -> noisy_setting nS nA (length P) dyn gamma net (target_q nA net) (by_max nA) loss grads lr wl cl Mh B -> gamma < 1 ->
  worst_luck nS nA (length P) dyn gamma (by_max nA) lo -> best_luck nS nA (length P) dyn gamma (by_max nA) hi -> (forall s a, (s < nS)%nat -> (a < nA)%nat -> hi s a - lo s a + (1 + gamma) * D <= Mh) -> 0 <= D ->
  sgd_learner lr sub y -> between nS nA net (q_params y) lo hi D -> between nS nA net (targ_params y) lo hi D -> 0 < tau0 <= 1 ->
  (forall s, (s < nS)%nat -> (best s < nA)%nat /\ forall b, (b < nA)%nat -> b <> best s -> hi s b < lo s (best s)) ->
  mean_bellman nS nA (length P) dyn P gamma (by_max nA) q -> (forall s a, (s < nS)%nat -> (a < nA)%nat -> Rabs (q s a) <= M) ->
  exists N, forall rounds, (forall os, In os rounds -> noisy_round nS nA (length P) dyn gamma lr wl tau0 B y os) -> (N <= length rounds)%nat ->
  exists y' th', yrun nA net (target_q nA net) loss grads sub y (concat rounds) = (y', Ok tt) /\ q_params y' = Node [0%nat] [Node [0%nat] [Leaf th']] /\
  forall policy agent gss s m, value_based nA (net th') policy -> greedy_agent nA policy agent -> (forall gs, In gs gss -> noise nA gs) -> (s < nS)%nat -> is_maximum nA (q s) m ->
  (forall ws, noise_list (length P) (length gss) ws -> exists h, chance_play agent dyn s (combine gss ws) = Ok h /\ chance_episode dyn ws s h /\ (forall s' a r d, In (s', a, r, d) h -> a = best s')) /\
  forall G, chance_gain gamma agent dyn (length P) s gss G -> m - gamma ^ length gss * M <= mean_over P (length gss) G <= m + gamma ^ length gss * M.
Proof.
  intros nS nA dyn P gamma net loss grads sub lr wl cl Mh B lo hi D y tau0 q M best HP SET Hg1 LO HI HMh HD SG B1 B2 Ht SEP BE HM. pose proof SET as (HA & HW & CL & Hg & TB & _). pose proof (table_tabular TB) as T.
  destruct (@min_pos nS nA (fun s b => if Nat.eqb b (best s) then 1 else lo s (best s) - hi s b)) as (e & He & EM). { intros s a Hs Ha. destruct (Nat.eqb_spec a (best s)) as [|NE]; [lra|]. assert (Z := proj2 (SEP s Hs) a Ha NE). lra. }
  destruct (@C117_luck_limit nS nA (length P) dyn gamma net (target_q nA net) (by_max nA) loss grads sub lr wl cl Mh B lo hi D y tau0 (e / 4) SET Hg1 LO HI HMh HD SG B1 B2 Ht ltac:(lra)) as [N HN].
  exists N. intros rounds RD LN. destruct (HN rounds RD LN) as (y' & R & th' & Q & L & BT). exists y', th'. split; auto. split; auto.
  intros policy agent gss s m V GA NO Hs Hm. destruct (T th' L) as [W _].
  assert (OPT : forall s a, (s < nS)%nat -> PolicySpec.optimal nA (qval nA (net th') s) a -> a = best s).
  { intros s0 a Hs0 [Ha O]. destruct (SEP s0 Hs0) as [Hb _]. specialize (O (best s0) Hb). destruct (Nat.eq_dec a (best s0)) as [|NE]; auto. exfalso. assert (Z := EM s0 a Hs0 Ha). cbv beta in Z. destruct (Nat.eqb_spec a (best s0)) as [|_]; [congruence|].
    destruct (BT s0 a Hs0 Ha) as (x & X1 & X2). destruct (BT s0 (best s0) Hs0 Hb) as (z & Z1 & Z2). rewrite call_qval in X1, Z1 by auto. injection X1 as <-. injection Z1 as <-. lra. }
  assert (QB : forall s m, (s < nS)%nat -> is_maximum nA (q s) m -> q s (best s) = m).
  { intros s0 m0 Hs0 [(c & Hc & <-) U]. destruct (SEP s0 Hs0) as [Hb Hd]. destruct (Nat.eq_dec c (best s0)) as [->|NE]; auto. exfalso. specialize (Hd c Hc NE). specialize (U (best s0) Hb).
    assert (A1 := @mean_at_most nS nA dyn P gamma HP CL ltac:(lra) q BE hi (proj1 HI) s0 c Hs0 Hc). assert (A2 := @mean_at_least nS nA dyn P gamma HP CL ltac:(lra) q BE lo (proj1 LO) s0 (best s0) Hs0 Hb). lra. }
  assert (CH : forall s x m, (s < nS)%nat -> noise nA x -> is_maximum nA (q s) m -> exists a, agent s x = Ok a /\ (a < nA)%nat /\ m - 0 <= q s a).
  { intros s0 x m0 Hs0 Hx Hm0. destruct (agent_greedy s0 HA W V GA Hx) as (a & Ea & O). exists a. split; auto. rewrite (OPT s0 a Hs0 O). split; [now apply SEP|]. rewrite (QB s0 m0 Hs0 Hm0). lra. }
  split.
  - intros ws HWs. destruct (@chance_runs nS nA dyn P q HA CL _ agent (noise nA) 0 CH gss s ws Hs NO HWs) as (h & RR & E & AC). exists h. split; auto. split; auto. intros s' a r d I. destruct (AC _ _ _ _ I) as (Hs' & x & Ix & Ex). destruct (agent_greedy s' HA W V GA (NO x Ix)) as (b & Eb & O). apply OPT; auto. congruence.
  - intros G HG. rewrite (@mean_ext P (length gss) G (worth_of dyn gamma agent gss s)) by (intros ws HWs; destruct (HG ws HWs) as (h & RR & ->); unfold worth_of; rewrite RR; reflexivity).
    assert (X := @chance_gain_bounds nS nA dyn P gamma q HA HP CL Hg BE M HM _ agent (noise nA) 0 CH gss s m Hs NO Hm). lra.
Qed.
Print Assumptions C131_separated.

(** Without such a separation training need not make the agent reliable: with one state, one action that always earns 1/4 and one that earns 1
    or -1 with equal chance (in the mean 0), and with any constant learning rate, any table at the start and any of the algorithms, there is a
    c > 0 such that after every large number of rounds the greedy agents take the worse action with probability at least c. *)
Theorem C131_reliable_refuted : exists dyn P q, distribution P /\ all_closed 1 2 (length P) dyn /\ (forall gamma, mean_bellman 1 2 (length P) dyn P gamma (by_max 2) q) /\ q 0%nat 1%nat < q 0%nat 0%nat /\
  forall net target val grads sub lr gamma y th0, net = table1 1 \/ net = table2 1 2 -> algorithm 2 net target val -> noisy_differentiates 1 2 (length P) dyn gamma net target mse grads -> 0 < lr <= 1 ->
  sgd_learner lr sub y -> y_targ y = None -> q_params y = Node [0%nat] [Node [0%nat] [Leaf th0]] -> length th0 = 2%nat ->
  exists c N, 0 < c /\ forall k (os : list nat -> list yop), (N <= k)%nat ->
  let ds := concat (repeat [DUpdate [(0, 0)%nat] [1]; DUpdate [(0, 1)%nat] [1]] k) in
  (forall ws, noise_list (length P) (noises ds) ws -> follows 1 2 (length P) dyn gamma ds ws (os ws)) ->
  exists bad : list nat -> R, c <= mean_over P (noises ds) bad /\
  forall ws, noise_list (length P) (noises ds) ws -> exists y' th', yrun 2 net target mse grads sub y (os ws) = (y', Ok tt) /\ q_params y' = Node [0%nat] [Node [0%nat] [Leaf th']] /\
    (bad ws = 0 \/ bad ws = 1 /\ forall policy agent gs, value_based 2 (net th') policy -> greedy_agent 2 policy agent -> noise 2 gs -> agent 0%nat gs = Ok 1%nat).
Proof.
  exists risky, [1/2; 1/2], (fun _ a => match a with O => 1/4 | _ => 0 end). cbn [length]. split; [exact half_dist|]. split; [exact risky_closed|]. split.
  { intros gamma s a Hs Ha. exists (fun w => match a with O => 1/4 | _ => if Nat.eqb w 0 then 1 else -1 end). split.
    - intros w Hw. exists (1/4). split; [|unfold reward, ends, risky; cbn [fst snd]; destruct a; lra]. apply two_max; cbn; lra.
    - destruct a; cbn [seq map nth Nat.eqb]; unfold total; cbn [fold_right]; lra. }
  split; [cbn; lra|]. intros net target val grads sub lr gamma y th0 TB AL GR Hl SG NT Q0 L0. pose proof (table_tabular TB) as T.
  assert (TP : targ_params y = q_params y) by (unfold targ_params; now rewrite NT).
  assert (T0 : tab (q_params y) = th0) by (rewrite Q0; reflexivity).
  assert (OK : ok_sys 1 2 sub lr y) by (split; auto; rewrite TP; split; (split; [rewrite T0; exact Q0|rewrite T0; exact L0])).
  set (x0 := tq 2 th0 0 0). set (x1 := tq 2 th0 0 1). set (C := 1 + Rabs x0 + Rabs x1). assert (PC : 1 <= C) by (unfold C; assert (A := Rabs_pos x0); assert (B := Rabs_pos x1); lra).
  assert (B0 : - C <= x0 <= C) by (unfold C; assert (A := Rabs_pos x1); unfold Rabs in *; destruct (Rcase_abs x0); destruct (Rcase_abs x1); lra).
  assert (B1 : - C <= x1 <= C) by (unfold C; assert (A := Rabs_pos x0); unfold Rabs in *; destruct (Rcase_abs x0); destruct (Rcase_abs x1); lra).
  destruct (@pow_small (1 - lr) (1 + C) (1/8)) as [j Hj]; [lra|lra|lra|]. exists ((1/2) ^ (2 * j)), j. split; [apply pow_lt; lra|]. intros k os Hk. change [DUpdate [(0, 0)%nat] [1]; DUpdate [(0, 1)%nat] [1]] with both. intros FO.
  assert (NO : noises (concat (repeat both k)) = (2 * k)%nat). { clear. induction k as [|k IH]; [reflexivity|]. cbn [repeat concat]. unfold noises in *. rewrite map_app, list_sum_app, IH. cbn. lia. }
  rewrite NO in *. set (v0 := 1/4 + (1 - lr) ^ k * (x0 - 1/4)).
  exists (fun ws => if Rlt_dec v0 (walk lr x1 ws) then 1 else 0). split.
  - replace (2 * k)%nat with (2 * (k - j) + 2 * j)%nat by lia. rewrite NoiseProofs4.mean_app. rewrite <- (@mean_const [1/2; 1/2] half_dist (2 * (k - j)) ((1/2) ^ (2 * j))). apply (@mean_le [1/2; 1/2] half_dist). intros a [La _].
    eapply Rle_trans; [|apply mean_lucky; intros ws _; destruct (Rlt_dec _ _); lra]. cbv beta. destruct (Rlt_dec _ _) as [_|NL]; [lra|]. exfalso. apply NL. rewrite (@walk_app lr (k - j)) by exact La. rewrite walk_lucky.
    assert (WB := @walk_bound lr Hl C PC (length a) a x1 (le_n _) B1). set (x := walk lr x1 a) in *. assert (PJ : 0 <= (1 - lr) ^ j) by (apply pow_le; lra). assert (PK : 0 <= (1 - lr) ^ k) by (apply pow_le; lra).
    assert (H1 := Hj j (le_n _)). assert (H2 := Hj k Hk). assert (H3 : (1 - lr) ^ j * (1 - x) <= (1 - lr) ^ j * (1 + C)) by (apply Rmult_le_compat_l; lra). assert (H4 : (1 - lr) ^ k * (x0 - 1/4) <= (1 - lr) ^ k * (1 + C)) by (apply Rmult_le_compat_l; lra). unfold v0. lra.
  - intros ws HW. destruct (@risky_run net target val grads sub lr gamma T AL GR k ws (os ws) y OK (FO ws HW)) as (y' & R & (_ & [Q' L'] & _) & A & B). exists y', (tab (q_params y')). split; auto. split; [exact Q'|]. rewrite T0 in A, B. fold x0 in A. fold x1 in B. fold v0 in A.
    destruct (Rlt_dec v0 (walk lr x1 ws)) as [LT|]; [right; split; auto|now left]. intros policy agent gs V GA NZ. destruct (T _ L') as [W _]. destruct (@agent_greedy 2 (net (tab (q_params y'))) policy agent 0%nat gs ltac:(lia) W V GA NZ) as (a & Ea & [Ha O]). rewrite Ea. f_equal.
    assert (QV : forall c, (c < 2)%nat -> qval 2 (net (tab (q_params y'))) 0%nat c = tq 2 (tab (q_params y')) 0 c). { intros c Hc. assert (E := @call_qval 2 (net (tab (q_params y'))) (fun x => x) 0%nat c W Hc). rewrite (tab_call T _ L') in E by (auto; lia). injection E as E. congruence. }
    specialize (O 1%nat ltac:(lia)). rewrite (QV 1%nat ltac:(lia)), (QV a Ha), B in O. destruct a as [|[|a]]; [|reflexivity|lia]. rewrite A in O. lra.
Qed.
Print Assumptions C131_reliable_refuted.

(** * Cases *)

(** A q-function that is 1/16 too high for the risky action and 1/16 too low for the other one. *)
Definition risky_q (s a : nat) : R := match a with O => 1/4 | _ => 0 end.
Definition risky_f : qfun nat R := Type2 (fun _ => [1/4 - 1/16; 1/16]).
Example C131_ex : distribution [1/2; 1/2] /\ all_closed 1 2 2 risky /\ mean_bellman 1 2 2 risky [1/2; 1/2] (1/2) (by_max 2) risky_q /\ (forall s a, (s < 1)%nat -> (a < 2)%nat -> Rabs (risky_q s a) <= 1/4) /\ close_to 1 2 (fun x => x) risky_f risky_q (1/16) /\
  value_based 2 risky_f (eps_greedy 2 (1/10) risky_f) /\ greedy_agent 2 (eps_greedy 2 (1/10) risky_f) (mode_agent 2 1 (eps_greedy 2 (1/10) risky_f)) /\ is_maximum 2 (risky_q 0) (1/4) /\
  (forall s m a, (s < 1)%nat -> (a < 2)%nat -> is_maximum 2 (risky_q s) m -> m - risky_q s a <= 1/4) /\ plays_legally 2 (fun past _ => Nat.modulo (length past) 2).
Proof.
  split; [exact half_dist|]. split; [exact risky_closed|]. split; [|split; [|split; [|split; [|split; [|split; [|split]]]]]].
  - intros s a Hs Ha. exists (fun w => match a with O => 1/4 | _ => if Nat.eqb w 0 then 1 else -1 end). split.
    + intros w Hw. exists (1/4). split; [|unfold reward, ends, risky; cbn [fst snd]; destruct a; lra]. apply two_max; cbn; lra.
    + destruct a; cbn [seq map nth Nat.eqb risky_q]; unfold total; cbn [fold_right]; lra.
  - intros s a Hs Ha. unfold risky_q. destruct a; apply Rabs_le; lra.
  - split; [intros s; reflexivity|]. intros s a Hs Ha. rewrite call_qval by (auto; intros x; reflexivity). eexists. split; [reflexivity|]. destruct a as [|[|a]]; [| |lia]; cbn [qval risky_f nth risky_q]; apply Rabs_le; lra.
  - constructor. lra.
  - constructor. lra.
  - apply two_max; cbn; lra.
  - intros s m a Hs Ha [(c & Hc & <-) _]. unfold risky_q. destruct a, c; lra.
  - intros past s. apply Nat.mod_upper_bound. lia.
Qed.
(** In the environment [sound] luck does not change which action is best. *)
Definition sound (w s a : nat) : nat * R * bool := (0%nat, (match a with O => 2 + coin w | _ => coin w / 2 end), true).
Lemma sound_closed : all_closed 1 2 2 sound.
Proof. intros w Hw s a Hs Ha. cbn. lia. Qed.
Definition sound_y : sys := noisy_y (1/2) [0; 0].
Example C131_separated_ex : let lo := fun s a : nat => match a with O => 1 | _ => -1/2 end in let hi := fun s a : nat => match a with O => 3 | _ => 1/2 end in
  noisy_setting 1 2 2 sound (1/2) (table1 1) (target_q 2 (table1 1)) (by_max 2) mse (analytic 1 2 (fun y h => h - y) (target_q 2 (table1 1))) (1/2) 1 1 100 1 /\
  worst_luck 1 2 2 sound (1/2) (by_max 2) lo /\ best_luck 1 2 2 sound (1/2) (by_max 2) hi /\ sgd_learner (1/2) Nat.eqb sound_y /\ between 1 2 (table1 1) (q_params sound_y) lo hi 1 /\ (forall b, (b < 2)%nat -> b <> 0%nat -> hi 0%nat b < lo 0%nat 0%nat) /\
  mean_bellman 1 2 2 sound [1/2; 1/2] (1/2) (by_max 2) (fun _ a => match a with O => 2 | _ => 0 end) /\
  forall w0 w1, (w0 < 2)%nat -> (w1 < 2)%nat -> noisy_round 1 2 2 sound (1/2) (1/2) 1 1 1 sound_y (row_prog 2 sound (1/2) [(0, 0)%nat; (0, 1)%nat] [w0; w1]).
Proof.
  intros lo hi. assert (TT := @table1_tabular 1 2). split; [|split; [|split; [|split; [|split; [|split; [|split]]]]]].
  - split; [lia|]. split; [lia|]. split; [exact sound_closed|]. split; [lra|]. split; [now left|]. split; [constructor|]. split; [left; auto|]. split; [|repeat split; try lra; lia].
    apply (@analytic_noisy 1 2 2 (fun y h => h - y) (target_q 2 (table1 1)) (table1 1) mse1 sound (1/2) (by_max 2)); [lia|exact TT|exact mse_deriv|apply target_q_sound; [lia|exact TT]].
  - split.
    + intros s a w Hs Ha Hw. eexists. split; [exists 1; split; [apply two_max; unfold lo; lra|reflexivity]|]. unfold reward, ends, sound, lo, coin. cbn [fst snd]. destruct a; destruct (Nat.eqb w 0); lra.
    + intros s a Hs Ha. exists 1%nat. split; [lia|]. exists 1. split; [apply two_max; unfold lo; lra|]. unfold reward, ends, sound, lo, coin. cbn [fst snd Nat.eqb]. destruct a; lra.
  - split.
    + intros s a w Hs Ha Hw. eexists. split; [exists 3; split; [apply two_max; unfold hi; lra|reflexivity]|]. unfold reward, ends, sound, hi, coin. cbn [fst snd]. destruct a; destruct (Nat.eqb w 0); lra.
    + intros s a Hs Ha. exists 0%nat. split; [lia|]. exists 3. split; [apply two_max; unfold hi; lra|]. unfold reward, ends, sound, hi, coin. cbn [fst snd Nat.eqb]. destruct a; lra.
  - split; [reflexivity|exact I].
  - exists [0; 0]. split; [reflexivity|]. split; [reflexivity|]. intros s a Hs Ha. rewrite (tab_call TT [0; 0]) by auto. eexists. split; [reflexivity|]. unfold tq, lo, hi. assert (E : s = 0%nat) by lia. subst s. destruct a as [|[|a]]; [| |lia]; cbn; lra.
  - intros b Hb NE. unfold lo, hi. destruct b; [congruence|lra].
  - intros s a Hs Ha. exists (fun w => match a with O => 2 + coin w | _ => coin w / 2 end). split.
    + intros w Hw. exists 2. split; [apply two_max; cbn; lra|]. unfold reward, ends, sound. cbn [fst snd]. destruct a; lra.
    + destruct a; cbn [seq map nth]; unfold total, coin; cbn [fold_right Nat.eqb]; lra.
  - intros w0 w1 H0 H1. unfold noisy_round. cbn [y_targ sound_y noisy_y row_prog combine map fst snd].
    assert (OP : forall w a, (w < 2)%nat -> (a < 2)%nat -> noisy_op 1 2 2 sound (1/2) (1/2) 1 1 (YUpdate (row_batch 2 sound (1/2) w (0%nat, a)))).
    { intros w a Hw Ha. exists [(0%nat, a)], [w]. split; [apply row_sampled; auto; exact sound_closed|]. split; [|cbn; lia]. intros x [<-|[]]. rewrite one_clips. lra. }
    split; [intros o [<-|[<-|[]]]; apply OP; auto; lia|]. split; [|intros o [<-|[<-|[]]]; eauto].
    intros s a Hs Ha. assert (E : s = 0%nat) by lia. subst s. destruct a as [|[|a]]; [| |lia]; [exists (YUpdate (row_batch 2 sound (1/2) w0 (0, 0)%nat))|exists (YUpdate (row_batch 2 sound (1/2) w1 (0, 1)%nat))]; (split; [cbn [In]; auto|exists 0%nat; split; reflexivity]).
Qed.
Example C131_reliable_ex : forall k, noisy_differentiates 1 2 2 risky (1/2) (table1 1) (target_q 2 (table1 1)) mse (analytic 1 2 (fun y h => h - y) (target_q 2 (table1 1))) /\ algorithm 2 (table1 1) (target_q 2 (table1 1)) (by_max 2) /\
  exists os, forall ws, noise_list 2 (2 * k) ws -> follows 1 2 2 risky (1/2) (concat (repeat [DUpdate [(0, 0)%nat] [1]; DUpdate [(0, 1)%nat] [1]] k)) ws (os ws).
Proof.
  intros k. split; [|split; [constructor|]].
  - apply (@analytic_noisy 1 2 2 (fun y h => h - y) (target_q 2 (table1 1)) (table1 1) mse1 risky (1/2) (by_max 2)); [lia|apply table1_tabular|exact mse_deriv|apply target_q_sound; [lia|apply table1_tabular]].
  - set (rows := concat (repeat [(0, 0)%nat; (0, 1)%nat] k)). exists (row_prog 2 risky (1/2) rows). intros ws HW.
    replace (concat (repeat [DUpdate [(0, 0)%nat] [1]; DUpdate [(0, 1)%nat] [1]] k)) with (row_decisions rows) by (unfold rows; clear; induction k as [|k IH]; cbn [repeat concat]; [reflexivity|rewrite <- IH; reflexivity]).
    apply row_follows; [exact risky_closed| |].
    + intros s a I. unfold rows in I. apply in_concat in I. destruct I as (l & I1 & I2). apply repeat_spec in I1. subst l. destruct I2 as [E|[E|[]]]; injection E as <- <-; lia.
    + replace (length rows) with (2 * k)%nat; [exact HW|]. unfold rows. clear. induction k as [|k IH]; [reflexivity|]. cbn [repeat concat]. rewrite app_length, <- IH. cbn. lia.
Qed.
