(** Property C122: TD learning with a policy regularizer.  Specifications in RegSpec.v. *)
From Coq Require Import List Lia Bool Arith Reals Lra.
From Verif Require Import PyCommon CommonProofs UtilsModel UtilsSpec UtilsProofs2 UtilsProofs3 WrappersProofs DistModel DistSpec DistProofs DistProofs2 DistProofs3 LossModel LossSpec LossProofs QModel QProofs QProps TDModel TDSpec TDProofs TDProofs2 TDProofs3 TDProofs4 CoreModel CoreSpec CoreProofs CoreProofs2 TracerModel WorkerModel PolicyModel PolicyProofs4 LearnModel LearnSpec LearnProofs LearnProofs2 LearnProofs3 LearnProofs4 LearnProofs5 LearnProofs6 LearnProofs7 LearnProps RegModel RegSpec RegProofs RegProofs2.
Import ListNotations.
Set Implicit Arguments.
Local Open Scope R_scope.

(** C122: what one update of QLearning, ExpectedSarsa or SoftQLearning with a regularizer does to a table: as without (C102_table_update), with
    the bonus of the state of the row - not of its next state, and whether or not the episode ends there - added to the target. *)
Theorem C122_update : forall nS nA r net target val loss f grads sub lr y th targ rows b G, (1 <= nA)%nat -> reg_ok nA r -> (net = table1 nS \/ net = table2 nS nA) -> algorithm nA net target val ->
  (loss = mse /\ f = (fun e => e)) \/ (exists delta, 0 < delta /\ loss = huber delta /\ f = (fun e => Rmax (- delta) (Rmin e delta))) ->
  sgd_learner lr sub y -> q_params y = Node [0%nat] [Node [0%nat] [Leaf th]] -> targ_params y = Node [0%nat] [Node [0%nat] [Leaf targ]] -> length th = (nS * nA)%nat ->
  rows <> [] -> fb_S b = map fst rows -> fb_A b = map (fun x => one_hot nA (snd x)) rows -> length (fb_W b) = length rows -> length (tb_Rn (fb_t b)) = length rows -> (forall s a, In (s, a) rows -> (s < nS)%nat /\ (a < nA)%nat) ->
  target th targ (fb_t b) = Ok G -> gradient (fun p => loss_value (q_loss_reg nA r net target loss th targ b p)) th (grads th targ b) ->
  exists y' th', rstep nA r net target loss grads sub y (YUpdate b) = (y', Ok tt) /\ y_targ y' = y_targ y /\ q_params y' = Node [0%nat] [Node [0%nat] [Leaf th']] /\ length th' = (nS * nA)%nat /\
  forall s a, (s < nS)%nat -> (a < nA)%nat -> exists old new,
    q_call_a (Some nA) (one_hot nA) (fun x => x) (net th) s a = Ok old /\ q_call_a (Some nA) (one_hot nA) (fun x => x) (net th') s a = Ok new /\
    (~ In (s, a) rows -> new = old) /\
    new = old + lr * (total (map (fun i => if same_pair (nth i rows (0, 0)%nat) (s, a) then Rmax (1/10) (Rmin (nth i (fb_W b) 0) 10) * f (nth i G 0 + bonus nA r s - old) else 0) (seq 0 (length rows))) / INR (length rows)).
Proof.
  intros nS nA r net target val loss f grads sub lr y th targ rows b G HA HR TB AL LF SG Q P L NE HS HAc HW HRn HRo HT GD.
  assert (LL : length (tb_Rn (fb_t b)) = length (fb_S b)) by (now rewrite HS, map_length).
  assert (LG : length G = length rows) by (now rewrite (target_len AL _ _ _ HT)).
  assert (HT' : target th targ (fb_t (plus_b nA r b)) = Ok (zipw Rplus G (map (bonus nA r) (fb_S b)))) by (rewrite (target_shift r AL th targ b LL), HT; reflexivity).
  assert (LG' : length (zipw Rplus G (map (bonus nA r) (fb_S b))) = length rows) by (rewrite zip_len; rewrite ?map_length, ?HS, ?map_length; lia).
  assert (GD' : gradient (fun p => loss_value (q_loss (Some nA) net target loss th targ (plus_b nA r b) p)) th (grads' nA r grads th targ (plus_b nA r b))).
  { unfold grads'. rewrite minus_plus by auto. destruct GD as [G1 G2]. split; auto. intros i Hi. eapply derivable_pt_lim_ext; [|exact (G2 i Hi)]. intros t. cbv beta. now rewrite (q_loss_shift r HA HR AL) by auto. }
  destruct (@C102_table_update nS nA net target loss f (grads' nA r grads) sub lr y th targ rows (plus_b nA r b) _ HA TB LF SG Q P L NE HS HAc HW HRo HT' LG' GD') as (y' & th' & E & E2 & E3 & E4 & E5).
  exists y', th'. split; [rewrite (rstep_shift r HA HR AL); auto|]. do 3 (split; auto). intros s a Hs Ha. destruct (E5 s a Hs Ha) as (old & new & O & N & NI & V). exists old, new. do 3 (split; auto). rewrite V. do 3 f_equal. apply f_equal. apply map_ext_in. intros i Hi. apply in_seq in Hi.
  destruct (same_pair (nth i rows (0, 0)%nat) (s, a)) eqn:SP; auto. f_equal. f_equal. rewrite zip_nth; [|rewrite map_length, HS, map_length; lia|lia]. do 2 f_equal. rewrite HS, map_map. rewrite (@nth_map_any _ _ _ rows i 0 (0,0)%nat) by lia. apply same_pair_spec in SP. now rewrite SP.
Qed.
Print Assumptions C122_update.

(** C122: hence training converges, at the rate of C103, to the values of the environment that pays the bonus of the state with every reward. *)
Theorem C122_rate : forall nS nA dyn gamma r net target val loss grads sub lr wl cl D B q y tau0 rounds, rsetting nS nA dyn gamma r net target val loss grads lr wl cl D B -> bellman nS nA (with_bonus nA r dyn) gamma val q ->
  sgd_learner lr sub y -> within nS nA net (q_params y) q D -> within nS nA net (targ_params y) q D -> 0 < tau0 <= 1 ->
  (forall os, In os rounds -> one_round nS nA dyn gamma lr wl tau0 B y os) ->
  let D' := (1 - tau0 * (lr * wl * cl / INR B * (1 - gamma))) ^ length rounds * D in
  exists y', rrun nA r net target loss grads sub y (concat rounds) = (y', Ok tt) /\ within nS nA net (q_params y') q D' /\ within nS nA net (targ_params y') q D'.
Proof.
  intros nS nA dyn gamma r net target val loss grads sub lr wl cl D B q y tau0 rounds SET BE SG W1 W2 Ht RD D'. pose proof SET as (HA & CL & HR & Hg & TB & AL & _).
  destruct (@C103_rate nS nA (with_bonus nA r dyn) gamma net target val loss (grads' nA r grads) sub lr wl cl D B q y tau0 (map (map (op_b nA r)) rounds)) as (y' & E & W); auto.
  - now apply (setting_b HA HR AL).
  - intros os I. apply in_map_iff in I. destruct I as (os' & <- & I). exact (proj1 (@round_b nA r HA sub nS dyn gamma lr wl tau0 B y os' (RD os' I))).
  - exists y'. rewrite (rrun_shift r HA HR AL).
    + rewrite concat_map. split; auto. rewrite map_length in W. exact W.
    + intros o I. apply in_concat in I. destruct I as (os & I1 & I2). exact (proj2 (@round_b nA r HA sub nS dyn gamma lr wl tau0 B y os (RD os I1)) o I2).
Qed.
Print Assumptions C122_rate.
(** From any initial table, to the only solution. *)
Theorem C122_converges : forall nS nA dyn gamma r net target val, (1 <= nA)%nat -> closed nS nA dyn -> reg_ok nA r -> 0 <= gamma < 1 -> (net = table1 nS \/ net = table2 nS nA) -> algorithm nA net target val ->
  exists q, bellman nS nA (with_bonus nA r dyn) gamma val q /\ (forall q', bellman nS nA (with_bonus nA r dyn) gamma val q' -> forall s a, (s < nS)%nat -> (a < nA)%nat -> q' s a = q s a) /\
  forall grads sub lr wl B y tau0 th targ, rdifferentiates nS nA dyn gamma r net target mse grads -> 0 < lr -> 0 < wl -> lr * wl <= 1 -> (1 <= B)%nat -> 0 < tau0 <= 1 -> sgd_learner lr sub y ->
  q_params y = Node [0%nat] [Node [0%nat] [Leaf th]] -> targ_params y = Node [0%nat] [Node [0%nat] [Leaf targ]] -> length th = (nS * nA)%nat -> length targ = (nS * nA)%nat ->
  forall eps, 0 < eps -> exists N, forall rounds, (forall os, In os rounds -> one_round nS nA dyn gamma lr wl tau0 B y os) -> (N <= length rounds)%nat ->
  exists y', rrun nA r net target mse grads sub y (concat rounds) = (y', Ok tt) /\ within nS nA net (q_params y') q eps.
Proof.
  intros nS nA dyn gamma r net target val HA CL HR Hg TB AL. destruct (@C103_bellman_solution nS nA (with_bonus nA r dyn) gamma net target val HA (@closed_b nA r nS dyn CL) Hg TB AL) as (q & BE & UN). exists q. split; auto. split; auto.
  intros grads sub lr wl B y tau0 th targ GR Hlr Hwl Hlw HB Ht SG Q P L Lt eps He. pose proof (table_tabular TB) as T.
  set (D := bound nS nA (fun s a => tq nA th s a - q s a) + bound nS nA (fun s a => tq nA targ s a - q s a)). assert (P1 := @bound_pos nS nA (fun s a => tq nA th s a - q s a)). assert (P2 := @bound_pos nS nA (fun s a => tq nA targ s a - q s a)).
  assert (SET : rsetting nS nA dyn gamma r net target val mse grads lr wl 1 D B). { repeat (split; auto; try lra). + now left. + unfold D. lra. }
  assert (W1 : within nS nA net (q_params y) q D) by (apply (within_err _ _ _ T); exists th; split; auto; split; auto; intros s a Hs Ha; eapply Rle_trans; [exact (@bound_ok nS nA (fun s a => tq nA th s a - q s a) s a Hs Ha)|unfold D; lra]).
  assert (W2 : within nS nA net (targ_params y) q D) by (apply (within_err _ _ _ T); exists targ; split; auto; split; auto; intros s a Hs Ha; eapply Rle_trans; [exact (@bound_ok nS nA (fun s a => tq nA targ s a - q s a) s a Hs Ha)|unfold D; lra]).
  pose proof (beta_le (setting_b HA HR AL SET)) as Hb. unfold beta in Hb. set (rt := 1 - tau0 * (lr * wl * 1 / INR B * (1 - gamma))).
  assert (Hr : 0 <= rt < 1). { unfold rt. assert (0 < lr * wl * 1 / INR B * (1 - gamma) <= 1) by (split; [apply Rmult_lt_0_compat; lra|]; rewrite <- (Rmult_1_r 1) at 3; apply Rmult_le_compat; lra). assert (0 < tau0 * (lr * wl * 1 / INR B * (1 - gamma)) <= 1) by (split; [apply Rmult_lt_0_compat; lra|]; rewrite <- (Rmult_1_r 1); apply Rmult_le_compat; lra). lra. }
  destruct (@pow_small rt D eps Hr ltac:(unfold D; lra) He) as [N HN]. exists N. intros rounds RD LN. destruct (@C122_rate nS nA dyn gamma r net target val mse grads sub lr wl 1 D B q y tau0 rounds SET BE SG W1 W2 Ht RD) as (y' & R & W & _). exists y'. split; auto.
  destruct W as (th' & E & L' & H). exists th'. split; auto. split; auto. intros s a Hs Ha. destruct (H s a Hs Ha) as (x & X1 & X2). exists x. split; auto. eapply Rle_trans; [exact X2|]. apply HN. exact LN.
Qed.
Print Assumptions C122_converges.

(** The hypotheses are met: a bonus for the entropy of the uniform policy in the small environment of C102. *)
Definition even (s : nat) : list R := [0; 0].
Definition half : regularizer := EntropyReg (1/2) even.
Definition half_grads (th targ : list R) (b : fbatch nat) : list R := analytic 2 2 (fun y h => h - y) (target_expected 2 (table1 2) even) th targ (plus_b 2 half b).
Lemma even_alg : algorithm 2 (table1 2) (target_expected 2 (table1 2) even) (by_policy 2 even).
Proof. now constructor. Qed.
Lemma half_differentiates : rdifferentiates 2 2 small (1/2) half (table1 2) (target_expected 2 (table1 2) even) mse half_grads.
Proof.
  intros th targ rows b L Lt G. assert (HR : reg_ok 2 half) by (intros s; reflexivity).
  assert (D : differentiates 2 2 (with_bonus 2 half small) (1/2) (table1 2) (target_expected 2 (table1 2) even) mse (analytic 2 2 (fun y h => h - y) (target_expected 2 (table1 2) even))).
  { apply (@analytic_differentiates 2 2 ltac:(lia) (fun y h => h - y) (target_expected 2 (table1 2) even) (table1 2) mse1 (with_bonus 2 half small) (1/2) (by_policy 2 even)); [apply table1_tabular|exact mse_deriv|apply target_expected_sound; [lia|apply table1_tabular|now intros]]. }
  assert (H2 : (1 <= 2)%nat) by lia. destruct (D th targ rows (plus_b 2 half b) L Lt (genuine_plus half H2 G)) as [D1 D2]. split; auto. intros i Hi. eapply derivable_pt_lim_ext; [|exact (D2 i Hi)]. intros t. cbv beta. now rewrite (q_loss_shift half H2 HR even_alg) by (exact (genuine_len G)).
Qed.
Example C122_update_ex : reg_ok 2 half /\ algorithm 2 (table1 2) (target_expected 2 (table1 2) even) (by_policy 2 even) /\ sgd_learner (1/2) Nat.eqb (small_y None) /\ (exists G, target_expected 2 (table1 2) even [0; 0; 0; 0] [0; 0; 0; 0] (fb_t full_batch) = Ok G) /\
  gradient (fun p => loss_value (q_loss_reg 2 half (table1 2) (target_expected 2 (table1 2) even) mse [0; 0; 0; 0] [0; 0; 0; 0] full_batch p)) [0; 0; 0; 0] (half_grads [0; 0; 0; 0] [0; 0; 0; 0] full_batch).
Proof.
  split; [now intros|]. split; [exact even_alg|]. split; [split; [reflexivity|exact I]|]. split; [|exact (@half_differentiates [0; 0; 0; 0] [0; 0; 0; 0] all_rows full_batch eq_refl eq_refl full_genuine)].
  assert (S : sound_target 2 2 (target_expected 2 (table1 2) even) (by_policy 2 even)) by (apply target_expected_sound; [lia|apply table1_tabular|now intros]). destruct (S [0; 0; 0; 0] [0; 0; 0; 0] (fb_t full_batch) eq_refl) as (G & E & _); [split; reflexivity| |eauto]. cbn. intros s H. intuition lia.
Qed.
Example C122_rate_ex : forall D, 0 <= D -> rsetting 2 2 small (1/2) half (table1 2) (target_expected 2 (table1 2) even) (by_policy 2 even) mse half_grads (1/2) 1 1 D 4 /\
  (exists q, bellman 2 2 (with_bonus 2 half small) (1/2) (by_policy 2 even) q /\ exists D, within 2 2 (table1 2) (q_params (small_y None)) q D) /\ one_round 2 2 small (1/2) (1/2) 1 1 4 (small_y None) [YUpdate full_batch].
Proof.
  intros D HD. split.
  { split; [lia|]. split; [exact small_closed|]. split; [now intros|]. split; [lra|]. split; [now left|]. split; [exact even_alg|]. split; [left; auto|]. split; [exact half_differentiates|]. split; [lra|]. split; [lra|]. split; [lra|]. split; [lia|lra]. }
  split.
  { destruct (@C122_converges 2 2 small (1/2) half (table1 2) (target_expected 2 (table1 2) even) (by_policy 2 even)) as (q & BE & _); [lia|exact small_closed|now intros|lra|now left|exact even_alg|]. exists q. split; auto. exists (bound 2 2 (fun s a => tq 2 [0; 0; 0; 0] s a - q s a)). apply (within_err _ _ _ (@table1_tabular 2 2)). exists [0; 0; 0; 0]. split; [reflexivity|]. split; [reflexivity|]. intros s a Hs Ha. exact (@bound_ok 2 2 (fun s a => tq 2 [0; 0; 0; 0] s a - q s a) s a Hs Ha). }
  split; [intros o [<-|[]]; exact full_ok|]. cbn. split; [exact full_covers|]. intros o [<-|[]]. eauto.
Qed.

(** C122: with an entropy regularizer and ExpectedSarsa for the same policy, the values learned are soft values: less the bonus of the state
    itself they solve the soft Bellman equation, and their mean in a state is the expected discounted sum of rewards and entropy bonuses. *)
Theorem C122_soft_values : forall nS nA dyn gamma beta pi q, (1 <= nA)%nat -> (forall s, length (pi s) = nA) -> closed nS nA dyn -> 0 <= gamma < 1 -> bellman nS nA (with_bonus nA (EntropyReg beta pi) dyn) gamma (by_policy nA pi) q ->
  soft_bellman nS nA dyn gamma beta pi (fun s a => q s a - beta * entropy_of nA (boltzmann nA (pi s))) /\
  forall eps, 0 < eps -> exists N, forall n s, (N <= n)%nat -> (s < nS)%nat -> Rabs (expectation nA (boltzmann nA (pi s)) (q s) - soft_return nA dyn gamma beta pi n s) <= eps.
Proof.
  intros nS nA dyn gamma beta pi q HA HP CL Hg BE. split; [now apply soft_is|]. intros eps He. destruct (@pow_small gamma (bound nS nA q) eps Hg (@bound_pos nS nA q) He) as [N HN]. exists N. intros n s Hn Hs. eapply Rle_trans; [apply (@return_close nA HA nS dyn gamma beta pi q HP CL BE ltac:(lra) n s Hs)|now apply HN].
Qed.
Print Assumptions C122_soft_values.
Example C122_soft_values_ex : (forall s, length (even s) = 2%nat) /\ closed 2 2 small /\ exists q, bellman 2 2 (with_bonus 2 half small) (1/2) (by_policy 2 even) q.
Proof. split; [reflexivity|]. split; [exact small_closed|]. destruct (proj1 (proj2 (@C122_rate_ex 0 ltac:(lra)))) as (q & BE & _). eauto. Qed.

(** C122: with n-step transitions (n >= 2) this fails: the entropies of the states in between are missing, so that an update on a true
    transition moves a table away from the soft values it already has.  Witness: one state, two actions, no rewards, gamma = 1/2, beta = 1,
    a uniform policy: all soft values are 2 ln 2; one update with the transition that NStep(n=2) returns makes one of them 3/2 ln 2. *)
Definition loop0 (s a : nat) : nat * R * bool := (0%nat, 0, false).
Definition one : regularizer := EntropyReg 1 even.
Definition two_y : sys := mkSys (mkLearner KTD (mkFunc 0 (wrap [2 * ln 2; 2 * ln 2]) (Node [] []) 0) (sgd 1) (Node [] [])) None.
Definition two_x : single nat nat := mkSingle 0%nat 0%nat 0 0 (1/4) 0%nat 0%nat 0 1 None.
Definition one_grads (th targ : list R) (b : fbatch nat) : list R := analytic 1 2 (fun y h => h - y) (target_expected 2 (table1 1) even) th targ (plus_b 2 one b).
Lemma even_boltzmann : forall a, (a < 2)%nat -> boltzmann 2 (even 0) a = 1/2.
Proof. intros a Ha. unfold boltzmann, even. cbn [map seq total nth]. destruct a as [|[|a]]; [| |lia]; cbn [nth]; rewrite exp_0; unfold total; cbn; lra. Qed.
Lemma even_mean : forall h, expectation 2 (boltzmann 2 (even 0)) h = (h 0%nat + h 1%nat) / 2.
Proof. intros h. unfold expectation. cbn [map seq]. rewrite !even_boltzmann by lia. unfold total. cbn. lra. Qed.
Lemma even_entropy : entropy_of 2 (boltzmann 2 (even 0)) = ln 2.
Proof. unfold entropy_of. rewrite even_mean, !even_boltzmann by lia. replace (1/2) with (/ 2) by lra. rewrite ln_Rinv by lra. lra. Qed.
Theorem C122_two_steps_refuted : exists nS nA dyn gamma beta pi net grads q y x t t1 t2 t3,
  closed nS nA dyn /\ bellman nS nA (with_bonus nA (EntropyReg beta pi) dyn) gamma (by_policy nA pi) q /\ sgd_learner 1 Nat.eqb y /\ within nS nA net (q_params y) q 0 /\
  (let c := mkStep 0%nat 0%nat 0 1 true in
   nstep_add (nstep_reset nat nat) c (reward dyn 0 0) (ends dyn 0 0) = (t, None) /\ nstep_add t c (reward dyn 0 0) (ends dyn 0 0) = (t1, None) /\ nstep_add t1 c (reward dyn 0 0) (ends dyn 0 0) = (t2, None) /\ next dyn 0 0 = 0%nat) /\
  nstep_pop 2 gamma false t2 = (t3, Ok x) /\
  gradient (fun p => loss_value (q_loss_reg nA (EntropyReg beta pi) net (target_expected nA net pi) mse [2 * ln 2; 2 * ln 2] [2 * ln 2; 2 * ln 2] (batch_of nA [x]) p)) [2 * ln 2; 2 * ln 2] (grads [2 * ln 2; 2 * ln 2] [2 * ln 2; 2 * ln 2] (batch_of nA [x])) /\
  exists y' th', rstep nA (EntropyReg beta pi) net (target_expected nA net pi) mse grads Nat.eqb y (YUpdate (batch_of nA [x])) = (y', Ok tt) /\ q_params y' = Node [0%nat] [Node [0%nat] [Leaf th']] /\
  q_call_a (Some nA) (one_hot nA) (fun v => v) (net th') 0%nat 0%nat = Ok (q 0%nat 0%nat - ln 2 / 2) /\ 0 < ln 2.
Proof.
  exists 1%nat, 2%nat, loop0, (1/2), 1, even, (table1 1), one_grads, (fun _ _ => 2 * ln 2), two_y, two_x. do 4 eexists.
  assert (HR : reg_ok 2 one) by (intros s; reflexivity). assert (HA : (1 <= 2)%nat) by lia.
  assert (AL : algorithm 2 (table1 1) (target_expected 2 (table1 1) even) (by_policy 2 even)) by (now constructor).
  set (th := [2 * ln 2; 2 * ln 2]). set (b := batch_of 2 [two_x]). assert (P2 : 0 < ln 2) by (rewrite <- ln_1; apply ln_increasing; lra).
  assert (ST : sound_target 1 2 (target_expected 2 (table1 1) even) (by_policy 2 even)) by (apply target_expected_sound; [lia|apply table1_tabular|now intros]).
  destruct (ST th th (fb_t b) eq_refl) as (G & TG & LG & BG); [split; reflexivity|cbn; intros s H; intuition lia|].
  destruct (BG 0%nat 0%nat eq_refl) as (v & V & NV). unfold by_policy in V. rewrite even_mean in V. unfold tq in V. cbn in V. cbn in NV.
  assert (HG : G = [ln 2 / 2]). { destruct G as [|g [|g' G]]; try discriminate LG. cbn in NV. rewrite NV, V. f_equal. lra. }
  assert (LL : length (tb_Rn (fb_t b)) = length (fb_S b)) by reflexivity.
  assert (GD : gradient (fun p => loss_value (q_loss_reg 2 one (table1 1) (target_expected 2 (table1 1) even) mse th th b p)) th (one_grads th th b)).
  { assert (HT' : target_expected 2 (table1 1) even th th (fb_t (plus_b 2 one b)) = Ok (zipw Rplus G (map (bonus 2 one) (fb_S b)))) by (rewrite (target_shift one AL th th b LL), TG; reflexivity).
    assert (X : gradient (fun p => loss_value (q_loss (Some 2%nat) (table1 1) (target_expected 2 (table1 1) even) mse th th (plus_b 2 one b) p)) th (one_grads th th b)).
    { unfold one_grads, analytic. rewrite HT'. change (combine (fb_S (plus_b 2 one b)) (map decode (fb_A (plus_b 2 one b)))) with [(0%nat, decode (one_hot 2 0))]. rewrite decode_one_hot by lia.
      apply (@table_gradient 1 2 HA (table1 1) (@table1_tabular 1 2) mse1 (fun y h => h - y) mse_deriv (target_expected 2 (table1 1) even) [(0, 0)%nat] (plus_b 2 one b) th th (zipw Rplus G (map (bonus 2 one) (fb_S b))) th); auto; try discriminate; [rewrite HG; reflexivity|]. intros s a [E|[]]. injection E as <- <-. lia. }
    destruct X as [X1 X2]. split; auto. intros i Hi. eapply derivable_pt_lim_ext; [|exact (X2 i Hi)]. intros t. cbv beta. now rewrite (q_loss_shift one HA HR AL) by auto. }
  assert (Q0 : q_params two_y = Node [0%nat] [Node [0%nat] [Leaf th]]) by reflexivity.
  destruct (@C122_update 1 2 one (table1 1) (target_expected 2 (table1 1) even) (by_policy 2 even) mse (fun e => e) one_grads Nat.eqb 1 two_y th th [(0, 0)%nat] b G) as (y' & th' & R & _ & QP & _ & V'); auto; try discriminate; try (split; [reflexivity|exact I]); try (intros s0 a0 [E|[]]; injection E as <- <-; lia).
  split; [intros s a _ _; cbn; lia|]. split.
  { intros s a Hs Ha. assert (s = 0%nat) by lia. subst s. exists (2 * ln 2). split; [unfold by_policy, next; cbn [with_bonus loop0 fst snd]; rewrite even_mean; lra|]. unfold reward, with_bonus, ends, next, bonus. cbn [fst snd loop0]. rewrite even_entropy. lra. }
  split; [split; [reflexivity|exact I]|]. split.
  { apply (within_err _ _ _ (@table1_tabular 1 2)). exists th. split; auto. split; auto. intros s a Hs Ha. assert (s = 0%nat) by lia. subst s. unfold tq, th. destruct a as [|[|a]]; [| |lia]; cbn; rewrite Rminus_diag_eq, Rabs_R0 by reflexivity; lra. }
  split; [cbv zeta; repeat split; reflexivity|]. split.
  { cbn. unfold from_single. repeat (destruct (Rle_dec _ _); [|lra]). destruct (Rlt_dec 0 1); [|lra]. f_equal. f_equal. unfold two_x. f_equal; unfold partial_return; cbn; lra. }
  split; [exact GD|]. exists y', th'. split; [exact R|]. split; auto. split; auto. destruct (V' 0%nat 0%nat) as (old & new & O & N & _ & W); try lia. rewrite N. f_equal. rewrite W.
  assert (OV : old = 2 * ln 2). { unfold th in O. destruct (@table1_tabular 1 2 th eq_refl) as [_ TQ]. cbn in O. injection O as <-. cbn. lra. }
  assert (BN : bonus 2 one 0 = ln 2) by (unfold bonus; cbn [one]; rewrite even_entropy; lra). subst old. rewrite HG, BN. cbn [length seq map nth fst snd b batch_of fb_W x_w two_x]. change (same_pair (0%nat, 0%nat) (0%nat, 0%nat)) with true. cbn [INR]. unfold total. cbn [fold_right]. assert (Rmax (1/10) (Rmin 1 10) = 1) as -> by (rewrite <- wclip, clip_in; lra). lra.
Qed.
Print Assumptions C122_two_steps_refuted.
