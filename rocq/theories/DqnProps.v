(** C112: training from a replay buffer (doc/examples/cartpole/dqn.py).  Specifications in DqnSpec.v and LearnSpec.v. *)
From Coq Require Import List Bool Arith ZArith Lia Reals Lra.
From Verif Require Import PyCommon CommonProofs UtilsModel UtilsSpec UtilsProofs2 UtilsProofs3 WrappersProofs DistModel DistSpec DistProofs DistProofs2 DistProofs3 LossModel LossSpec LossProofs QModel QProofs QProps TDModel TDSpec CoreModel CoreSpec ReplayModel ReplaySpec TracerModel TracerSpec WorkerModel PipeModel PipeSpec PipeProofs3 PipeProps LearnModel LearnSpec LearnProofs LearnProofs2 LearnProofs3 LearnProofs4 LearnProofs5 LearnProofs6 LearnProofs7 LearnProps DqnModel DqnSpec DqnProofs DqnProofs2.
Import ListNotations.
Set Implicit Arguments.
Local Open Scope R_scope.

(** Training from sampled batches, for any number of steps, episodes and whatever is drawn: no exception, one batch of k different
    stored transitions at most per step, each a true transition of the environment, and neither the values of q nor those of q_targ get
    further away from the solution of the Bellman equation. *)
Theorem C112_never_worse : forall nS nA dyn gamma net target val loss grads sub lr cl D k q (G : Type) (draw : G -> nat -> nat -> list nat * G) warm tau y t cap h g es,
  setting nS nA dyn gamma net target val loss grads lr 1 cl D k -> bellman nS nA dyn gamma val q -> draws_distinct draw -> (k <= warm)%nat -> 0 <= tau <= 1 ->
  sgd_learner lr sub y -> y_targ y = Some t -> within nS nA net (q_params y) q D -> within nS nA net (targ_params y) q D -> follows nS nA dyn es ->
  exists y' p' log, dqn_run nA net target loss grads sub draw 1 gamma warm k tau y (mkPipe (nstep_reset nat nat) (simple_init h cap g)) es = (y', p', Ok log) /\
    within nS nA net (q_params y') q D /\ within nS nA net (targ_params y') q D /\
    forall b, In (Some b) log -> length b = k /\ NoDup (map (@ids _) b) /\ forall x, In x b -> exists z j, x = mkTB [z] [j] /\
      (x_s z < nS)%nat /\ (x_a z < nA)%nat /\ x_w z = 1 /\ x_rn z = reward dyn (x_s z) (x_a z) /\
      (ends dyn (x_s z) (x_a z) = true -> x_in z = 0) /\ (ends dyn (x_s z) (x_a z) = false -> x_in z = gamma /\ x_s_next z = next dyn (x_s z) (x_a z)).
Proof.
  intros nS nA dyn gamma net target val loss grads sub lr cl D k q G draw warm tau y t cap h g es SET BE Hd Hk Ht SG YT W1 W2 F.
  destruct (@dqn_whole nS nA dyn gamma net target val loss grads sub lr cl D k SET q BE G draw Hd warm tau Hk Ht y t cap h g es SG YT W1 W2 F) as (y' & p' & log & R & OK & A1 & A2 & _).
  exists y', p', log. split; auto. split; auto. split; auto. intros b I. destruct (OK b I) as (L & ND & FA). split; auto. split; auto. intros x Ix. rewrite Forall_forall in FA. destruct (FA x Ix) as (z & j & -> & (Z1 & Z2 & Z3 & Z4 & Z5 & Z6)). exists z, (Z.of_nat j). split; auto. do 4 (split; auto).
  split; intros E; rewrite E in Z6; auto.
Qed.
Print Assumptions C112_never_worse.
(** And each part of the training in which every state-action pair is sampled multiplies the distance by at most
    1 - tau * lr * cl / k * (1 - gamma). *)
Theorem C112_rate : forall nS nA dyn gamma net target val loss grads sub lr cl D k q (G : Type) (draw : G -> nat -> nat -> list nat * G) warm tau y t cap h g es,
  setting nS nA dyn gamma net target val loss grads lr 1 cl D k -> bellman nS nA dyn gamma val q -> draws_distinct draw -> (k <= warm)%nat -> 0 < tau <= 1 -> (1 <= nS)%nat ->
  sgd_learner lr sub y -> y_targ y = Some t -> within nS nA net (q_params y) q D -> within nS nA net (targ_params y) q D -> follows nS nA dyn es ->
  exists y' p' log, dqn_run nA net target loss grads sub draw 1 gamma warm k tau y (mkPipe (nstep_reset nat nat) (simple_init h cap g)) es = (y', p', Ok log) /\
    forall N, sweeps nS nA N log -> let D' := (1 - tau * (lr * cl / INR k * (1 - gamma))) ^ N * D in within nS nA net (q_params y') q D' /\ within nS nA net (targ_params y') q D'.
Proof.
  intros nS nA dyn gamma net target val loss grads sub lr cl D k q G draw warm tau y t cap h g es SET BE Hd Hk Ht HS SG YT W1 W2 F.
  destruct (@dqn_whole nS nA dyn gamma net target val loss grads sub lr cl D k SET q BE G draw Hd warm tau Hk ltac:(lra) y t cap h g es SG YT W1 W2 F) as (y' & p' & log & R & _ & _ & _ & A).
  exists y', p', log. split; auto. intros N SW D'. specialize (A HS (proj1 Ht) N SW). unfold D'. rewrite (Rmult_1_r lr) in A. exact A.
Qed.
Print Assumptions C112_rate.
(** Q-learning from a replay buffer finds the optimal values, whatever the initial tables. *)
Theorem C112_optimal : forall nS nA dyn gamma net, (1 <= nS)%nat -> (1 <= nA)%nat -> closed nS nA dyn -> 0 <= gamma < 1 -> (net = table1 nS \/ net = table2 nS nA) ->
  exists q, optimal nS nA dyn gamma q /\
  forall grads sub lr (G : Type) (draw : G -> nat -> nat -> list nat * G) warm k tau y t th targ, differentiates nS nA dyn gamma net (target_q nA net) mse grads -> 0 < lr <= 1 ->
  draws_distinct draw -> (1 <= k <= warm)%nat -> 0 < tau <= 1 -> sgd_learner lr sub y -> y_targ y = Some t ->
  q_params y = Node [0%nat] [Node [0%nat] [Leaf th]] -> f_params t = Node [0%nat] [Node [0%nat] [Leaf targ]] -> length th = (nS * nA)%nat -> length targ = (nS * nA)%nat ->
  forall eps, 0 < eps -> exists N, forall cap h g es, follows nS nA dyn es ->
  exists y' p' log, dqn_run nA net (target_q nA net) mse grads sub draw 1 gamma warm k tau y (mkPipe (nstep_reset nat nat) (simple_init h cap g)) es = (y', p', Ok log) /\
    forall M, (N <= M)%nat -> sweeps nS nA M log -> within nS nA net (q_params y') q eps.
Proof.
  intros nS nA dyn gamma net HS HA CL Hg TB. destruct (@C103_bellman_solution nS nA dyn gamma net (target_q nA net) (by_max nA) HA CL Hg TB (alg_q nA net)) as (q & BE & _). exists q. split; [now apply C103_optimal|].
  intros grads sub lr G draw warm k tau y t th targ GR Hlr Hd Hk Ht SG YT Q P L Lt eps He. pose proof (table_tabular TB) as T.
  set (D := bound nS nA (fun s a => tq nA th s a - q s a) + bound nS nA (fun s a => tq nA targ s a - q s a)). assert (P1 := @bound_pos nS nA (fun s a => tq nA th s a - q s a)). assert (P2 := @bound_pos nS nA (fun s a => tq nA targ s a - q s a)).
  assert (SET : setting nS nA dyn gamma net (target_q nA net) (by_max nA) mse grads lr 1 1 D k) by (repeat (split; auto; try lra; try lia); [constructor|now left|unfold D; lra]).
  assert (HD : 0 <= D) by (unfold D; lra). pose proof (beta_le SET) as Hb. unfold beta in Hb. rewrite !Rmult_1_r in Hb.
  set (r := 1 - tau * (lr * 1 / INR k * (1 - gamma))).
  assert (Hr : 0 <= r < 1). { unfold r. rewrite Rmult_1_r. assert (0 < lr / INR k * (1 - gamma) <= 1) by (split; [apply Rmult_lt_0_compat; lra|nra]). assert (0 < tau * (lr / INR k * (1 - gamma)) <= 1) by (split; [apply Rmult_lt_0_compat; lra|nra]). lra. }
  destruct (@pow_small r D eps Hr HD He) as [N HN]. exists N. intros cap h g es F.
  destruct (@C112_rate nS nA dyn gamma net (target_q nA net) (by_max nA) mse grads sub lr 1 D k q G draw warm tau y t cap h g es SET BE Hd) as (y' & p' & log & R & W); auto; try lia.
  - apply (within_err _ _ _ T). exists th. split; auto. split; auto. intros s a Hs Ha. eapply Rle_trans; [exact (@bound_ok nS nA (fun s a => tq nA th s a - q s a) s a Hs Ha)|]. unfold D. lra.
  - apply (within_err _ _ _ T). exists targ. split; [unfold targ_params; rewrite YT; exact P|]. split; auto. intros s a Hs Ha. eapply Rle_trans; [exact (@bound_ok nS nA (fun s a => tq nA targ s a - q s a) s a Hs Ha)|]. unfold D. lra.
  - exists y', p', log. split; auto. intros M LM SW. destruct (W M SW) as [W' _]. destruct W' as (th' & E' & L' & H). exists th'. split; auto. split; auto. intros s a Hs Ha. destruct (H s a Hs Ha) as (x & X1 & X2). exists x. split; auto. eapply Rle_trans; [exact X2|]. apply HN. exact LM.
Qed.
Print Assumptions C112_optimal.

(** An episode in the small environment in which every pair occurs; everything is sampled at the end. *)
Definition dqn_es : list (envstep nat nat) :=
  map (fun c => mkES (mkStep (fst c) (snd c) 0 1 true) (reward small (fst c) (snd c)) (ends small (fst c) (snd c)) false) [(0, 0); (0, 1); (1, 1); (0, 1); (1, 0)]%nat.
Example C112_example : forall D, 0 <= D -> setting 2 2 small (1/2) (table1 2) (target_q 2 (table1 2)) (by_max 2) mse small_grads (1/2) 1 1 D 5 /\ draws_distinct ex_draw /\
  sgd_learner (1/2) Nat.eqb (small_y (Some small_targ)) /\ y_targ (small_y (Some small_targ)) = Some small_targ /\ follows 2 2 small dqn_es /\
  exists y' p' log, dqn_run 2 (table1 2) (target_q 2 (table1 2)) mse small_grads Nat.eqb ex_draw 1 (1/2) 5 5 (1/10) (small_y (Some small_targ)) (mkPipe (nstep_reset nat nat) (simple_init [] 10 0%nat)) dqn_es = (y', p', Ok log) /\ sweeps 2 2 1 log.
Proof.
  intros D HD. assert (SETS : forall D, 0 <= D -> setting 2 2 small (1/2) (table1 2) (target_q 2 (table1 2)) (by_max 2) mse small_grads (1/2) 1 1 D 5).
  { intros D' HD'. split; [lia|]. split; [exact small_closed|]. split; [lra|]. split; [now left|]. split; [constructor|]. split; [left; auto|]. split; [exact small_differentiates|]. split; [lra|]. split; [lra|]. split; [lra|]. split; [lia|lra]. }
  assert (SG : sgd_learner (1/2) Nat.eqb (small_y (Some small_targ))) by (split; [reflexivity|split; reflexivity]).
  assert (FO : follows 2 2 small dqn_es). { cbn. repeat (split; [try lia; try lra; try reflexivity; try (intros _; reflexivity)|]). repeat (split; try lia; try lra; try discriminate; auto). }
  split; [now apply SETS|]. split; [apply ex_draw_distinct|]. split; [exact SG|]. split; [reflexivity|]. split; [exact FO|].
  destruct (@C103_bellman_solution 2 2 small (1/2) (table1 2) (target_q 2 (table1 2)) (by_max 2)) as (q & BE & _); [lia|exact small_closed|lra|now left|constructor|].
  set (B := bound 2 2 (fun s a => tq 2 [0; 0; 0; 0] s a - q s a)). assert (HB : 0 <= B) by apply bound_pos.
  assert (W : within 2 2 (table1 2) (wrap [0; 0; 0; 0]) q B). { apply (within_err _ _ _ (@table1_tabular 2 2)). exists [0; 0; 0; 0]. split; [reflexivity|]. split; [reflexivity|]. intros s a Hs Ha. exact (@bound_ok 2 2 (fun s a => tq 2 [0; 0; 0; 0] s a - q s a) s a Hs Ha). }
  assert (SC : exists p b, script_run ex_draw 1 (1/2) DoneOrTruncated (Some 5%nat) 5 (mkPipe (nstep_reset nat nat) (simple_init [] 10 0%nat)) dqn_es = (p, Ok [b]) /\ forall s a, (s < 2)%nat -> (a < 2)%nat -> exists x j, In (mkTB [x] [j]) b /\ x_s x = s /\ x_a x = a).
  { eexists. eexists. split; [repeat run_checks; reflexivity|]. intros s a Hs Ha. destruct s as [|[|s]]; [| |lia]; (destruct a as [|[|a]]; [| |lia]); eexists; eexists;
      (split; [cbn|split]; [(left; reflexivity) + (right; left; reflexivity) + (right; right; left; reflexivity) + (right; right; right; right; left; reflexivity)|reflexivity|reflexivity]). }
  destruct SC as (p & b & SC & CV).
  destruct (@C112_never_worse 2 2 small (1/2) (table1 2) (target_q 2 (table1 2)) (by_max 2) mse small_grads Nat.eqb (1/2) 1 B 5 q nat ex_draw 5 (1/10) (small_y (Some small_targ)) small_targ 10 [] 0%nat dqn_es) as (y' & p' & log' & R & _); auto; try lra; try reflexivity; [apply ex_draw_distinct|].
  exists y', p', log'. split; [exact R|]. exists [log'], []. split; [cbn; now rewrite !app_nil_r|]. split; [reflexivity|]. intros part [<-|[]] s a Hs Ha. destruct (CV s a Hs Ha) as (x & j & I & E1 & E2). exists b, x, j. split; auto.
  apply in_keep. apply dqn_run_script in R. rewrite SC in R. injection R as _ <-. now left.
Qed.
