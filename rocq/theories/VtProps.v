(** Property C124: training with value transforms.  Specifications in VtSpec.v. *)
From Coq Require Import List Lia Bool Arith Reals Lra.
From Verif Require Import PyCommon CommonProofs UtilsModel UtilsSpec UtilsProofs2 UtilsProofs3 WrappersProofs DistModel DistSpec DistProofs DistProofs2 DistProofs3 LossModel LossSpec LossProofs QModel QProofs QProps TDModel TDSpec TDProofs TDProofs2 TDProofs3 TDProofs4 CoreModel CoreSpec CoreProofs LearnModel LearnSpec LearnProofs LearnProofs2 LearnProofs3 LearnProofs4 LearnProofs5 LearnProofs6 LearnProofs7 NoiseSpec NoiseProofs NoiseProofs2 NoiseProofs3 DblModel DblSpec DblProofs DblProofs2 DblProofs3 DblProofs4.
From Verif Require Import LearnProps DblProps VtModel VtSpec VtProofs VtProofs2 VtProofs3.
Import ListNotations.
Set Implicit Arguments.
Local Open Scope R_scope.

(** C124: what qlearning.update does to the values that a user gets: their transforms move towards the transforms of the reward plus the
    discounted largest value of the next state.  v: the values that calling the target network gives. *)
Theorem C124_update : forall nS nA net f g loss h grads sub lr y th targ v rows b, (1 <= nA)%nat -> (net = table1 nS \/ net = table2 nS nA) -> inverse_pair f g -> increasing f ->
  (loss = mse /\ h = (fun e => e)) \/ (exists delta, 0 < delta /\ loss = huber delta /\ h = (fun e => Rmax (- delta) (Rmin e delta))) ->
  sgd_learner lr sub y -> q_params y = Node [0%nat] [Node [0%nat] [Leaf th]] -> targ_params y = Node [0%nat] [Node [0%nat] [Leaf targ]] -> length th = (nS * nA)%nat -> length targ = (nS * nA)%nat ->
  (forall s a, (s < nS)%nat -> (a < nA)%nat -> q_call_a (Some nA) (one_hot nA) g (net targ) s a = Ok (v s a)) ->
  rows <> [] -> fb_S b = map fst rows -> fb_A b = map (fun x => one_hot nA (snd x)) rows -> length (fb_W b) = length rows -> length (tb_Rn (fb_t b)) = length rows -> length (tb_In (fb_t b)) = length rows -> length (tb_Snext (fb_t b)) = length rows ->
  (forall s a, In (s, a) rows -> (s < nS)%nat /\ (a < nA)%nat) -> (forall s, In s (tb_Snext (fb_t b)) -> (s < nS)%nat) ->
  gradient (fun p => loss_value (q_loss (Some nA) net (target_q_t nA net f g) loss th targ b p)) th (grads th targ b) ->
  exists G, length G = length rows /\ (forall k s', nth_error (tb_Snext (fb_t b)) k = Some s' -> exists m, is_maximum nA (v s') m /\ nth k G 0 = nth k (tb_Rn (fb_t b)) 0 + nth k (tb_In (fb_t b)) 0 * m) /\
  exists y' th', ystep nA net (target_q_t nA net f g) loss grads sub y (YUpdate b) = (y', Ok tt) /\ y_targ y' = y_targ y /\ q_params y' = Node [0%nat] [Node [0%nat] [Leaf th']] /\ length th' = (nS * nA)%nat /\
  forall s a, (s < nS)%nat -> (a < nA)%nat -> exists old new,
    q_call_a (Some nA) (one_hot nA) g (net th) s a = Ok old /\ q_call_a (Some nA) (one_hot nA) g (net th') s a = Ok new /\
    (~ In (s, a) rows -> new = old) /\
    f new = f old + lr * (total (map (fun i => if same_pair (nth i rows (0, 0)%nat) (s, a) then Rmax (1/10) (Rmin (nth i (fb_W b) 0) 10) * h (f (nth i G 0) - f old) else 0) (seq 0 (length rows))) / INR (length rows)).
Proof.
  intros nS nA net f g loss h grads sub lr y th targ v rows b HA TB IV INC LF SG Q P L Lt HV NE HS HAc HW L1 L2 L3 HR HN GD. pose proof (table_tabular TB) as T.
  destruct (@target_q_t_boot nS nA HA net T f g th targ (fb_t b) Lt) as (GT & TG & LG & BG); [split; congruence|auto|].
  destruct (@C102_table_update nS nA net (target_q_t nA net f g) loss h grads sub lr y th targ rows b GT) as (y' & th' & Y1 & Y2 & Y3 & Y4 & C); auto; [congruence|].
  pose proof IV as [GF FG]. exists (map g GT). split; [rewrite map_length; congruence|]. split.
  { intros k s' Hk. destruct (BG k s' Hk) as (x & X1 & X2). assert (Hs' : (s' < nS)%nat) by (apply HN; eapply nth_error_In; eauto). exists (g x). split.
    - apply (g_max IV INC) in X1. assert (E : forall a, (a < nA)%nat -> v s' a = g (tq nA targ s' a)) by (intros a Ha; specialize (HV s' a Hs' Ha); rewrite (tab_call_t g T) in HV by auto; now injection HV).
      destruct X1 as [(a & Ha & Ea) U]. split; [exists a; split; auto; rewrite E; auto|]. intros c Hc. rewrite E by auto. now apply U.
    - assert (K : (k < length GT)%nat) by (rewrite LG; apply nth_error_Some; congruence). rewrite (@nth_indep _ (map g GT) k 0 (g 0)) by (now rewrite map_length). rewrite map_nth, X2. apply GF. }
  exists y', th'. do 4 (split; auto). intros s a Hs Ha. destruct (C s a Hs Ha) as (old & new & O1 & O2 & O3 & O4). rewrite (tab_call T) in O1, O2 by auto. injection O1 as <-. injection O2 as <-.
  exists (g (tq nA th s a)), (g (tq nA th' s a)). split; [now apply (tab_call_t g T)|]. split; [now apply (tab_call_t g T)|]. split; [intros N; now rewrite (O3 N)|]. rewrite !FG. rewrite O4. do 4 f_equal. apply map_ext_in. intros i Hi. apply in_seq in Hi. rewrite (@nth_indep _ (map g GT) i 0 (g 0)) by (rewrite map_length; lia). rewrite map_nth, FG. reflexivity.
Qed.
Print Assumptions C124_update.
(** C124: QLearning with an increasing transform.  The errors of the values that users get (not of the transformed ones) shrink by a
    constant factor in every round; the factor depends on how much the slopes of the transform vary. *)
Theorem C124_rate : forall nS nA dyn gamma net f g loss grads sub lr wl cl B q y D m M tau0 rounds, scene nS nA dyn gamma net loss lr wl cl (M * ((1 + gamma) * D)) B ->
  inverse_pair f g -> increasing f -> 0 < m <= M -> slopes nS nA f q D m M -> bellman nS nA dyn gamma (by_max nA) q -> differentiates nS nA dyn gamma net (target_q_t nA net f g) loss grads ->
  0 <= D -> sgd_learner lr sub y -> called_within nS nA g net (q_params y) q D -> called_within nS nA g net (targ_params y) q D -> 0 < tau0 <= 1 -> (forall os, In os rounds -> one_round nS nA dyn gamma lr wl tau0 B y os) ->
  let D' := (1 - m / M * tau0 * (m / M * (lr * wl * cl / INR B) * (1 - gamma))) ^ length rounds * D in
  exists y', yrun nA net (target_q_t nA net f g) loss grads sub y (concat rounds) = (y', Ok tt) /\ called_within nS nA g net (q_params y') q D' /\ called_within nS nA g net (targ_params y') q D'.
Proof.
  intros nS nA dyn gamma net f g loss grads sub lr wl cl B q y D m M tau0 rounds SC IV INC HM SL BE GR HD SG W1 W2 Ht RS D'. destruct (scene_parts SC) as (HA & CL & Hg & T & PL & Hlr & Hwl & Hb).
  destruct (@rounds_t nS nA HA net T dyn gamma Hg f g IV INC q BE D m M HM SL loss grads sub cl lr wl B PL GR Hlr Hwl Hb tau0 rounds y D Ht ltac:(lra) SG W1 W2 RS) as (y' & R & _ & G). exists y'. split; auto.
Qed.
Print Assumptions C124_rate.
(** C124: with LogTransform, any scale, from any tables, the values that users get converge to the optimal ones. *)
Theorem C124_log_converges : forall nS nA dyn gamma net scale f g, (1 <= nA)%nat -> closed nS nA dyn -> 0 <= gamma < 1 -> (net = table1 nS \/ net = table2 nS nA) -> log_transform scale = Ok (f, g) ->
  exists q, bellman nS nA dyn gamma (by_max nA) q /\ (forall q', bellman nS nA dyn gamma (by_max nA) q' -> forall s a, (s < nS)%nat -> (a < nA)%nat -> q' s a = q s a) /\
  forall loss grads sub lr wl B y tau0 th targ, loss = mse \/ (exists delta, 0 < delta /\ loss = huber delta) -> differentiates nS nA dyn gamma net (target_q_t nA net f g) loss grads -> 0 < lr -> 0 < wl -> lr * wl <= 1 -> (1 <= B)%nat -> 0 < tau0 <= 1 -> sgd_learner lr sub y ->
  q_params y = Node [0%nat] [Node [0%nat] [Leaf th]] -> targ_params y = Node [0%nat] [Node [0%nat] [Leaf targ]] -> length th = (nS * nA)%nat -> length targ = (nS * nA)%nat ->
  forall eps, 0 < eps -> exists N, forall rounds, (forall os, In os rounds -> one_round nS nA dyn gamma lr wl tau0 B y os) -> (N <= length rounds)%nat ->
  exists y', yrun nA net (target_q_t nA net f g) loss grads sub y (concat rounds) = (y', Ok tt) /\ called_within nS nA g net (q_params y') q eps.
Proof.
  intros nS nA dyn gamma net scale f g HA CL Hg TB LT. destruct (@optimal_values nS nA dyn gamma HA CL Hg) as (q & BE & UN). exists q. split; auto. split; auto. destruct (@log_parts scale f g LT) as (Hsc & IV & INC & EF). pose proof (table_tabular TB) as T.
  intros loss grads sub lr wl B y tau0 th targ LS GR Hlr Hwl Hlw HB Ht SG Q P L1 L2 eps He.
  destruct (@called_start nS nA net f g q th IV INC T L1) as (D1 & HD1 & W1). destruct (@called_start nS nA net f g q targ IV INC T L2) as (D2 & HD2 & W2). set (D := D1 + D2). assert (HD : 0 <= D) by (unfold D; lra).
  rewrite <- Q in W1. rewrite <- P in W2. apply (fun H => @called_more nS nA g net _ q D1 D H ltac:(unfold D; lra)) in W1. apply (fun H => @called_more nS nA g net _ q D2 D H ltac:(unfold D; lra)) in W2.
  set (m := scale / (scale + (bound nS nA q + D))). pose proof (@bound_pos nS nA q) as BP. assert (Hm : 0 < m <= 1). { unfold m. split; [apply Rdiv_lt_0_compat; lra|]. apply (Rmult_le_reg_r (scale + (bound nS nA q + D))); [lra|]. unfold Rdiv. rewrite Rmult_assoc, Rinv_l by lra. lra. }
  assert (SL : slopes nS nA f q D m 1) by (rewrite EF; now apply log_slopes).
  set (M := (1 + gamma) * D). assert (HM : 0 <= M) by (apply Rmult_le_pos; lra).
  assert (PL : exists cl, pulls loss (1 * M) cl /\ 0 < cl <= 1). { destruct LS as [->|(d & Hd & ->)]; [exists 1; split; [left; auto|lra]|]. exists (Rmin 1 (d / (M + 1))). assert (X : 0 < Rmin 1 (d / (M + 1)) <= 1) by (split; [apply Rmin_glb_lt; [lra|apply Rdiv_lt_0_compat; lra]|apply Rmin_l]). split; auto. right. exists d. do 3 (split; auto).
    apply Rle_trans with (d / (M + 1) * (M + 1)); [|right; field; lra]. rewrite Rmult_1_l. assert (Rmin 1 (d / (M + 1)) <= d / (M + 1)) by apply Rmin_r. apply Rmult_le_compat; lra. }
  destruct PL as (cl & PL & Hcl). assert (SC : scene nS nA dyn gamma net loss lr wl cl (1 * M) B) by (repeat (split; auto; try lra)). destruct (scene_parts SC) as (_ & _ & _ & _ & _ & _ & _ & Hb). unfold beta in Hb.
  assert (Hb' : 0 < lr * wl * cl / INR B). { assert (0 < INR B) by (apply lt_0_INR; lia). apply Rdiv_lt_0_compat; auto. apply Rmult_lt_0_compat; [|lra]. apply Rmult_lt_0_compat; lra. }
  destruct (@pow_small (1 - m / 1 * tau0 * (m / 1 * (lr * wl * cl / INR B) * (1 - gamma))) D eps) as [N HN]; auto.
  { replace (m / 1) with m by field. assert (0 < m * tau0 <= 1) by (split; [apply Rmult_lt_0_compat; lra|nra]). assert (0 < m * (lr * wl * cl / INR B) <= 1) by (split; [apply Rmult_lt_0_compat; lra|nra]). assert (0 < m * (lr * wl * cl / INR B) * (1 - gamma) <= 1) by (split; [apply Rmult_lt_0_compat; lra|nra]).
    assert (0 < m * tau0 * (m * (lr * wl * cl / INR B) * (1 - gamma)) <= 1) by (split; [apply Rmult_lt_0_compat; lra|nra]). lra. }
  exists N. intros rounds RS LN. destruct (@C124_rate nS nA dyn gamma net f g loss grads sub lr wl cl B q y D m 1 tau0 rounds SC IV INC Hm SL BE GR HD SG W1 W2 Ht RS) as (y' & R & J & _). exists y'. split; auto. eapply called_more; [exact J|]. apply HN. exact LN.
Qed.
Print Assumptions C124_log_converges.

(** * A concrete case *)
Definition funcV (th : list R) : func := mkFunc 0 (wrap th) (Node [] []) 0.
Definition startV (th : list R) (targ : option (list R)) : sys := mkSys (mkLearner KTD (funcV th) (sgd 1) (Node [] [])) (option_map funcV targ).
Lemma startV_sgd : forall th targ, match targ with Some t => length t = length th | None => True end -> sgd_learner 1 Nat.eqb (startV th targ).
Proof. intros th [t|] L; (split; [reflexivity|]); cbn; auto. Qed.
Lemma roundB_round : forall gamma y, 0 <= gamma -> y_targ y <> None -> one_round 1 2 dynB gamma 1 1 1 1 y (roundB gamma).
Proof.
  intros gamma y Hg NT. split.
  - intros o [<-|[<-|[<-|[]]]]; [apply rowB_ok; lia|apply rowB_ok; lia|cbn; lra].
  - destruct (y_targ y); [|congruence]. exists [YUpdate (rowB gamma 0); YUpdate (rowB gamma 1)], 1, []. split; [reflexivity|]. split; [|lra]. intros s a Hs Ha. assert (s = 0%nat) by lia. subst s. destruct a as [|[|a]]; [| |lia].
    + exists (YUpdate (rowB gamma 0)). split; [now left|]. exists 0%nat. split; reflexivity.
    + exists (YUpdate (rowB gamma 1)). split; [right; now left|]. exists 0%nat. split; reflexivity.
Qed.
(** Hypotheses of C124_rate and C124_log_converges: both actions earn nothing, discount factor 1/2, called values 3 and 0 at the beginning. *)
Example C124_example : let y := startV [2 * ln 2; 0] (Some [2 * ln 2; 0]) in let q := fun _ _ : nat => 0 in let m := 1 / (1 + (bound 1 2 q + 3)) in
  log_transform 1 = Ok (f1, g1) /\ inverse_pair f1 g1 /\ increasing f1 /\ scene 1 2 dynB (1/2) (table1 1) mse 1 1 1 (1 * ((1 + 1/2) * 3)) 1 /\ 0 < m <= 1 /\ slopes 1 2 f1 q 3 m 1 /\ bellman 1 2 dynB (1/2) (by_max 2) q /\
  differentiates 1 2 dynB (1/2) (table1 1) (target_q_t 2 (table1 1) f1 g1) mse (analytic 1 2 (fun y h => h - y) (target_q_t 2 (table1 1) f1 g1)) /\ sgd_learner 1 Nat.eqb y /\
  called_within 1 2 g1 (table1 1) (q_params y) q 3 /\ called_within 1 2 g1 (table1 1) (targ_params y) q 3 /\ one_round 1 2 dynB (1/2) 1 1 1 1 y (roundB (1/2)).
Proof.
  intros y q m. split; [exact log1|]. split; [exact iv1|]. split; [exact inc1|]. split; [repeat split; try lra; try lia; try (intros s a Hs Ha; cbn; lia); [now left|now left]|].
  assert (B0 : bound 1 2 q = 0) by (unfold bound, q; cbn; rewrite Rabs_R0; ring). split; [unfold m; rewrite B0; replace (1 + (0 + 3)) with 4 by ring; lra|]. split; [exact (@log_slopes 1 Rlt_0_1 1 2 q 3)|].
  split; [intros s a Hs Ha; exists 0; split; [split; [exists 0%nat; split; [lia|reflexivity]|intros; unfold q; lra]|unfold q, reward, ends; cbn; lra]|].
  split; [apply (@analytic_q_t 1 2 (table1 1) mse1 (fun y h => h - y)); [lia|apply table1_tabular|exact mse_deriv]|]. split; [apply startV_sgd; exact eq_refl|].
  assert (W : called_within 1 2 g1 (table1 1) (q_params y) q 3).
  { exists [2 * ln 2; 0]. do 2 (split; [reflexivity|]). intros s a Hs Ha. rewrite (tab_call_t g1 (@table1_tabular 1 2)) by auto. eexists. split; [reflexivity|]. assert (s = 0%nat) by lia. subst s. destruct a as [|[|a]]; [| |lia]; cbn [LearnProofs.tq nth Nat.mul Nat.add]; unfold q.
    - replace (2 * ln 2) with (ln (2 * 2)) by (rewrite ln_mult by lra; ring). unfold LearnProofs.tq. cbn. rewrite g1_ln by lra. rewrite Rabs_right; lra.
    - unfold LearnProofs.tq. cbn. assert (Z : g1 0 = 0) by (rewrite <- ln_1 at 1; rewrite g1_ln; lra). rewrite Z, Rabs_right; lra. }
  split; [exact W|]. split; [exact W|]. apply roundB_round; [lra|discriminate].
Qed.

(** * What does not work *)
(** C124: ExpectedSarsa with LogTransform.  Discount factor 1/2; action 0 ends with reward 35, action 1 stays and costs 5/2, the policy
    chooses both with the same probability.  The value of action 1 is 25/3 (without the transform it is learned, C103).  There are tables
    that give 0 and tables that give 3 for it and that no program can change, whatever the learning rate, the batches and the
    synchronisations: what is learned depends on the initial parameters, and it is wrong. *)
Theorem C124_expected_refuted : exists f g dyn pi q, log_transform 1 = Ok (f, g) /\ closed 1 2 dyn /\ (forall s, length (pi s) = 2%nat) /\ bellman 1 2 dyn (1/2) (by_policy 2 pi) q /\ q 0%nat 1%nat = 25/3 /\
  forall v, v = 0 \/ v = 3 -> exists th, length th = 2%nat /\
  forall net, (net = table1 1 \/ net = table2 1 2) -> q_call_a (Some 2%nat) (one_hot 2) g (net th) 0%nat 0 = Ok 35 /\ q_call_a (Some 2%nat) (one_hot 2) g (net th) 0%nat 1 = Ok v /\
  forall loss grads sub lr wl B y os, loss = mse \/ (exists delta, 0 < delta /\ loss = huber delta) -> differentiates 1 2 dyn (1/2) net (target_expected_t 2 net f g pi) loss grads -> 0 < lr -> 0 < wl -> sgd_learner lr sub y ->
  q_params y = Node [0%nat] [Node [0%nat] [Leaf th]] -> targ_params y = Node [0%nat] [Node [0%nat] [Leaf th]] -> (forall o, In o os -> op_ok 1 2 dyn (1/2) lr wl B o) -> (y_targ y = None -> forall o, In o os -> exists b, o = YUpdate b) ->
  exists y', yrun 2 net (target_expected_t 2 net f g pi) loss grads sub y os = (y', Ok tt) /\ q_params y' = q_params y.
Proof.
  exists f1, g1, dynA, uniform, qA. split; [exact log1|]. split; [exact dynA_closed|]. split; [reflexivity|]. split; [exact qA_bellman|]. split; [reflexivity|]. intros v Hv. exists (thA v). split; [reflexivity|]. intros net TB. pose proof (table_tabular TB) as T. rewrite !(tab_call_t g1 T) by (auto; try reflexivity; lia).
  split; [unfold LearnProofs.tq; cbn; rewrite g1_ln by lra; f_equal; lra|]. split; [unfold LearnProofs.tq; cbn; rewrite g1_ln by (destruct Hv; subst; lra); f_equal; lra|].
  intros loss grads sub lr wl B y os LS GR Hlr Hwl SG Q P OK NS. rewrite Q. apply (@run_fixed 1 2 net dynA (1/2) (target_expected_t 2 net f1 g1 uniform) loss grads sub lr wl B (thA v) os y); auto. intros b rows GEN. now apply fixed_A.
Qed.
Print Assumptions C124_expected_refuted.
Example C124_expected_refuted_ex : differentiates 1 2 dynA (1/2) (table1 1) (target_expected_t 2 (table1 1) f1 g1 uniform) mse (analytic 1 2 (fun y h => h - y) (target_expected_t 2 (table1 1) f1 g1 uniform)) /\
  sgd_learner 1 Nat.eqb (startV (thA 3) (Some (thA 3))) /\ op_ok 1 2 dynA (1/2) 1 1 1 (YUpdate (mk_fb [0%nat] [one_hot 2 1] [1] (mk_tb [-5/2] [1/2] [0%nat] [one_hot 2 0]))).
Proof.
  split; [apply (@analytic_expected_t 1 2 (table1 1) mse1 (fun y h => h - y)); [lia|apply table1_tabular|reflexivity|exact mse_deriv]|]. split; [apply startV_sgd; exact eq_refl|].
  exists [(0%nat, 1%nat)]. split; [|split; [exact (@rowB_fit (1/2) 1)|cbn; lia]]. split; [discriminate|]. do 6 (split; [reflexivity|]). intros [|i] s0 a0 s' E N; [|destruct i; discriminate]. injection E as <- <-. injection N as <-. repeat split; auto.
Qed.
(** C124: SoftQLearning with LogTransform (temperature 1, discount factor at least 1/2) can diverge even though nothing is ever earned: with
    rounds of exact transitions, learning rate 1 and copies to the target network the values grow by 1/2 per round at least.  (Without the
    transform these very rounds converge, C103.) *)
Theorem C124_soft_refuted : forall gamma net, 1/2 <= gamma <= 1 -> (net = table1 1 \/ net = table2 1 2) -> exists f g dyn grads y round, log_transform 1 = Ok (f, g) /\ closed 1 2 dyn /\ (forall s a, reward dyn s a = 0) /\
  differentiates 1 2 dyn gamma net (target_soft_t 2 net f g 1) mse grads /\ sgd_learner 1 Nat.eqb y /\ called_within 1 2 g net (q_params y) (fun _ _ => 0) 0 /\ called_within 1 2 g net (targ_params y) (fun _ _ => 0) 0 /\ one_round 1 2 dyn gamma 1 1 1 1 y round /\
  forall k, exists y' th, yrun 2 net (target_soft_t 2 net f g 1) mse grads Nat.eqb y (concat (repeat round k)) = (y', Ok tt) /\ q_params y' = Node [0%nat] [Node [0%nat] [Leaf th]] /\
  forall a, (a < 2)%nat -> exists x, q_call_a (Some 2%nat) (one_hot 2) g (net th) 0%nat a = Ok x /\ INR k / 2 <= x.
Proof.
  intros gamma net Hg TB. pose proof (table_tabular TB) as T. set (y := startV [0; 0] (Some [0; 0])). set (gr := analytic 1 2 (fun y h => h - y) (target_soft_t 2 net f1 g1 1)).
  assert (GR : differentiates 1 2 dynB gamma net (target_soft_t 2 net f1 g1 1) mse gr) by (apply (@analytic_soft_t 1 2 net mse1 (fun y h => h - y)); auto; exact mse_deriv).
  exists f1, g1, dynB, gr, y, (roundB gamma). split; [exact log1|]. split; [intros s a Hs Ha; cbn; lia|]. split; [reflexivity|]. split; [exact GR|]. split; [apply startV_sgd; exact eq_refl|].
  assert (Z : g1 0 = 0) by (rewrite <- ln_1 at 1; rewrite g1_ln; lra).
  assert (W : called_within 1 2 g1 net (wrap [0; 0]) (fun _ _ => 0) 0). { exists [0; 0]. do 2 (split; [reflexivity|]). intros s a Hs Ha. rewrite (tab_call_t g1 T) by auto. eexists. split; [reflexivity|]. replace (tq 2 [0; 0] s a) with 0; [rewrite Z, Rminus_0_r, Rabs_R0; lra|]. unfold LearnProofs.tq. assert (s = 0%nat) by lia. subst s. destruct a as [|[|a]]; [reflexivity|reflexivity|lia]. }
  split; [exact W|]. split; [exact W|]. split; [apply roundB_round; [lra|discriminate]|]. intros k.
  destruct (@rounds_B net T gamma Hg gr Nat.eqb GR k 0 y) as (y' & R & (_ & _ & th & targ & Q & P & L & _ & E0 & E1 & _)).
  { split; [apply startV_sgd; exact eq_refl|]. split; [discriminate|]. exists [0; 0], [0; 0]. cbn [grow]. rewrite Rplus_0_r, ln_1. repeat split; reflexivity. }
  rewrite Nat.add_0_r in *. exists y', th. split; auto. split; auto. pose proof (grow_ge Hg k) as GE. pose proof (pos_INR k). intros a Ha. rewrite (tab_call_t g1 T) by (auto; lia). exists (grow gamma k). split; auto. f_equal. replace (tq 2 th 0 a) with (ln (1 + grow gamma k)) by (destruct a as [|[|a]]; [auto|auto|lia]). rewrite g1_ln by lra. ring.
Qed.
Print Assumptions C124_soft_refuted.
(** C124: with noisy rewards the transform biases the values.  One state, one action that ends, rewards 0 and 3 equally often, so that the
    mean is 3/2: from any table and for any learning rate the values converge to 1. *)
Theorem C124_noise_refuted : exists f g b, log_transform 1 = Ok (f, g) /\ fb_S b = [0%nat; 0%nat] /\ fb_A b = [one_hot 1 0; one_hot 1 0] /\ fb_W b = [1; 1] /\ tb_Rn (fb_t b) = [0; 3] /\ tb_In (fb_t b) = [0; 0] /\
  forall net grads sub lr y th targ, (net = table1 1 \/ net = table2 1 1) -> 0 < lr <= 1 -> sgd_learner lr sub y -> q_params y = Node [0%nat] [Node [0%nat] [Leaf th]] -> targ_params y = Node [0%nat] [Node [0%nat] [Leaf targ]] -> length th = 1%nat -> length targ = 1%nat ->
  (forall th targ, length th = 1%nat -> length targ = 1%nat -> gradient (fun p => loss_value (q_loss (Some 1%nat) net (target_q_t 1 net f g) mse th targ b p)) th (grads th targ b)) ->
  forall eps, 0 < eps -> exists N, forall n, (N <= n)%nat -> exists y', yrun 1 net (target_q_t 1 net f g) mse grads sub y (repeat (YUpdate b) n) = (y', Ok tt) /\ called_within 1 1 g net (q_params y') (fun _ _ => 1) eps.
Proof.
  exists f1, g1, coin_batch. split; [exact log1|]. do 5 (split; [reflexivity|]). intros net grads sub lr y th targ TB Hlr SG Q P L Lt GR eps He. pose proof (table_tabular TB) as T.
  assert (F1 : f1 1 = ln 2) by (rewrite f1_pos by lra; f_equal; lra). pose proof (@inc1 1 (1 + eps) ltac:(lra)) as U1. pose proof (@inc1 (1 - eps) 1 ltac:(lra)) as U2. rewrite F1 in *.
  set (d := Rmin (f1 (1 + eps) - ln 2) (ln 2 - f1 (1 - eps))). assert (Hd : 0 < d) by (apply Rmin_glb_lt; lra). assert (D1 : d <= f1 (1 + eps) - ln 2) by apply Rmin_l. assert (D2 : d <= ln 2 - f1 (1 - eps)) by apply Rmin_r. clearbody d.
  destruct (@pow_small (1 - lr) (Rabs (tq 1 th 0 0 - ln 2)) d ltac:(lra) (Rabs_pos _) Hd) as [N HN]. exists N. intros n Hn. specialize (HN n Hn).
  destruct (@coin_run net TB grads GR sub lr n y (tq 1 th 0 0)) as (y' & R & (_ & th' & targ' & Q' & _ & L' & _ & E)); [split; auto; exists th, targ; auto|]. exists y'. split; auto. exists th'. split; auto. split; auto.
  intros s a Hs Ha. rewrite (tab_call_t g1 T) by auto. eexists. split; [reflexivity|]. assert (s = 0%nat) by lia. assert (a = 0%nat) by lia. subst s a. rewrite E. apply (around iv1 inc1).
  assert (B : Rabs ((1 - lr) ^ n * (tq 1 th 0 0 - ln 2)) <= d). { rewrite Rabs_mult, (Rabs_right ((1 - lr) ^ n)); auto. apply Rle_ge, pow_le. lra. }
  revert B. unfold Rabs. destruct (Rcase_abs _); lra.
Qed.
Print Assumptions C124_noise_refuted.
(** The hypotheses of C124_update and C124_noise_refuted can be met. *)
Example C124_noise_refuted_ex : sgd_learner 1 Nat.eqb (startV [5] None) /\ forall th targ, length th = 1%nat -> length targ = 1%nat ->
  gradient (fun p => loss_value (q_loss (Some 1%nat) (table1 1) (target_q_t 1 (table1 1) f1 g1) mse th targ coin_batch p)) th (analytic 1 1 (fun y h => h - y) (target_q_t 1 (table1 1) f1 g1) th targ coin_batch).
Proof.
  split; [apply startV_sgd; exact I|]. intros th targ L Lt. pose proof (@coin_target (table1 1) (or_introl eq_refl) th targ Lt) as TG. unfold analytic. rewrite TG.
  assert (DR : combine (fb_S coin_batch) (map decode (fb_A coin_batch)) = [(0, 0); (0, 0)]%nat) by (cbn [coin_batch fb_S fb_A map]; rewrite decode_one_hot by lia; reflexivity). rewrite DR.
  apply (@table_gradient 1 1 (le_n 1) (table1 1) (@table1_tabular 1 1) mse1 (fun y h => h - y) mse_deriv (target_q_t 1 (table1 1) f1 g1) [(0, 0); (0, 0)]%nat coin_batch th targ [0; 2 * ln 2] th eq_refl eq_refl eq_refl eq_refl); auto; [discriminate|]. intros s a [X|[X|[]]]; injection X as <- <-; lia.
Qed.
