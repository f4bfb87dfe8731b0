From Coq Require Import List Lia Bool Arith Reals Lra.
From Verif Require Import PyCommon CommonProofs UtilsModel UtilsSpec UtilsProofs2 UtilsProofs3 WrappersProofs DistModel DistSpec DistProofs DistProofs2 DistProofs3 LossModel LossSpec LossProofs QModel QProofs QProps TDModel TDSpec TDProofs TDProofs2 TDProofs3 TDProofs4 CoreModel CoreSpec CoreProofs CoreProofs2 TracerModel WorkerModel LearnModel LearnSpec LearnProofs LearnProofs2 LearnProofs3 LearnProofs4 LearnProofs5 LearnProofs6.
Import ListNotations.
Set Implicit Arguments.
Local Open Scope R_scope.

Lemma table_tabular : forall nS nA net, net = table1 nS \/ net = table2 nS nA -> tabular nS nA net.
Proof. intros nS nA net [->| ->]; [apply table1_tabular|apply table2_tabular]. Qed.
Lemma algorithm_ok : forall nS nA net target val, (1 <= nA)%nat -> tabular nS nA net -> algorithm nA net target val -> sound_target nS nA target val /\ nonexpansive nA val.
Proof.
  intros nS nA net target val HA T [|pi Hp|t Ht]; split.
  - now apply target_q_sound.
  - apply by_max_nonexp.
  - now apply target_expected_sound.
  - now apply by_policy_nonexp.
  - now apply target_soft_sound.
  - now apply by_soft_nonexp.
Qed.
Lemma within_err : forall nS nA net q p D, tabular nS nA net -> (within nS nA net p q D <-> exists th, p = wrap th /\ length th = (nS * nA)%nat /\ err_le nS nA q th D).
Proof.
  intros nS nA net q p D T. split.
  - intros (th & E & L & H). exists th. split; auto. split; auto. intros s a Hs Ha. destruct (H s a Hs Ha) as (x & X1 & X2). rewrite (tab_call T th) in X1 by auto. injection X1 as <-. exact X2.
  - intros (th & E & L & H). exists th. split; auto. split; auto. intros s a Hs Ha. exists (tq nA th s a). split; [now apply (tab_call T)|now apply H].
Qed.
Lemma good_within : forall nS nA net q lr sub y D, tabular nS nA net -> (good nS nA sub lr q y D <-> sgd_learner lr sub y /\ within nS nA net (q_params y) q D /\ within nS nA net (targ_params y) q D).
Proof.
  intros nS nA net q lr sub y D T. rewrite !(within_err _ _ _ T). split.
  - intros [SG (th & Q & L & E & _) (targ & P & Lt & Et)]. split; auto. split; [exists th|exists targ]; auto.
  - intros (SG & (th & Q & L & E) & (targ & P & Lt & Et)). constructor; [assumption| |exists targ; auto]. exists th. split; [assumption|]. split; [assumption|]. split; [assumption|intros ? ? ? ? []].
Qed.
Lemma beta_le : forall nS nA dyn gamma net target val loss grads lr wl cl D B, setting nS nA dyn gamma net target val loss grads lr wl cl D B -> 0 < beta cl lr wl B <= 1.
Proof.
  intros nS nA dyn gamma net target val loss grads lr wl cl D B (HA & CL & Hg & TB & AL & PL & GR & Hlr & Hwl & Hlw & HB & HD). destruct (pulls_slope PL) as (Hcl & _). unfold beta. assert (P : 1 <= INR B) by (apply (le_INR 1); auto). split.
  - apply Rdiv_lt_0_compat; [apply Rmult_lt_0_compat; nra|lra].
  - apply (Rmult_le_reg_r (INR B)); [lra|]. unfold Rdiv. rewrite Rmult_assoc, Rinv_l, Rmult_1_r, Rmult_1_l by lra. assert (0 < lr * wl) by nra. nra.
Qed.
