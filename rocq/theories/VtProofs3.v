From Coq Require Import List Lia Bool Arith Reals Lra.
From Verif Require Import PyCommon CommonProofs UtilsModel UtilsSpec UtilsProofs2 UtilsProofs3 WrappersProofs DistModel DistSpec DistProofs DistProofs2 DistProofs3 LossModel LossSpec LossProofs QModel QProofs QProps TDModel TDSpec TDProofs TDProofs2 TDProofs3 TDProofs4 CoreModel CoreSpec CoreProofs LearnModel LearnSpec LearnProofs LearnProofs2 LearnProofs3 LearnProofs4 LearnProofs5 LearnProofs6 LearnProofs7 NoiseSpec NoiseProofs NoiseProofs2 NoiseProofs3 DblModel DblSpec DblProofs DblProofs2 DblProofs3 DblProofs4.
From Verif Require Import LearnProps VtModel VtSpec VtProofs VtProofs2.
Import ListNotations.
Set Implicit Arguments.
Local Open Scope R_scope.

(** * LogTransform(scale=1) *)
Definition f1 (x : R) : R := sign x * 1 * ln (1 + Rabs x / 1).
Definition g1 (x : R) : R := sign x * 1 * (exp (Rabs x / 1) - 1).
Lemma log1 : log_transform 1 = Ok (f1, g1).
Proof. unfold log_transform. destruct (Rlt_dec 0 1); [reflexivity|lra]. Qed.
Lemma iv1 : inverse_pair f1 g1.
Proof. exact (lt_inverse Rlt_0_1). Qed.
Lemma inc1 : increasing f1.
Proof. exact (lt_incr_f Rlt_0_1). Qed.
Lemma f1_pos : forall x, 0 <= x -> f1 x = ln (1 + x).
Proof.
  intros x [H|<-].
  - destruct (@lt_f_pos 1 Rlt_0_1 x H) as [E _]. fold f1 in E. unfold f1. rewrite E. rewrite Rmult_1_l. f_equal. f_equal. field.
  - unfold f1. rewrite sign_0, Rplus_0_r, ln_1. lra.
Qed.
Lemma g1_ln : forall z, 1 <= z -> g1 (ln z) = z - 1.
Proof. intros z H. destruct iv1 as [GF _]. rewrite <- (GF (z - 1)). f_equal. rewrite f1_pos by lra. f_equal. lra. Qed.

(** * ExpectedSarsa: action 0 ends with reward 35, action 1 stays and costs 5/2; both equally likely; discount factor 1/2 *)
Definition dynA (s a : nat) : nat * R * bool := match a with O => (0%nat, 35, true) | _ => (0%nat, -5/2, false) end.
Definition uniform (s : nat) : list R := [0; 0].
Lemma dynA_closed : closed 1 2 dynA.
Proof. intros s a Hs Ha. unfold next. destruct a; cbn; lia. Qed.
Lemma uniform_mean : forall s h, expectation 2 (boltzmann 2 (uniform s)) h = (h 0%nat + h 1%nat) / 2.
Proof. intros s h. unfold expectation, boltzmann, uniform. cbn. rewrite exp_0. field. Qed.
Definition qA (s a : nat) : R := match a with O => 35 | _ => 25/3 end.
Lemma qA_bellman : bellman 1 2 dynA (1/2) (by_policy 2 uniform) qA.
Proof.
  intros s a Hs Ha. exists ((35 + 25/3) / 2). split.
  - unfold by_policy. rewrite uniform_mean. reflexivity.
  - destruct a as [|a]; unfold ends, reward; cbn; lra.
Qed.
(** The tables whose called values are 35 and v. *)
Definition thA (v : R) : list R := [ln 36; ln (1 + v)].
Lemma fixed_A : forall net v b rows, tabular 1 2 net -> v = 0 \/ v = 3 -> genuine 1 2 dynA (1/2) rows b ->
  exists G, target_expected_t 2 net f1 g1 uniform (thA v) (thA v) (fb_t b) = Ok G /\ length G = length rows /\ forall i s a, nth_error rows i = Some (s, a) -> nth i G 0 = tq 2 (thA v) s a.
Proof.
  intros net v b rows T Hv GEN. destruct (genuine_states (le_S 1 1 (le_n 1)) GEN) as [W S].
  destruct (@target_expected_t_boot 1 2 net f1 g1 uniform (thA v) (thA v) (fb_t b) (le_S 1 1 (le_n 1)) T (fun _ => eq_refl) eq_refl W S) as (G & TG & BG). exists G. split; auto.
  destruct (genuine_boot_t (le_S 1 1 (le_n 1)) GEN BG) as [LG RW]. split; auto. intros i s a Hi. destruct (RW i s a Hi) as (Hs & Ha & s' & x & Hs' & -> & -> & EN). assert (s = 0%nat) by lia. assert (s' = 0%nat) by lia. subst s s'. rewrite uniform_mean.
  unfold LearnProofs.tq. destruct a as [|[|a]]; [| |lia]; unfold ends, reward; cbn [dynA fst snd thA nth Nat.mul Nat.add].
  - rewrite Rplus_0_r. rewrite f1_pos by lra. f_equal. lra.
  - assert (X : (ln 36 + ln (1 + v)) / 2 = ln (6 * (1 + v / 3))).
    { assert (Y : ln 36 + ln (1 + v) = ln ((6 * (1 + v / 3)) * (6 * (1 + v / 3)))) by (rewrite <- ln_mult by (destruct Hv; subst; lra); f_equal; destruct Hv; subst; lra). rewrite Y. rewrite ln_mult by (destruct Hv; subst; lra). lra. }
    rewrite X, g1_ln by (destruct Hv; subst; lra). rewrite f1_pos by (destruct Hv; subst; lra). f_equal. destruct Hv; subst; lra.
Qed.

(** * SoftQLearning: one state, two actions that earn nothing; temperature 1 *)
Definition dynB (s a : nat) : nat * R * bool := (0%nat, 0, false).
Definition rowB (gamma : R) (a : nat) : fbatch nat := mk_fb [0%nat] [one_hot 2 a] [1] (mk_tb [0] [gamma] [0%nat] [one_hot 2 0]).
Definition roundB (gamma : R) : list yop := [YUpdate (rowB gamma 0); YUpdate (rowB gamma 1); YSync 1].
Lemma rowB_genuine : forall gamma a, (a < 2)%nat -> genuine 1 2 dynB gamma [(0%nat, a)] (rowB gamma a).
Proof.
  intros gamma a Ha. split; [discriminate|]. do 6 (split; [reflexivity|]). intros [|i] s0 a0 s' E N; [|destruct i; discriminate]. injection E as <- <-. injection N as <-. repeat split; auto.
Qed.
Lemma rowB_fit : forall gamma a, weights_fit 1 1 (rowB gamma a).
Proof. intros gamma a w [<-|[]]. assert (E : Rmax (1/10) (Rmin 1 10) = 1) by (unfold Rmin; destruct (Rle_dec 1 10); [unfold Rmax; destruct (Rle_dec (1/10) 1); lra|lra]). rewrite E. lra. Qed.
Lemma rowB_ok : forall gamma a, (a < 2)%nat -> op_ok 1 2 dynB gamma 1 1 1 (YUpdate (rowB gamma a)).
Proof. intros gamma a Ha. exists [(0%nat, a)]. split; [now apply rowB_genuine|]. split; [apply rowB_fit|]. cbn. lia. Qed.
Section SoftRun.
Variable net : list R -> qfun nat R.
Hypothesis T : tabular 1 2 net.
Variable gamma : R.
Hypothesis Hg : 1/2 <= gamma <= 1.
Variable grads : list R -> list R -> fbatch nat -> list R.
Variable sub : nat -> nat -> bool.
Notation target := (target_soft_t 2 net f1 g1 1).
Hypothesis GR : differentiates 1 2 dynB gamma net target mse grads.
Notation tq := (tq 2).
Definition stB (y : sys) (x0 x1 t : R) : Prop := sgd_learner 1 sub y /\ y_targ y <> None /\ exists th targ, q_params y = wrap th /\ targ_params y = wrap targ /\ length th = 2%nat /\ length targ = 2%nat /\
  tq th 0 0 = x0 /\ tq th 0 1 = x1 /\ tq targ 0 0 = t /\ tq targ 0 1 = t.
Lemma target_B : forall th targ a v, 0 <= v -> (a < 2)%nat -> length targ = 2%nat -> tq targ 0 0 = ln (1 + v) -> tq targ 0 1 = ln (1 + v) -> target th targ (fb_t (rowB gamma a)) = Ok [ln (1 + gamma * (1 + 2 * v))].
Proof.
  intros th targ a v Hv Ha L E0 E1. destruct (genuine_states (le_S 1 1 (le_n 1)) (@rowB_genuine gamma a Ha)) as [W S].
  destruct (@target_soft_t_boot 1 2 net f1 g1 1 th targ (fb_t (rowB gamma a)) (le_S 1 1 (le_n 1)) T L W S) as (G & TG & BG). rewrite TG. f_equal. destruct (genuine_boot_t (le_S 1 1 (le_n 1)) (@rowB_genuine gamma a Ha) BG) as [LG RW].
  destruct G as [|G0 [|G1 G]]; cbn in LG; try lia. f_equal. destruct (RW 0%nat 0%nat a eq_refl) as (_ & _ & s' & x & Hs' & -> & X & _). cbn [nth] in X. rewrite X. assert (s' = 0%nat) by lia. subst s'. unfold ends, reward. cbn [dynB fst snd].
  assert (SM : soft_maximum 2 1 (tq targ 0) = ln (2 * (1 + v))). { unfold soft_maximum. cbn [seq map]. rewrite E0, E1. unfold total. cbn [fold_right]. replace (ln (1 + v) / 1) with (ln (1 + v)) by field. rewrite exp_ln by lra. rewrite Rmult_1_l. f_equal. ring. }
  rewrite SM, g1_ln by lra. assert (0 <= gamma * (1 + 2 * v)) by (apply Rmult_le_pos; lra). replace (0 + gamma * (2 * (1 + v) - 1)) with (gamma * (1 + 2 * v)) by ring. now apply f1_pos.
Qed.
Lemma update_B : forall y x0 x1 v a, 0 <= v -> (a < 2)%nat -> stB y x0 x1 (ln (1 + v)) -> let z := ln (1 + gamma * (1 + 2 * v)) in
  exists y', ystep 2 net target mse grads sub y (YUpdate (rowB gamma a)) = (y', Ok tt) /\ stB y' (if Nat.eqb a 0 then z else x0) (if Nat.eqb a 0 then x1 else z) (ln (1 + v)).
Proof.
  intros y x0 x1 v a Hv Ha (SG & NT & th & targ & Q & P & L1 & L2 & E0 & E1 & E2 & E3) z. pose proof (@target_B th targ a v Hv Ha L2 E2 E3) as TG. fold z in TG.
  assert (PL : pulls mse (Rabs (z - tq th 0 a)) 1) by (left; split; reflexivity).
  destruct (@mix_update 1 2 (le_S 1 1 (le_n 1)) net T dynB gamma target mse grads sub _ 1 1 1 1 PL Rlt_0_1 Rlt_0_1 y th targ [(0%nat, a)] (rowB gamma a) [z] (fun s' a' => if Nat.eqb a' a then z else tq th s' a') (fun s' a' => if Nat.eqb a' a then z else tq th s' a') SG Q L1 P (rowB_genuine gamma Ha) (@rowB_fit gamma a)) as (y' & th' & Y1 & Y2 & Y3 & Y4 & Y5 & C); auto.
  { apply (GR th targ) with [(0%nat, a)]; auto. now apply rowB_genuine. }
  { intros [|i] s0 a0 E; [|destruct i; discriminate]. injection E as <- <-. rewrite Nat.eqb_refl. cbn [nth]. lra. }
  exists y'. split; auto. split; auto. split; [congruence|]. exists th', targ. split; auto. split; [unfold targ_params in *; rewrite Y3; destruct (y_targ y); congruence|]. split; auto. split; auto.
  assert (X : forall a', (a' < 2)%nat -> tq th' 0 a' = if Nat.eqb a' a then z else tq th 0 a').
  { intros a' Ha'. destruct (C 0%nat a' ltac:(lia) Ha') as (c & C1 & C2 & C3). destruct (Nat.eqb_spec a' a) as [->|N]; [|lra]. assert (V : visits 2 (YUpdate (rowB gamma a)) 0 a) by (exists 0%nat; split; reflexivity). specialize (C2 V). unfold beta in C2. cbn [INR] in C2. replace (1 * 1 * 1 / 1) with 1 in C2 by field. assert (c = 1) by lra. subst c. lra. }
  rewrite !X by lia. destruct a as [|[|a]]; [| |lia]; cbn [Nat.eqb]; auto.
Qed.
Lemma sync_B : forall y x t, stB y x x t -> exists y', ystep 2 net target mse grads sub y (YSync 1) = (y', Ok tt) /\ stB y' x x x.
Proof.
  intros y x t (SG & NT & th & targ & Q & P & L1 & L2 & E0 & E1 & E2 & E3). destruct (y_targ y) as [t0|] eqn:E; [|congruence].
  destruct (@ystep_sync 2 net target mse grads sub 1 y 1 th targ t0 SG E Q P) as (y' & t' & Y1 & Y2 & Y3 & Y4 & Y5); [congruence|]. exists y'. split; auto. split; auto. split; [congruence|]. eexists th, _. split; [exact Y4|]. split; [exact Y5|]. split; auto. split; [now rewrite map_length, seq_length|]. split; auto. split; auto.
  unfold LearnProofs.tq in *. rewrite L2. cbn [seq map nth Nat.mul Nat.add] in *. rewrite E0, E1. split; ring.
Qed.
Fixpoint grow (k : nat) : R := match k with O => 0 | S k' => gamma * (1 + 2 * grow k') end.
Lemma grow_ge : forall k, INR k / 2 <= grow k.
Proof. induction k as [|k IH]; [cbn; lra|]. rewrite S_INR. cbn [grow]. pose proof (pos_INR k). assert (1/2 * (1 + 2 * grow k) <= gamma * (1 + 2 * grow k)) by (apply Rmult_le_compat_r; lra). lra. Qed.
Lemma yrun_app : forall target' loss grads' a b y, yrun 2 net target' loss grads' sub y (a ++ b) = match yrun 2 net target' loss grads' sub y a with (y1, Ok _) => yrun 2 net target' loss grads' sub y1 b | r => r end.
Proof. intros target' loss grads'. induction a as [|o a IH]; intros b y; [reflexivity|]. cbn [app yrun]. destruct (ystep 2 net target' loss grads' sub y o) as [y1 [u|e]]; auto. Qed.
Lemma rounds_B : forall k j y, stB y (ln (1 + grow j)) (ln (1 + grow j)) (ln (1 + grow j)) -> exists y', yrun 2 net target mse grads sub y (concat (repeat (roundB gamma) k)) = (y', Ok tt) /\ stB y' (ln (1 + grow (k + j))) (ln (1 + grow (k + j))) (ln (1 + grow (k + j))).
Proof.
  induction k as [|k IH]; intros j y S0; [exists y; auto|]. cbn [repeat concat]. rewrite yrun_app. pose proof (grow_ge j) as P. pose proof (pos_INR j). unfold roundB. cbn [yrun].
  destruct (@update_B y _ _ (grow j) 0 ltac:(lra) ltac:(lia) S0) as (y1 & R1 & S1). rewrite R1. cbn [Nat.eqb] in S1. destruct (@update_B y1 _ _ (grow j) 1 ltac:(lra) ltac:(lia) S1) as (y2 & R2 & S2). rewrite R2. cbn [Nat.eqb] in S2. destruct (sync_B S2) as (y3 & R3 & S3). rewrite R3.
  destruct (IH (S j) y3 S3) as (y' & R' & S'). exists y'. split; auto. replace (S k + j)%nat with (k + S j)%nat by lia. exact S'.
Qed.
End SoftRun.

(** * Noise: one state, one action, rewards 0 and 3 equally often *)
Definition coin_batch : fbatch nat := mk_fb [0%nat; 0%nat] [one_hot 1 0; one_hot 1 0] [1; 1] (mk_tb [0; 3] [0; 0] [0%nat; 0%nat] [one_hot 1 0; one_hot 1 0]).
Section Coin.
Variable net : list R -> qfun nat R.
Hypothesis TB : net = table1 1 \/ net = table2 1 1.
Notation target := (target_q_t 1 net f1 g1).
Variable grads : list R -> list R -> fbatch nat -> list R.
Hypothesis GR : forall th targ, length th = 1%nat -> length targ = 1%nat -> gradient (fun p => loss_value (q_loss (Some 1%nat) net target mse th targ coin_batch p)) th (grads th targ coin_batch).
Variable sub : nat -> nat -> bool.
Variable lr : R.
Lemma coin_target : forall th targ, length targ = 1%nat -> target th targ (fb_t coin_batch) = Ok [0; 2 * ln 2].
Proof.
  intros th targ L. pose proof (table_tabular TB) as T. destruct (@target_q_t_boot 1 1 (le_n 1) net T f1 g1 th targ (fb_t coin_batch) L) as (G & TG & [LG BG]); [split; reflexivity|intros s [<-|[<-|[]]]; lia|]. rewrite TG. f_equal.
  destruct (BG 0%nat 0%nat eq_refl) as (x & _ & X). destruct (BG 1%nat 0%nat eq_refl) as (x' & _ & X'). destruct G as [|G0 [|G1 [|G2 G]]]; cbn in LG; try lia. cbn in X, X'. f_equal; [|f_equal].
  - rewrite X. rewrite Rmult_0_l, Rplus_0_r. rewrite f1_pos by lra. rewrite Rplus_0_r. apply ln_1.
  - rewrite X'. rewrite Rmult_0_l, Rplus_0_r. rewrite f1_pos by lra. replace (1 + 3) with (2 * 2) by ring. rewrite ln_mult by lra. ring.
Qed.
Definition stC (y : sys) (x : R) : Prop := sgd_learner lr sub y /\ exists th targ, q_params y = wrap th /\ targ_params y = wrap targ /\ length th = 1%nat /\ length targ = 1%nat /\ tq 1 th 0 0 = x.
Lemma coin_step : forall y x, stC y x -> exists y', ystep 1 net target mse grads sub y (YUpdate coin_batch) = (y', Ok tt) /\ stC y' (ln 2 + (1 - lr) * (x - ln 2)).
Proof.
  intros y x (SG & th & targ & Q & P & L & Lt & E). pose proof (table_tabular TB) as T. pose proof (@coin_target th targ Lt) as TG.
  destruct (@C102_table_update 1 1 net target mse (fun e => e) grads sub lr y th targ [(0, 0); (0, 0)]%nat coin_batch [0; 2 * ln 2]) as (y' & th' & Y1 & Y2 & Y3 & Y4 & C); auto; try reflexivity; try (discriminate); try lia.
  { intros s a [X|[X|[]]]; injection X as <- <-; lia. }
  assert (EW : Rmax (1/10) (Rmin 1 10) = 1) by (unfold Rmin; destruct (Rle_dec 1 10); [unfold Rmax; destruct (Rle_dec (1/10) 1); lra|lra]).
  destruct (@ystep_update 1 net target mse grads sub lr y coin_batch th targ SG Q P) as (y2 & Z1 & Z2 & Z3 & Z4).
  { exact (proj1 (GR th targ L Lt)). }
  { unfold mse. exact (@loss_ok 1 1 net T mse1 target [(0, 0); (0, 0)]%nat coin_batch th targ [0; 2 * ln 2] th eq_refl eq_refl eq_refl eq_refl ltac:(discriminate) ltac:(intros s a [X|[X|[]]]; injection X as <- <-; lia) TG L). }
  rewrite Y1 in Z1. injection Z1 as <-. exists y'. split; auto. split; auto.
  exists th', (match y_targ y with Some _ => targ | None => th' end). split; auto. split; [unfold targ_params in *; rewrite Y2; destruct (y_targ y); auto|]. split; auto. split; [destruct (y_targ y); auto|].
  destruct (C 0%nat 0%nat ltac:(lia) ltac:(lia)) as (old & new & O1 & O2 & _ & O4). rewrite (tab_call T) in O1 by (auto; lia). rewrite (tab_call T) in O2 by (auto; lia). injection O1 as <-. injection O2 as <-. rewrite O4, E. cbn [length seq map nth fb_W coin_batch INR]. rewrite EW. unfold total, same_pair. cbn. field.
Qed.
Lemma coin_run : forall n y x, stC y x -> exists y', yrun 1 net target mse grads sub y (repeat (YUpdate coin_batch) n) = (y', Ok tt) /\ stC y' (ln 2 + (1 - lr) ^ n * (x - ln 2)).
Proof.
  induction n as [|n IH]; intros y x S; [exists y; split; auto; cbn; replace (ln 2 + 1 * (x - ln 2)) with x by ring; auto|]. cbn [repeat yrun]. destruct (coin_step S) as (y1 & R1 & S1). rewrite R1. destruct (IH y1 _ S1) as (y' & R' & S'). exists y'. split; auto. cbn [pow]. replace (ln 2 + (1 - lr) * (1 - lr) ^ n * (x - ln 2)) with (ln 2 + (1 - lr) ^ n * (ln 2 + (1 - lr) * (x - ln 2) - ln 2)) by ring. exact S'.
Qed.
End Coin.
