(** PPO-clip: the objective is a lower bound on the improvement; log-propensities of relaxed samples. *)
From Coq Require Import List Lia Bool Arith Reals Lra.
From Verif Require Import PyCommon CommonProofs UtilsModel UtilsSpec UtilsProofs2 UtilsProofs3 WrappersProofs DistModel DistSpec DistProofs DistProofs2 LossModel LossSpec LossProofs QModel QProofs TDModel TDSpec TDProofs TDProofs2 TDProofs3 CoreModel CoreSpec CoreProofs CoreProofs2 TracerModel WorkerModel PolicyModel PolicySpec PolicyProofs PolicyProofs2 PolicyProofs3 PolicyProofs4 PolicyProofs5 LearnModel LearnProofs2 LearnProofs3 LearnProofs6 PgModel PgSpec PgProofs PgProofs2 PgProofs3 PgProofs4 AcModel AcSpec AcProofs3 PpoModel PpoSpec PpoProofs CompProofs2.
Import ListNotations.
Set Implicit Arguments.
Local Open Scope R_scope.

Lemma expectation_le : forall n p f g, (forall a, (a < n)%nat -> 0 <= p a) -> (forall a, (a < n)%nat -> f a <= g a) -> expectation n p f <= expectation n p g.
Proof. intros n p f g Hp H. unfold expectation. apply total_le. intros a Ha. apply in_seq in Ha. apply Rmult_le_compat_l; [apply Hp|apply H]; lia. Qed.
Lemma one_rows : forall nA s a logp t adv, (a < nA)%nat -> has_rows nA (one_pbatch nA s a logp t) [adv] [mkRow s a 1 logp adv].
Proof. intros nA s a logp t adv Ha. split; [discriminate|]. split; [intros x [<-|[]]; exact Ha|]. repeat split. Qed.
Lemma weight_1 : weight 1 = 1. Proof. unfold weight. rewrite Rmax_left, Rmin_left; lra. Qed.
Lemma mean_1 : forall x, mean [x] = x. Proof. intros x. unfold mean. rewrite total_cons. change (total []) with 0. change (INR (length [x])) with 1. lra. Qed.

Section Improvement.
Variables nA N : nat.
Variable net : list R -> nat -> list R.
Variable score : list R -> nat -> nat -> nat -> R.
Hypothesis SM : smooth_policy nA N net score.
Variable eps : R.
Hypothesis HE : 0 <= eps.
Notation prob := (prob nA net).
Lemma one_loss : forall s a logp t adv th, length th = N -> (a < nA)%nat -> loss_value (ppo_loss nA net eps (one_pbatch nA s a logp t) [adv] th) = - ppo_term adv eps (prob th s a / exp logp).
Proof.
  intros s a logp t adv th L Ha. rewrite (@loss_rows nA N net score SM eps HE _ _ [mkRow s a 1 logp adv] th (one_rows s logp t adv Ha) L). cbn [loss_value map w_w w_adv]. rewrite mean_1, weight_1. unfold row_ratio. cbn [w_s w_a w_logp]. lra.
Qed.
Variables th th' : list R.
Hypothesis L : length th = N.
Hypothesis L' : length th' = N.
Variable P : list R.
Hypothesis TP : total P = 1.
Hypothesis PP : forall p, In p P -> 0 <= p.
Variable dyn : nat -> nat -> nat -> nat * R * bool.
Variable gamma : R.
Hypothesis HG : 0 <= gamma.
Variable v : nat -> R.
Notation mean_loss t s := (mean_loss nA net eps P dyn gamma v th t th' s).
Lemma loss_bound : forall t s, v s - mean_loss t s <= expectation nA (prob th' s) (action_value P dyn gamma v s).
Proof.
  intros t s. unfold mean_loss.
  assert (PT : forall x, length x = N -> expectation nA (prob x s) (fun _ => 1) = 1). { intros x Lx. unfold expectation. rewrite (@total_ext _ _ (prob x s)) by (intros; lra). eapply prob_total; eauto. }
  assert (H : - expectation nA (prob th s) (fun a => loss_value (ppo_loss nA net eps (one_pbatch nA s a (ln (prob th s a)) t) [advantage P dyn gamma v s a] th')) <= expectation nA (prob th' s) (advantage P dyn gamma v s)).
  { unfold expectation. rewrite <- total_opp. apply total_le. intros a Ha. apply in_seq in Ha. assert (Q : 0 < prob th s a) by (eapply prob_pos; eauto; lia). rewrite one_loss by (auto; lia). rewrite exp_ln by auto.
    pose proof (ppo_term_le (advantage P dyn gamma v s a) eps (prob th' s a / prob th s a)) as B. apply Rmult_le_compat_l with (r := prob th s a) in B; [|lra]. replace (prob th s a * (advantage P dyn gamma v s a * (prob th' s a / prob th s a))) with (prob th' s a * advantage P dyn gamma v s a) in B by (field; lra). lra. }
  assert (E : expectation nA (prob th' s) (advantage P dyn gamma v s) = expectation nA (prob th' s) (action_value P dyn gamma v s) - v s).
  { unfold advantage. pose proof (PT th' L') as Q. unfold expectation in *. rewrite (@total_ext _ (fun a => prob th' s a * (action_value P dyn gamma v s a - v s)) (fun a => prob th' s a * action_value P dyn gamma v s a + - v s * (prob th' s a * 1))) by (intros; lra). rewrite total_plus, total_scal, Q. lra. }
  lra.
Qed.
Lemma at_least : (forall s, v s <= expectation nA (prob th' s) (action_value P dyn gamma v s)) -> forall T s, ends nA P dyn T s -> expectation nA (prob th' s) (action_value P dyn gamma v s) <= mean_from nA net P dyn th' T s (discounted gamma).
Proof.
  intros H. induction T as [|T IH]; intros s He; [contradiction|]. rewrite mean_S. apply expectation_le. { intros a Ha. left. eapply prob_pos; eauto. }
  intros a Ha. unfold action_value. apply total_le. intros w Hw. apply in_seq in Hw. assert (HP : 0 <= nth w P 0) by (apply PP, nth_In; lia). destruct (Req_dec (nth w P 0) 0) as [->|NZ]; [lra|]. apply Rmult_le_compat_l; auto.
  destruct (dyn w s a) as [[s' r] e] eqn:E. cbn [ends] in He. destruct e; [cbn; lra|]. destruct (He w a s' r false NZ Ha E) as [X|X]; [discriminate|]. cbn [discounted]. rewrite (@mean_affine nA N net score SM th' L' P dyn TP). specialize (IH s' X). specialize (H s'). assert (gamma * v s' <= gamma * mean_from nA net P dyn th' T s' (discounted gamma)) by (apply Rmult_le_compat_l; lra). lra.
Qed.
Hypothesis EV : evaluates nA net P dyn gamma th v.
Lemma improvement : forall t rho T, (forall s, mean_loss t s <= 0) -> (forall x, In x rho -> 0 <= x) -> (forall s, nth s rho 0 <> 0 -> ends nA P dyn T s) ->
  expected_return nA net P dyn gamma rho T th - total (map (fun s => nth s rho 0 * mean_loss t s) (seq 0 (length rho))) <= expected_return nA net P dyn gamma rho T th'.
Proof.
  intros t rho T HL HR He. unfold expected_return, mean_episode, Rminus. rewrite <- total_opp, <- total_plus. apply total_le. intros s Hs. apply in_seq in Hs. assert (HP : 0 <= nth s rho 0) by (apply HR, nth_In; lia). destruct (Req_dec (nth s rho 0) 0) as [->|NZ]; [lra|].
  rewrite (@discounted_mean nA N net score SM gamma th L P dyn TP v EV T s (He s NZ)).
  assert (B : v s - mean_loss t s <= mean_from nA net P dyn th' T s (discounted gamma)).
  { eapply Rle_trans; [apply loss_bound|]. apply at_least; auto. intros s'. pose proof (loss_bound t s'). specialize (HL s'). lra. }
  apply Rmult_le_compat_l with (r := nth s rho 0) in B; auto. lra.
Qed.
Lemma old_loss : forall t s, th' = th -> mean_loss t s = 0.
Proof.
  intros t s E. unfold mean_loss. rewrite E. transitivity (- expectation nA (prob th s) (advantage P dyn gamma v s)).
  - unfold expectation. rewrite <- total_opp. apply total_ext. intros a Ha. apply in_seq in Ha. assert (Q : 0 < prob th s a) by (eapply prob_pos; eauto; lia). rewrite one_loss by (auto; lia). rewrite exp_ln by auto. replace (prob th s a / prob th s a) with 1 by (field; lra). rewrite ppo_term_in by lra. lra.
  - unfold advantage. pose proof (EV s) as V. assert (Q : total (map (prob th s) (seq 0 nA)) = 1) by (eapply prob_total; eauto). unfold expectation in *. rewrite (@total_ext _ (fun a => prob th s a * (action_value P dyn gamma v s a - v s)) (fun a => prob th s a * action_value P dyn gamma v s a + - v s * prob th s a)) by (intros; lra). rewrite total_plus, total_scal, Q. lra.
Qed.
End Improvement.

(** * The gradient is unbiased *)
Lemma unbiased : forall nA N net score eps grads th old s adv t, smooth_policy nA N net score -> 0 < eps -> ppo_differentiates nA N net eps grads -> length th = N -> length old = N ->
  (forall a, (a < nA)%nat -> 1 - eps < prob nA net th s a / prob nA net old s a < 1 + eps) ->
  gradient (fun p => expectation nA (prob nA net p s) adv) th (map (fun i => - expectation nA (prob nA net old s) (fun a => nth i (grads th (one_pbatch nA s a (ln (prob nA net old s a)) t) [adv a]) 0)) (seq 0 N)).
Proof.
  intros nA N net score eps grads th old s adv t SM He GR L Lo HR. pose proof (@lookahead_gradient nA N net score SM th s adv L) as G.
  match type of G with gradient _ _ ?x => match goal with |- gradient _ _ ?y => replace y with x; [exact G|] end end. apply map_ext_in. intros i Hi. apply in_seq in Hi. unfold expectation. rewrite <- total_opp. apply total_ext. intros a Ha. apply in_seq in Ha.
  assert (Q : 0 < prob nA net old s a) by (eapply prob_pos; eauto; lia). specialize (HR a ltac:(lia)). set (row := mkRow s a 1 (ln (prob nA net old s a)) (adv a)).
  assert (ER : row_ratio nA net th row = prob nA net th s a / prob nA net old s a) by (unfold row_ratio, row; cbn; now rewrite exp_ln). set (rt := prob nA net th s a / prob nA net old s a) in *.
  assert (SL : ppo_slope (adv a) eps rt (adv a * rt)). { destruct (Rtotal_order (adv a) 0) as [X|[X|X]]; [left|right|left]; (split; [unfold incentive, no_incentive; lra|try lra]). rewrite X. lra. }
  assert (H1 := @one_rows nA s a (ln (prob nA net old s a)) t (adv a) ltac:(lia)). fold row in H1.
  destruct (@GR th _ _ _ L H1) as [LG DG]. { intros x [<-|[]]. rewrite ER. exists (adv a * rt). exact SL. }
  pose proof (@loss_deriv nA N net score SM eps ltac:(lra) _ _ [row] th (fun _ => adv a * rt) i H1 L) as D. rewrite (uniqueness_limite _ _ _ _ (DG i ltac:(lia)) (D ltac:(intros x [<-|[]]; rewrite ER; exact SL) ltac:(lia))).
  cbn [map]. rewrite mean_1. unfold row at 1 2 3. cbn [w_w w_s w_a]. rewrite weight_1. unfold rt. field. lra.
Qed.

(** * Recorded log-propensities *)
Lemma gumbel_inv : forall y, gumbel (exp (- exp (- y))) = y.
Proof. intros y. unfold gumbel. rewrite ln_exp, Ropp_involutive, ln_exp. lra. Qed.
Lemma boltz2 : forall z0 z1, ln (boltzmann 2 [z0; z1] 0) - ln (boltzmann 2 [z0; z1] 1) = z0 - z1.
Proof.
  intros z0 z1. unfold boltzmann. cbn [seq map nth]. rewrite !total_cons. change (total []) with 0. assert (0 < exp z0) by apply exp_pos. assert (0 < exp z1) by apply exp_pos. unfold Rdiv. assert (0 < / (exp z0 + (exp z1 + 0))) by (apply Rinv_0_lt_compat; lra). rewrite !ln_mult by auto. rewrite !ln_exp. lra.
Qed.
Lemma relaxed2 : forall tau z0 z1 u0 u1 gs, 0 < tau -> noise 2 gs -> 0 < gumbel u0 - gumbel u1 + (z0 - z1) ->
  exists logp, policy_call 2 tau [z0; z1] [u0; u1] gs = Ok (0%nat, logp) /\
    ln (boltzmann 2 [z0; z1] 0) - logp = (z0 - z1) * (exp (- ((gumbel u0 - gumbel u1 + (z0 - z1)) / tau)) / (1 + exp (- ((gumbel u0 - gumbel u1 + (z0 - z1)) / tau)))).
Proof.
  intros tau z0 z1 u0 u1 gs Ht Ng HD. set (z := [z0; z1]). set (us := [u0; u1]). assert (Lz : length z = 2%nat) by reflexivity. assert (Lu : length us = 2%nat) by reflexivity.
  destruct (@call_eval 2 tau z us gs ltac:(lia) Lz Lu Ng) as (a & E & M). destruct (@call_gumbel 2 tau z us a ltac:(lia) Ht Lz Lu M) as [Ha G]. pose proof (boltz2 z0 z1) as B2. fold z in B2.
  assert (A0 : a = 0%nat). { destruct a as [|[|a]]; [reflexivity| |lia]. specialize (G 0%nat ltac:(lia)). rewrite !(@softmax_boltzmann 2) in G by (auto; lia). unfold us in G. cbn [nth] in G. lra. }
  subst a. exists (dot (Xrow tau z us) (log_softmax z)). split; [exact E|].
  pose proof (@Xrow_length 2 tau z us ltac:(lia) Lz Lu) as LX. destruct (@Xrow_dist 2 tau z us ltac:(lia) Lz Lu) as [PX TX]. pose proof (@Xrow_ratio 2 tau z us ltac:(lia) Ht Lz Lu 0 1 ltac:(lia) ltac:(lia)) as XR. unfold us at 3 4 in XR. cbn [nth] in XR.
  rewrite dot_seq by (rewrite LX, log_softmax_length; auto). rewrite LX. cbn [seq map]. rewrite !total_cons. change (total []) with 0. rewrite !(@logpi_nth 2 z us ltac:(lia) Lz Lu) by lia. rewrite !(@softmax_boltzmann 2) by (auto; lia).
  rewrite (@list_seq _ _ LX) in TX. cbn [seq map] in TX. rewrite !total_cons in TX. change (total []) with 0 in TX.
  set (X0 := nth 0 (Xrow tau z us) 0) in *. set (X1 := nth 1 (Xrow tau z us) 0) in *. set (b0 := ln (boltzmann 2 z 0)) in *. set (b1 := ln (boltzmann 2 z 1)) in *.
  replace ((gumbel u1 + b1 - (gumbel u0 + b0)) / tau) with (- ((gumbel u0 - gumbel u1 + (z0 - z1)) / tau)) in XR by (rewrite <- B2; field; lra). set (e := exp (- ((gumbel u0 - gumbel u1 + (z0 - z1)) / tau))) in *. assert (0 < e) by apply exp_pos.
  assert (EX0 : X0 = 1 / (1 + e)) by (apply Rmult_eq_reg_r with (1 + e); [field_simplify; lra|lra]). rewrite XR, EX0. rewrite <- B2. field. lra.
Qed.
Lemma ignored_draws : forall tau eps z0 z1, 0 < tau -> 0 < eps -> 2 * ln (1 + eps) < z0 - z1 ->
  exists c, 0 < c /\ (exists u0 u1, 0 < u0 < 1 /\ 0 < u1 < 1 /\ 0 < gumbel u0 - gumbel u1 + (z0 - z1) < c) /\
  forall u0 u1 gs, noise 2 gs -> 0 < gumbel u0 - gumbel u1 + (z0 - z1) < c ->
  exists logp, policy_call 2 tau [z0; z1] [u0; u1] gs = Ok (0%nat, logp) /\ 1 + eps < boltzmann 2 [z0; z1] 0 / exp logp.
Proof.
  intros tau eps z0 z1 Ht He HZ. set (lam := ln (1 + eps)) in *. assert (Hl : 0 < lam) by (unfold lam; rewrite <- ln_1; apply ln_increasing; lra). set (D := z0 - z1) in *. set (x := lam / D).
  assert (Hx : 0 < x < 1 / 2). { unfold x. split; [apply Rdiv_lt_0_compat; lra|]. apply Rmult_lt_reg_r with D; [lra|]. unfold Rdiv. rewrite Rmult_assoc, Rinv_l by lra. lra. }
  assert (Hq : 1 < (1 - x) / x). { apply Rmult_lt_reg_r with x; [lra|]. unfold Rdiv. rewrite Rmult_assoc, Rinv_l by lra. lra. }
  exists (tau * ln ((1 - x) / x)). assert (Hc : 0 < tau * ln ((1 - x) / x)). { apply Rmult_lt_0_compat; auto. rewrite <- ln_1. apply ln_increasing; lra. } split; [exact Hc|]. split.
  - exists (1 / 2), (exp (- exp (- (gumbel (1 / 2) + D - tau * ln ((1 - x) / x) / 2)))). split; [lra|]. split; [|rewrite gumbel_inv; unfold D in *; lra]. split; [apply exp_pos|]. match goal with |- exp (- exp ?y) < 1 => pose proof (exp_pos y); apply Rlt_le_trans with (exp 0); [apply exp_increasing; lra|rewrite exp_0; lra] end.
  - intros u0 u1 gs Ng HD. destruct (@relaxed2 tau z0 z1 u0 u1 gs Ht Ng) as (logp & E & EL); [fold D; lra|]. exists logp. split; [exact E|]. fold D in EL. set (e := exp (- ((gumbel u0 - gumbel u1 + D) / tau))) in *.
    assert (He1 : x / (1 - x) < e). { unfold e. replace (x / (1 - x)) with (exp (- ln ((1 - x) / x))). - apply exp_increasing. apply Ropp_lt_contravar. apply Rmult_lt_reg_r with tau; auto. unfold Rdiv at 1. rewrite Rmult_assoc, Rinv_l by lra. lra. - rewrite <- ln_Rinv by lra. rewrite exp_ln; [field; lra|apply Rinv_0_lt_compat; lra]. }
    assert (HX : x < e / (1 + e)). { assert (0 < x / (1 - x)) by (apply Rdiv_lt_0_compat; lra). apply Rmult_lt_reg_r with (1 + e); [lra|]. unfold Rdiv at 1. rewrite Rmult_assoc, Rinv_l by lra. assert (x < e * (1 - x)). { apply Rmult_lt_reg_r with (/ (1 - x)); [apply Rinv_0_lt_compat; lra|]. rewrite Rmult_assoc, Rinv_r by lra. unfold Rdiv in He1. lra. } lra. }
    assert (HB : 0 < boltzmann 2 [z0; z1] 0) by (apply boltzmann_pos; auto; lia).
    replace (boltzmann 2 [z0; z1] 0 / exp logp) with (exp (ln (boltzmann 2 [z0; z1] 0) - logp)). + replace (1 + eps) with (exp lam) by (unfold lam; rewrite exp_ln; lra). apply exp_increasing. rewrite EL. replace lam with (D * x) by (unfold x; field; lra). apply Rmult_lt_compat_l; lra.
    + unfold Rminus. rewrite exp_plus, exp_Ropp, exp_ln by auto. reflexivity.
Qed.
