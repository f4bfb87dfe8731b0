(** DDPG: running the whole program. *)
From Coq Require Import List Lia Bool Arith ZArith Reals Lra.
From Verif Require Import PyCommon CommonProofs UtilsModel UtilsSpec UtilsProofs2 UtilsProofs3 DistModel DistSpec DistProofs LossModel QModel TDModel TDSpec TDProofs TDProofs3 CoreModel CoreSpec CoreProofs CoreProofs2 TracerModel WorkerModel PolicyModel PolicySpec PolicyProofs2
  LearnModel LearnSpec LearnProofs LearnProofs2 LearnProofs3 LearnProofs4 LearnProofs5 LearnProofs7 PgModel PgSpec PgProofs PgProofs4 PpoSpec PpoProofs PlayModel PlaySpec PlayProofs DpgModel DpgSpec DpgProofs DpgProofs2 DpgProofs3.
Import ListNotations.
Set Implicit Arguments.
Local Open Scope R_scope.

Definition pars (p : ptree) : list R := match unwrap p with Some th => th | None => [] end.
Lemma pars_wrap : forall th, pars (wrap th) = th.
Proof. intros th. unfold pars. now rewrite unwrap_wrap. Qed.
Lemma pow_ge_0 : forall (x : R) n, 0 <= x -> 0 <= x ^ n.
Proof. intros x n H. now apply pow_le. Qed.
Lemma stretch_app : forall ops i n m, stretch ops i (n + m) = stretch ops i n ++ stretch ops (i + n) m.
Proof. intros ops i n m. unfold stretch. now rewrite seq_app, map_app. Qed.
Lemma critic_app : forall a b, critic_ops (a ++ b) = critic_ops a ++ critic_ops b.
Proof. intros a b. unfold critic_ops. now rewrite flat_map_app. Qed.

Section Run.
Variables nS nA : nat.
Hypothesis HA : (1 <= nA)%nat.
Variable tau : R.
Hypothesis HT : 0 < tau.
Variable dyn : nat -> nat -> nat * R * bool.
Hypothesis CL : closed nS nA dyn.
Variable gamma : R.
Hypothesis Hg : 0 <= gamma < 1.
Variables (loss : list R -> list R -> option (list R) -> outcome (option R)) (qgrads : list R -> list R -> fbatch nat -> list R) (sub : nat -> nat -> bool).
Variables (D0 cl lr wl : R) (B : nat).
Hypothesis HD0 : 0 <= D0.
Hypothesis HB : (1 <= B)%nat.
Notation net := (table1 nS).
Notation target := (target_q nA net).
Hypothesis ST : sound_target nS nA target (by_max nA).
Hypothesis NX : nonexpansive nA (by_max nA).
Hypothesis PL : pulls loss ((1 + gamma) * D0) cl.
Hypothesis GR : differentiates nS nA dyn gamma net target loss qgrads.
Hypothesis Hlr : 0 < lr.
Hypothesis Hwl : 0 < wl.
Variable q : nat -> nat -> R.
Hypothesis BE : bellman nS nA dyn gamma (by_max nA) q.
Variable grads : list R -> list R -> fbatch nat -> list R.
Hypothesis DG : dpg_differentiates nS nA (nS * nA) tau (logit_table nS nA) grads.
Variable lrp : R.
Hypothesis Hlrp : 0 < lrp.
Variable use_targ : bool.
Notation T1 := (@table1_tabular nS nA).
Notation dstep := (dstep nA tau (logit_table nS nA) net loss qgrads grads sub use_targ).
Notation drun := (drun nA tau (logit_table nS nA) net loss qgrads grads sub use_targ).
Notation yrun := (yrun nA net target loss qgrads sub).
Notation ystep := (ystep nA net target loss qgrads sub).
Notation good := (good nS nA sub lr q).
Notation tq := (tq nA).
Lemma Hg' : 0 <= gamma <= 1.
Proof. lra. Qed.

Definition dinv (d : ddpg) (Dt : R) : Prop := good (d_q d) Dt /\ policy_ready nS nA lrp sub d.
Definition used (d : ddpg) : list R := pars (if use_targ then targ_params (d_q d) else q_params (d_q d)).
Definition table (d : ddpg) : list R := pars (f_params (l_func (d_pi d))).
Definition size (o : dop) (s : nat) : R := match o with DPi b => lrp * occurs s (combine (fb_S b) (fb_W b)) | _ => 0 end.
Lemma used_ok : forall d Dt, dinv d Dt -> (if use_targ then targ_params (d_q d) else q_params (d_q d)) = wrap (used d) /\ length (used d) = (nS * nA)%nat /\ err_le nS nA q (used d) Dt.
Proof.
  intros d Dt [[SG (th & Q & L & E & _) (targ & P & Lt & Et)] _]. unfold used. destruct use_targ; [rewrite P, pars_wrap|rewrite Q, pars_wrap]; auto.
Qed.
Lemma table_ok : forall d Dt, dinv d Dt -> f_params (l_func (d_pi d)) = wrap (table d) /\ length (table d) = (nS * nA)%nat.
Proof. intros d Dt [_ (_ & _ & _ & (th & P & L) & _)]. unfold table. red in P. change (f_params (l_func (d_pi d)) = wrap th) in P. rewrite P, pars_wrap. auto. Qed.

Lemma dstep_ok : forall d Dt o, 0 <= Dt <= D0 -> dinv d Dt -> dop_ok nS nA dyn gamma lr wl B (d_q d) o ->
  exists d', dstep d o = (d', Ok tt) /\ dinv d' Dt /\ same_kind (d_q d) (d_q d') /\
    (forall s a, (s < nS)%nat -> (a < nA)%nat -> nth (s * nA + a) (table d') 0 = nth (s * nA + a) (table d) 0 + size o s * (relaxed nA tau (logit_table nS nA (table d) s) a * (tq (used d) s a - worth nA tau (logit_table nS nA (table d) s) (tq (used d) s)) / tau)).
Proof.
  intros d Dt o HDt I OK. pose proof (used_ok I) as (EU & LU & _). pose proof (table_ok I) as (ET & LT). destruct I as [G (PO & PC & PS & PT & PP)]. destruct o as [o|b|t]; cbn [dop_ok] in OK.
  - destruct OK as [O NS]. destruct (@never_worse nS nA HA net T1 dyn CL gamma Hg' target (by_max nA) ST NX loss qgrads sub D0 cl lr wl B PL GR Hlr Hwl q BE [o] (d_q d) Dt HDt G) as (y' & R & G' & N').
    + intros o' [<-|[]]. exact O.
    + intros E o' [<-|[]]. auto.
    + cbn [LearnModel.yrun] in R. cbn [DpgModel.dstep]. destruct (ystep (d_q d) o) as [y1 [[]|e]]; [|discriminate]. injection R as <-. eexists. split; [reflexivity|]. split; [split; cbn [d_q]; auto; split; auto|]. split; [exact N'|]. intros s a Hs Ha. cbn [size]. unfold table. cbn [d_pi]. lra.
  - destruct OK as (rows & HR & LB). destruct (@table_step nS nA tau grads lrp (d_pi d) (table d) (used d) b rows HA HT DG PO ET LT LU HR) as (l' & th' & E & O' & C' & F' & P' & L' & V). cbn [DpgModel.dstep]. rewrite EU, E. eexists. split; [reflexivity|]. split.
    + split; cbn [d_q]; auto. split; cbn [d_pi d_pi_targ]; auto. rewrite C', F'. split; auto. split; auto. split; auto. exists th'. split; auto.
    + split; [red; cbn [d_q]; tauto|]. intros s a Hs Ha. unfold table at 1. cbn [d_pi]. rewrite P', pars_wrap, (V s a Hs Ha). cbn [size]. now rewrite (rows_combine HR).
  - cbn [DpgModel.dstep]. destruct PP as (pt & PP & LP). red in PP. change (f_params (d_pi_targ d) = wrap pt) in PP. destruct (@soft_update_ok sub (d_pi_targ d) (l_func (d_pi d)) t PC) as (p & st & E & EP & ES); auto; [rewrite PP, ET; unfold wrap; cbn; now rewrite LP, LT|]. rewrite E. eexists. split; [reflexivity|]. split.
    + split; cbn [d_q]; auto. split; cbn [d_pi d_pi_targ f_cls f_state]; auto. split; auto. split; [destruct ES as [-> _]; auto|]. split; auto. rewrite PP, ET in EP. apply wrap_entrywise in EP; [|lia]. eexists. split; [exact EP|]. now rewrite map_length, seq_length.
    + split; [red; cbn [d_q]; tauto|]. intros s a Hs Ha. cbn [size]. unfold table. cbn [d_pi]. lra.
Qed.
Lemma kind_ok : forall y y' o, same_kind y y' -> dop_ok nS nA dyn gamma lr wl B y o -> dop_ok nS nA dyn gamma lr wl B y' o.
Proof. intros y y' [o|b|t] K OK; auto. cbn [dop_ok] in *. destruct OK as [O N]. split; auto. intros E. apply N. now apply K. Qed.
Lemma kind_trans : forall y1 y2 y3, same_kind y1 y2 -> same_kind y2 y3 -> same_kind y1 y3.
Proof. unfold same_kind. intros. tauto. Qed.
Lemma drun_ok : forall os d Dt, 0 <= Dt <= D0 -> dinv d Dt -> (forall o, In o os -> dop_ok nS nA dyn gamma lr wl B (d_q d) o) ->
  exists d', drun d os = (d', Ok tt) /\ dinv d' Dt /\ same_kind (d_q d) (d_q d').
Proof.
  induction os as [|o os IH]; intros d Dt HDt I OK; [exists d; split; auto; split; auto; red; tauto|]. destruct (@dstep_ok d Dt o HDt I) as (d1 & E & I1 & K1 & _); [apply OK; now left|]. cbn [DpgModel.drun]. rewrite E.
  destruct (IH d1 Dt HDt I1) as (d' & E' & I' & K'); [intros o' Ho; eapply kind_ok; [exact K1|apply OK; now right]|]. exists d'. split; auto. split; auto. eapply kind_trans; eauto.
Qed.
Lemma drun_app : forall a b d, drun d (a ++ b) = match drun d a with (d1, Ok _) => drun d1 b | r => r end.
Proof. induction a as [|o a IH]; intros b d; [reflexivity|]. cbn [app DpgModel.drun]. destruct (dstep d o) as [d1 [u|e]]; auto. Qed.
Lemma drun_critic : forall os d d', drun d os = (d', Ok tt) -> yrun (d_q d) (critic_ops os) = (d_q d', Ok tt).
Proof.
  induction os as [|o os IH]; intros d d' E; [now injection E as <-|]. cbn [DpgModel.drun] in E. destruct (dstep d o) as [d1 [[]|e]] eqn:E1; [|discriminate]. specialize (IH d1 d' E). destruct o as [o|b|t]; cbn [DpgModel.dstep] in E1.
  - change (critic_ops (DQ o :: os)) with (o :: critic_ops os). cbn [LearnModel.yrun]. destruct (ystep (d_q d) o) as [y1 r]. injection E1 as <- ->. exact IH.
  - change (critic_ops (DPi b :: os)) with (critic_ops os). destruct (dpg_update _ _ _ _ _ _ _ _) as [l r]. injection E1 as <- _. exact IH.
  - change (critic_ops (DSync t :: os)) with (critic_ops os). destruct (soft_update _ _ _ _) as [f r]. injection E1 as <- _. exact IH.
Qed.
Variable tau0 : R.
Hypothesis Ht0 : 0 < tau0 <= 1.
Hypothesis Hb : 0 < beta cl lr wl B <= 1.
Definition rr : R := rate gamma cl lr wl B tau0.
Lemma rr_range : 0 <= rr < 1.
Proof.
  unfold rr, rate. set (be := beta cl lr wl B) in *. assert (X : 0 < be * (1 - gamma) <= 1) by (split; [apply Rmult_lt_0_compat; lra|]; assert (be * (1 - gamma) <= 1 * (1 - gamma)) by (apply Rmult_le_compat_r; lra); lra).
  assert (0 < tau0 * (be * (1 - gamma))) by (apply Rmult_lt_0_compat; lra). assert (tau0 * (be * (1 - gamma)) <= 1 * (be * (1 - gamma))) by (apply Rmult_le_compat_r; lra). lra.
Qed.
Lemma block : forall d Dt d' a r b, 0 <= Dt <= D0 -> dinv d Dt -> (forall o, In o (a ++ r ++ b) -> dop_ok nS nA dyn gamma lr wl B (d_q d) o) -> one_round nS nA dyn gamma lr wl tau0 B (d_q d) (critic_ops r) -> drun d (a ++ r ++ b) = (d', Ok tt) -> dinv d' (rr * Dt).
Proof.
  intros d Dt d' a r b HDt I OK RD E. destruct (@drun_ok a d Dt HDt I) as (d1 & E1 & I1 & K1); [intros; apply OK; apply in_or_app; now left|]. rewrite drun_app, E1 in E. destruct (@drun_ok r d1 Dt HDt I1) as (d2 & E2 & I2 & K2); [intros o Ho; eapply kind_ok; [exact K1|]; apply OK; apply in_or_app; right; apply in_or_app; now left|].
  rewrite drun_app, E2 in E. assert (I2' : dinv d2 (rr * Dt)).
  { destruct I2 as [_ P2]. split; auto. destruct I1 as [G1 _]. destruct (@round_good nS nA HA net T1 dyn CL gamma Hg' target (by_max nA) ST NX loss qgrads sub D0 cl lr wl B PL GR Hlr Hwl q BE tau0 Ht0 (proj2 Hb) (critic_ops r) (d_q d1) Dt HDt G1) as (y' & R & G & _).
    - eapply round_kind; [exact K1|exact RD].
    - rewrite (drun_critic _ _ E2) in R. injection R as <-. exact G. }
  assert (Z : 0 <= rr * Dt <= D0). { pose proof rr_range. split; [apply Rmult_le_pos; lra|]. assert (rr * Dt <= 1 * Dt) by (apply Rmult_le_compat_r; lra). lra. }
  destruct (@drun_ok b d2 (rr * Dt) Z I2') as (d3 & E3 & I3 & _).
  - intros o Ho. eapply kind_ok; [eapply kind_trans; [exact K1|exact K2]|]. apply OK. apply in_or_app. right. apply in_or_app. now right.
  - rewrite E3 in E. injection E as <-. exact I3.
Qed.
(** An infinite program. *)
Variable ops : nat -> dop.
Variable M : nat.
Variable d0 : ddpg.
Hypothesis I0 : dinv d0 D0.
Hypothesis OKS : forall t, dop_ok nS nA dyn gamma lr wl B (d_q d0) (ops t).
Hypothesis REG : critic_regular nS nA dyn gamma lr wl tau0 B M (d_q d0) ops.
Hypothesis NE : (1 <= nS)%nat.
Definition st (t : nat) : ddpg := fst (drun d0 (stretch ops 0 t)).
Lemma in_stretch : forall o i n, In o (stretch ops i n) -> exists t, o = ops t.
Proof. intros o i n H. unfold stretch in H. apply in_map_iff in H. destruct H as (t & <- & _). eauto. Qed.
Lemma M_pos : (1 <= M)%nat.
Proof.
  destruct M as [|m]; [|lia]. exfalso. destruct (REG 0%nat) as (i & n & L1 & L2 & [_ RD]). assert (n = 0%nat) by lia. subst n. cbn in RD. destruct (y_targ (d_q d0)).
  - destruct RD as (os1 & t & os2 & E & _). destruct os1; discriminate.
  - destruct RD as [C _]. destruct (C 0%nat 0%nat ltac:(lia) ltac:(lia)) as (o & [] & _).
Qed.
Lemma pow_in : forall k, 0 <= rr ^ k * D0 <= D0.
Proof.
  intros k. pose proof rr_range. split; [apply Rmult_le_pos; auto; apply pow_le; lra|]. assert (rr ^ k <= 1) by (rewrite <- (pow1 k); apply pow_incr; lra). assert (rr ^ k * D0 <= 1 * D0) by (apply Rmult_le_compat_r; lra). lra.
Qed.
Lemma blocks : forall k, exists d', drun d0 (stretch ops 0 (k * M)) = (d', Ok tt) /\ dinv d' (rr ^ k * D0) /\ same_kind (d_q d0) (d_q d').
Proof.
  induction k as [|k (d1 & E1 & I1 & K1)].
  - exists d0. cbn. split; auto. rewrite Rmult_1_l. split; auto. red; tauto.
  - destruct (REG k) as (i & n & L1 & L2 & RD). replace (S k * M)%nat with (k * M + M)%nat by lia. rewrite stretch_app, drun_app, E1. cbn [Nat.add].
    set (a := stretch ops (k * M) (i - k * M)). set (r := stretch ops i n) in *. set (b := stretch ops (i + n) (S k * M - (i + n))).
    assert (SP : stretch ops (k * M) M = a ++ r ++ b). { assert (EM : M = ((i - k * M) + (n + (S k * M - (i + n))))%nat) by nia. rewrite EM at 2. rewrite !stretch_app. replace (k * M + (i - k * M))%nat with i by lia. reflexivity. }
    rewrite SP.
    assert (OK : forall o, In o (a ++ r ++ b) -> dop_ok nS nA dyn gamma lr wl B (d_q d1) o). { intros o Ho. eapply kind_ok; [exact K1|]. assert (X : exists t, o = ops t) by (apply in_app_or in Ho; destruct Ho as [Ho|Ho]; [|apply in_app_or in Ho; destruct Ho as [Ho|Ho]]; eapply in_stretch; exact Ho). destruct X as (t & ->). apply OKS. }
    destruct (@drun_ok (a ++ r ++ b) d1 (rr ^ k * D0) (pow_in k) I1 OK) as (d2 & E2 & I2 & K2). exists d2. split; auto. split; [|eapply kind_trans; eauto]. cbn [pow]. rewrite Rmult_assoc. apply (@block d1 (rr ^ k * D0) d2 a r b (pow_in k) I1 OK); auto. eapply round_kind; [exact K1|exact RD].
Qed.
Lemma run_to : forall t, drun d0 (stretch ops 0 t) = (st t, Ok tt) /\ dinv (st t) (bep D0 rr M t) /\ same_kind (d_q d0) (d_q (st t)).
Proof.
  intros t. pose proof M_pos as MP. destruct (blocks (t / M)) as (d1 & E1 & I1 & K1). assert (ET : t = (t / M * M + t mod M)%nat) by (pose proof (Nat.div_mod t M ltac:(lia)); lia).
  destruct (@drun_ok (stretch ops (t / M * M) (t mod M)) d1 (rr ^ (t / M) * D0) (pow_in _) I1) as (d2 & E2 & I2 & K2).
  - intros o Ho. eapply kind_ok; [exact K1|]. apply in_stretch in Ho. destruct Ho as (u & ->). apply OKS.
  - assert (E : drun d0 (stretch ops 0 t) = (d2, Ok tt)) by (rewrite ET at 1; rewrite stretch_app, drun_app, E1; exact E2). unfold st. rewrite E. cbn [fst]. split; auto. split; [exact I2|]. eapply kind_trans; eauto.
Qed.
Lemma one_more : forall t, dstep (st t) (ops t) = (st (S t), Ok tt).
Proof.
  intros t. destruct (run_to (S t)) as (E & _). destruct (run_to t) as (E1 & _). replace (S t) with (t + 1)%nat in E at 1 by lia. rewrite stretch_app, drun_app, E1 in E. cbn [Nat.add stretch seq map DpgModel.drun] in E. destruct (dstep (st t) (ops t)) as [d [[]|e]]; [|discriminate]. now injection E as <-.
Qed.
(** The policy converges in every state that it is trained in again and again. *)
Theorem ddpg_worth : forall s, (s < nS)%nat -> keeps_training s ops -> forall e, 0 < e -> exists N, forall t, (N <= t)%nat -> forall a, (a < nA)%nat -> q s a - e <= worth nA tau (logit_table nS nA (table (st t)) s) (q s).
Proof.
  intros s Hs KT e He. assert (SZ : forall t, 0 <= size (ops t) s <= lrp * 10).
  { intros t. specialize (OKS t). destruct (ops t) as [o|b|u]; cbn [size dop_ok] in *; [lra| |lra]. destruct OKS as (rows & HR & _). rewrite (rows_combine HR). pose proof (@occurs_bounds s rows (proj1 HR)). split; [apply Rmult_le_pos; lra|apply Rmult_le_compat_l; lra]. }
  assert (HB' : 0 < INR B) by (apply lt_0_INR; lia).
  apply (@table_ascent nS nA HA tau HT s Hs (fun t => table (st t)) (fun t => size (ops t) s) (fun t => tq (used (st t)) s) (q s) (bep D0 rr M) (btail D0 rr M) (lrp * 10)); auto.
  - intros t a Ha. destruct (run_to t) as (_ & I & K). pose proof (one_more t) as E. destruct (@dstep_ok (st t) (bep D0 rr M t) (ops t) (pow_in _) I) as (d' & E' & _ & _ & V); [eapply kind_ok; [exact K|apply OKS]|]. rewrite E in E'. injection E' as <-. now apply V.
  - apply (@far_sum _ (lrp * / (10 * INR B))); [intros; apply SZ|apply Rmult_lt_0_compat; auto; apply Rinv_0_lt_compat; lra|]. intros K. destruct (KT K) as (t & Lt & TS). exists t. split; auto. specialize (OKS t). destruct (ops t) as [o|b|u]; cbn [size dop_ok trains_state] in *; try contradiction. destruct OKS as (rows & HR & LB). rewrite (rows_combine HR). apply Rmult_le_compat_l; [lra|]. apply occurs_in; auto. destruct HR as (_ & H1 & _). now rewrite <- H1.
  - intros t a Ha. destruct (run_to t) as (_ & I & _). destruct (used_ok I) as (_ & _ & EE). now apply EE.
  - apply btail_step; [apply rr_range|apply M_pos].
  - apply btail_nonneg; auto; [apply rr_range|apply M_pos].
  - apply btail_bdd; auto; [apply rr_range|apply M_pos].
Qed.
End Run.
