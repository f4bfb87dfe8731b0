From Coq Require Import List Lia Bool Arith Reals Lra.
From Verif Require Import PyCommon CommonProofs UtilsModel UtilsSpec UtilsProofs2 UtilsProofs3 WrappersProofs DistModel DistSpec DistProofs DistProofs2 DistProofs3 LossModel LossSpec LossProofs QModel QProofs QProps TDModel TDSpec TDProofs TDProofs2 TDProofs3 TDProofs4 CoreModel CoreSpec CoreProofs CoreProofs2 LearnModel LearnSpec LearnProofs LearnProofs2 LearnProofs3.
Import ListNotations.
Set Implicit Arguments.
Local Open Scope R_scope.

Lemma one_hot_inj : forall n a b, (a < n)%nat -> (b < n)%nat -> one_hot n a = one_hot n b -> a = b.
Proof. intros n a b Ha Hb E. assert (X : nth a (one_hot n a) 0 = nth a (one_hot n b) 0) by now rewrite E. rewrite !nth_one_hot in X by auto. rewrite Nat.eqb_refl in X. destruct (Nat.eqb_spec a b); auto. lra. Qed.

Section Runs.
Variables nS nA : nat.
Hypothesis HA : (1 <= nA)%nat.
Variable net : list R -> qfun nat R.
Hypothesis T : tabular nS nA net.
Variable dyn : nat -> nat -> nat * R * bool.
Hypothesis CL : closed nS nA dyn.
Variable gamma : R.
Hypothesis Hg : 0 <= gamma <= 1.
Variables (target : list R -> list R -> tbatch nat -> outcome (list R)) (val : valuation).
Hypothesis ST : sound_target nS nA target val.
Hypothesis NX : nonexpansive nA val.
Variables (loss : list R -> list R -> option (list R) -> outcome (option R)) (grads : list R -> list R -> fbatch nat -> list R) (sub : nat -> nat -> bool).
Variables (D0 cl lr wl : R) (B : nat).
Hypothesis PL : pulls loss ((1 + gamma) * D0) cl.
Hypothesis GR : differentiates nS nA dyn gamma net target loss grads.
Hypothesis Hlr : 0 < lr.
Hypothesis Hwl : 0 < wl.
Variable q : nat -> nat -> R.
Hypothesis BE : bellman nS nA dyn gamma val q.
Notation tq := (tq nA).
Notation ystep := (ystep nA net target loss grads sub).
Notation yrun := (yrun nA net target loss grads sub).
Notation beta := (beta cl lr wl B).
Notation err_le := (err_le nS nA q).

Record inv (y : sys) (D : R) (V : nat -> nat -> Prop) (k : R) : Prop := {
  i_sgd : sgd_learner lr sub y;
  i_th : exists th, q_params y = wrap th /\ length th = (nS * nA)%nat /\ err_le th D /\ forall s a, (s < nS)%nat -> (a < nA)%nat -> V s a -> Rabs (tq th s a - q s a) <= k;
  i_targ : exists targ, targ_params y = wrap targ /\ length targ = (nS * nA)%nat /\ err_le targ D }.

Lemma update_cells : forall y D th targ rows b, D <= D0 -> sgd_learner lr sub y -> q_params y = wrap th -> length th = (nS * nA)%nat -> err_le th D -> targ_params y = wrap targ -> length targ = (nS * nA)%nat -> err_le targ D ->
  genuine nS nA dyn gamma rows b -> weights_fit lr wl b -> (length rows <= B)%nat ->
  exists y' th', ystep y (YUpdate b) = (y', Ok tt) /\ sgd_learner lr sub y' /\ y_targ y' = y_targ y /\ q_params y' = wrap th' /\ length th' = (nS * nA)%nat /\
  forall s a, (s < nS)%nat -> (a < nA)%nat -> exists bt, 0 <= bt <= 1 /\ (visits nA (YUpdate b) s a -> beta <= bt) /\ Rabs (tq th' s a - q s a) <= (1 - bt) * Rabs (tq th s a - q s a) + bt * (gamma * D).
Proof.
  intros y D th targ rows b HD SG Q L E P Lt Et GEN WF LB. destruct (pulls_slope PL) as (Hcl & l & l' & EL & Dl & SL).
  destruct (@targets_close nS nA HA dyn gamma Hg target val ST NX q BE rows b th targ D GEN Lt Et CL) as (G & TG & LG & CG).
  pose proof (@GR th targ rows b L Lt GEN) as GD. destruct (GEN) as (NE & HS & HAc & HW & L1 & L2 & L3 & GE).
  assert (HR : forall s a, In (s, a) rows -> (s < nS)%nat /\ (a < nA)%nat).
  { intros s a I. apply In_nth_error in I. destruct I as [i I]. assert (i < length rows)%nat by (apply nth_error_Some; congruence). destruct (nth_error (tb_Snext (fb_t b)) i) as [s'|] eqn:N; [|apply nth_error_None in N; lia]. destruct (GE _ _ _ _ I N) as (? & ? & _). auto. }
  rewrite EL in GD.
  destruct (@ystep_update nA net target loss grads sub lr y b th targ SG Q P) as (y' & Y1 & Y2 & Y3 & Y4).
  { exact (proj1 GD). }
  { rewrite EL. exact (@loss_ok nS nA net T l target rows b th targ G th HS HAc HW LG NE HR TG L). }
  exists y'. eexists. split; [exact Y1|]. split; [auto|]. split; [auto|]. split; [exact Y4|]. split; [now rewrite map_length, seq_length|].
  intros s a Hs Ha. assert (X := index_lt Hs Ha).
  assert (CW : forall i, (i < length rows)%nat -> wl <= nth i (clip_w (fb_W b)) 0 /\ lr * nth i (clip_w (fb_W b)) 0 <= 1).
  { intros i Hi. rewrite clip_w_nth by lia. rewrite wclip. apply WF. apply nth_In. lia. }
  destruct (@cell_step nA HA gamma l' cl lr wl B Hcl Hlr Hwl (length rows) (fun i => nth i (clip_w (fb_W b)) 0) (fun i => nth i G 0) (fun i => same_pair (nth i rows (0, 0)%nat) (s, a)) (tq th s a - q s a) (q s a) D ((1 + gamma) * D0)) as (bt & B1 & B2 & B3); auto.
  - destruct rows; [congruence|cbn; lia].
  - intros i Hi Si. apply same_pair_spec in Si. apply CG. rewrite <- Si. now apply nth_error_nth'.
  - pose proof (E s a Hs Ha). assert (0 <= D) by (eapply Rle_trans; [apply Rabs_pos|eauto]). nra.
  - exists bt. split; auto. split.
    + intros (i & V1 & V2). rewrite HS in V1. rewrite HAc in V2. assert (Hi : (i < length rows)%nat) by (rewrite <- (map_length (@fst nat nat)); apply nth_error_Some; congruence). apply (B2 i); auto. apply same_pair_spec. destruct (nth i rows (0, 0)%nat) as [s1 a1] eqn:N.
      assert (NN : nth_error rows i = Some (s1, a1)) by (rewrite <- N; now apply nth_error_nth'). rewrite (map_nth_error _ _ _ NN) in V1. rewrite (map_nth_error _ _ _ NN) in V2. cbn in V1, V2. injection V1 as ->. injection V2 as V2. destruct (HR _ _ (nth_error_In _ _ NN)). f_equal. eapply one_hot_inj; eauto.
    + assert (EX : tq (map (fun i => nth i th 0 - lr * nth i (grads th targ b) 0) (seq 0 (length th))) s a = tq th s a - lr * tq (grads th targ b) s a).
      { unfold LearnProofs.tq. rewrite (@nth_map_any _ _ _ (seq 0 (length th)) _ 0 0%nat) by (rewrite seq_length; lia). rewrite seq_nth by lia. reflexivity. }
      rewrite EX. rewrite (@table_gradient_cell nS nA HA net T l l' Dl target rows b th targ G th HS HAc HW LG NE HR TG L _ s a GD Hs Ha). unfold cell_grad. replace (q s a + (tq th s a - q s a)) with (tq th s a) in B3 by lra. exact B3.
Qed.

Definition kappa : R := 1 - beta * (1 - gamma).
Lemma step_inv : forall y D V k o, D <= D0 -> inv y D V k -> op_ok nS nA dyn gamma lr wl B o -> (y_targ y = None -> exists b, o = YUpdate b) -> kappa * D <= k -> gamma * D <= k -> k <= D ->
  exists y', ystep y o = (y', Ok tt) /\ inv y' D (fun s a => V s a \/ visits nA o s a) k /\ (y_targ y' = None <-> y_targ y = None).
Proof.
  intros y D V k o HD [SG (th & Q & L & E & EV) (targ & P & Lt & Et)] OK NS K1 K2 K3. destruct o as [b|tau].
  - destruct OK as (rows & GEN & WF & LB). destruct (@update_cells y D th targ rows b HD SG Q L E P Lt Et GEN WF LB) as (y' & th' & Y1 & Y2 & Y3 & Y4 & Y5 & C). exists y'. split; auto. split; [|now rewrite Y3].
    assert (E' : err_le th' D). { intros s a Hs Ha. destruct (C s a Hs Ha) as (bt & [B1 B1'] & _ & B3). pose proof (E s a Hs Ha). assert (0 <= D) by (eapply Rle_trans; [apply Rabs_pos|eauto]). eapply Rle_trans; [exact B3|]. assert (bt * (gamma * D) <= bt * D) by (apply Rmult_le_compat_l; nra). assert ((1 - bt) * Rabs (tq th s a - q s a) <= (1 - bt) * D) by (apply Rmult_le_compat_l; lra). lra. }
    constructor; auto.
    + exists th'. split; auto. split; auto. split; auto. intros s a Hs Ha [HV|HV]; destruct (C s a Hs Ha) as (bt & [B1 B1'] & B2 & B3); (eapply Rle_trans; [exact B3|]).
      * specialize (EV s a Hs Ha HV). assert ((1 - bt) * Rabs (tq th s a - q s a) <= (1 - bt) * k) by (apply Rmult_le_compat_l; lra). assert (bt * (gamma * D) <= bt * k) by (apply Rmult_le_compat_l; lra). lra.
      * specialize (B2 HV). pose proof (E s a Hs Ha). assert (0 <= D) by (eapply Rle_trans; [apply Rabs_pos|eauto]). unfold kappa in K1. assert ((1 - bt) * Rabs (tq th s a - q s a) <= (1 - bt) * D) by (apply Rmult_le_compat_l; lra). assert (beta * ((1 - gamma) * D) <= bt * ((1 - gamma) * D)) by (apply Rmult_le_compat_r; auto; apply Rmult_le_pos; lra). lra.
    + unfold targ_params in *. rewrite Y3. destruct (y_targ y); [exists targ; auto|]. exists th'. auto.
  - cbn in OK. destruct (y_targ y) as [t|] eqn:Ht; [|destruct (NS eq_refl); discriminate].
    destruct (@ystep_sync nA net target loss grads sub lr y tau th targ t SG Ht Q P) as (y' & t' & Y1 & Y2 & Y3 & Y4 & Y5); [lia|]. exists y'. split; auto. split; [|rewrite Y3; intuition discriminate]. constructor; auto.
    + exists th. split; auto. split; auto. split; auto. intros s a Hs Ha [HV|[]]. now apply EV.
    + eexists. split; [exact Y5|]. split; [now rewrite map_length, seq_length|]. intros s a Hs Ha. assert (X := index_lt Hs Ha). unfold LearnProofs.tq. rewrite (@nth_map_any _ _ _ (seq 0 (length targ)) _ 0 0%nat) by (rewrite seq_length; lia). rewrite seq_nth by lia. cbn [Nat.add]. pose proof (E s a Hs Ha) as E1. pose proof (Et s a Hs Ha) as E2. unfold LearnProofs.tq in *.
      match goal with |- Rabs (?t1 * ?x + ?t2 * ?z - ?w) <= _ => replace (t1 * x + t2 * z - w) with (t1 * (x - w) + t2 * (z - w)) by ring end. eapply Rle_trans; [apply Rabs_triang|]. rewrite !Rabs_mult, (Rabs_right (1 - tau)), (Rabs_right tau) by lra. nra.
Qed.
Lemma run_inv : forall os y D V k, D <= D0 -> inv y D V k -> (forall o, In o os -> op_ok nS nA dyn gamma lr wl B o) -> (y_targ y = None -> forall o, In o os -> exists b, o = YUpdate b) -> kappa * D <= k -> gamma * D <= k -> k <= D ->
  exists y', yrun y os = (y', Ok tt) /\ inv y' D (fun s a => V s a \/ exists o, In o os /\ visits nA o s a) k /\ (y_targ y' = None <-> y_targ y = None).
Proof.
  induction os as [|o os IH]; intros y D V k HD I OK NS K1 K2 K3.
  - exists y. split; auto. split; [|tauto]. destruct I as [SG (th & Q & L & E & EV) IT]. constructor; auto. exists th. split; auto. split; auto. split; auto. intros s a Hs Ha [HV|(? & [] & _)]. now apply EV.
  - destruct (@step_inv y D V k o) as (y1 & S1 & I1 & N1); auto; [apply OK; now left|intros N; apply NS; auto; now left|]. cbn [LearnModel.yrun]. rewrite S1. destruct (IH y1 D _ k HD I1) as (y' & R & I' & N'); auto; [intros; apply OK; now right|intros N; apply N1 in N; intros; apply NS; auto; now right|].
    exists y'. split; auto. split; [|tauto]. destruct I' as [SG (th & Q & L & E & EV) IT]. constructor; auto. exists th. split; auto. split; auto. split; auto. intros s a Hs Ha [HV|(o' & [<-|Io] & Vo)]; apply EV; eauto.
Qed.
Lemma yrun_app : forall a b y, yrun y (a ++ b) = match yrun y a with (y1, Ok _) => yrun y1 b | r => r end.
Proof.
  induction a as [|o a IH]; intros b y; [reflexivity|]. cbn [app LearnModel.yrun]. destruct (ystep y o) as [y1 [u|e]]; auto.
Qed.
(** Never worse. *)
Definition good (y : sys) (D : R) : Prop := inv y D (fun _ _ => False) D.
Lemma beta_nonneg : 0 <= beta.
Proof. destruct (pulls_slope PL) as (Hcl & _). unfold LearnProofs3.beta, Rdiv. destruct B as [|n]; [cbn; rewrite Rinv_0; lra|]. apply Rmult_le_pos; [apply Rmult_le_pos; nra|]. left. apply Rinv_0_lt_compat. apply lt_0_INR. lia. Qed.
Lemma good_mono : forall y D D', good y D -> D <= D' -> good y D'.
Proof.
  intros y D D' [SG (th & Q & L & E & EV) (targ & P & Lt & Et)] HD. constructor; auto.
  - exists th. split; auto. split; auto. split; [|intros ? ? ? ? []]. intros s a Hs Ha. eapply Rle_trans; [now apply E|exact HD].
  - exists targ. split; auto. split; auto. intros s a Hs Ha. eapply Rle_trans; [now apply Et|exact HD].
Qed.
Lemma never_worse : forall os y D, 0 <= D <= D0 -> good y D -> (forall o, In o os -> op_ok nS nA dyn gamma lr wl B o) -> (y_targ y = None -> forall o, In o os -> exists b, o = YUpdate b) ->
  exists y', yrun y os = (y', Ok tt) /\ good y' D /\ (y_targ y' = None <-> y_targ y = None).
Proof.
  intros os y D [HD0 HD] G OK NS. pose proof beta_nonneg. destruct (@run_inv os y D (fun _ _ => False) D HD G OK NS) as (y' & R & I & N).
  - unfold kappa. assert (0 <= beta * (1 - gamma) * D) by (apply Rmult_le_pos; auto; apply Rmult_le_pos; lra). lra.
  - nra.
  - lra.
  - exists y'. split; [exact R|]. split; [|exact N]. destruct I as [SG (th & Q & L & E & EV) IT]. constructor; [assumption| |assumption]. exists th. split; [assumption|]. split; [assumption|]. split; [assumption|intros ? ? ? ? []].
Qed.
(** Rounds. *)
Variable tau0 : R.
Hypothesis Ht0 : 0 < tau0 <= 1.
Hypothesis Hb : beta <= 1.
Definition round (y : sys) (os : list yop) : Prop :=
  (forall o, In o os -> op_ok nS nA dyn gamma lr wl B o) /\
  match y_targ y with
  | None => covers nS nA os /\ forall o, In o os -> exists b, o = YUpdate b
  | Some _ => exists os1 tau os2, os = os1 ++ YSync tau :: os2 /\ covers nS nA os1 /\ tau0 <= tau
  end.
Definition rate : R := 1 - tau0 * (beta * (1 - gamma)).
Lemma covered : forall os y D, 0 <= D <= D0 -> good y D -> (forall o, In o os -> op_ok nS nA dyn gamma lr wl B o) -> (y_targ y = None -> forall o, In o os -> exists b, o = YUpdate b) -> covers nS nA os ->
  exists y', yrun y os = (y', Ok tt) /\ (y_targ y' = None <-> y_targ y = None) /\ inv y' D (fun _ _ => True) (kappa * D).
Proof.
  intros os y D [HD0 HD] G OK NS C. pose proof beta_nonneg as Hb0. assert (X : 0 <= beta * (1 - gamma) <= 1 - gamma) by (split; [apply Rmult_le_pos; lra|]; rewrite <- (Rmult_1_l (1 - gamma)) at 2; apply Rmult_le_compat_r; lra).
  assert (K : gamma * D <= kappa * D) by (unfold kappa; apply Rmult_le_compat_r; lra). assert (K' : kappa * D <= D) by (unfold kappa; rewrite <- (Rmult_1_l D) at 2; apply Rmult_le_compat_r; lra).
  assert (I : inv y D (fun _ _ => False) (kappa * D)) by (destruct G as [SG (th & Q & L & E & EV) IT]; constructor; auto; exists th; split; auto; split; auto; split; [assumption|intros ? ? ? ? []]).
  destruct (@run_inv os y D (fun _ _ => False) (kappa * D) HD I OK NS) as (y' & R & I' & N); auto; try lra. exists y'. split; auto. split; auto.
  destruct I' as [SG (th & Q & L & E & EV) IT]. constructor; [assumption| |assumption]. exists th. split; [assumption|]. split; [assumption|]. split; [assumption|]. intros s a Hs Ha _. apply EV; auto.
Qed.
Lemma round_good : forall os y D, 0 <= D <= D0 -> good y D -> round y os -> exists y', yrun y os = (y', Ok tt) /\ good y' (rate * D) /\ (y_targ y' = None <-> y_targ y = None).
Proof.
  intros os y D HD G [OK RD]. pose proof beta_nonneg as Hb0. assert (X : 0 <= beta * (1 - gamma) <= 1 - gamma) by (split; [apply Rmult_le_pos; lra|]; rewrite <- (Rmult_1_l (1 - gamma)) at 2; apply Rmult_le_compat_r; lra).
  assert (KR : kappa <= rate). { unfold kappa, rate. assert (tau0 * (beta * (1 - gamma)) <= 1 * (beta * (1 - gamma))) by (apply Rmult_le_compat_r; lra). lra. }
  assert (K0 : 0 <= rate <= 1). { unfold rate. assert (0 <= tau0 * (beta * (1 - gamma)) <= 1 * (beta * (1 - gamma))) by (split; [apply Rmult_le_pos; lra|apply Rmult_le_compat_r; lra]). lra. }
  destruct (y_targ y) as [t|] eqn:Ht.
  - destruct RD as (os1 & tau & os2 & -> & C & Htau). assert (OT : 0 <= tau <= 1) by (apply (OK (YSync tau)); apply in_or_app; right; now left).
    destruct (@covered os1 y D HD G) as (y1 & R1 & N1 & I1); auto; [intros; apply OK; apply in_or_app; now left|rewrite Ht; discriminate|].
    rewrite yrun_app, R1. cbn [LearnModel.yrun]. destruct I1 as [SG (th & Q & L & E & EV) (targ & P & Lt & Et)]. destruct (y_targ y1) as [t1|] eqn:Ht1; [|exfalso; rewrite Ht in N1; destruct N1 as [N1 _]; specialize (N1 eq_refl); discriminate].
    destruct (@ystep_sync nA net target loss grads sub lr y1 tau th targ t1 SG Ht1 Q P) as (y2 & t2 & Y1 & Y2 & Y3 & Y4 & Y5); [lia|]. rewrite Y1.
    assert (G2 : good y2 (rate * D)).
    { constructor; auto.
      - exists th. split; auto. split; auto. split; [|intros ? ? ? ? []]. intros s a Hs Ha. eapply Rle_trans; [apply EV; auto|]. apply Rmult_le_compat_r; lra.
      - eexists. split; [exact Y5|]. split; [now rewrite map_length, seq_length|]. intros s a Hs Ha. assert (XX := index_lt Hs Ha). unfold LearnProofs.tq. rewrite (@nth_map_any _ _ _ (seq 0 (length targ)) _ 0 0%nat) by (rewrite seq_length; lia). rewrite seq_nth by lia. cbn [Nat.add]. pose proof (EV s a Hs Ha I) as E1. pose proof (Et s a Hs Ha) as E2. unfold LearnProofs.tq in *.
        match goal with |- Rabs (?t1 * ?x + ?t2 * ?z - ?w) <= _ => replace (t1 * x + t2 * z - w) with (t1 * (x - w) + t2 * (z - w)) by ring end. eapply Rle_trans; [apply Rabs_triang|]. rewrite !Rabs_mult, (Rabs_right (1 - tau)), (Rabs_right tau) by lra.
        match type of E1 with ?e1 <= _ => match type of E2 with ?e2 <= _ => assert (tau * e1 <= tau * (kappa * D)) by (apply Rmult_le_compat_l; lra); assert ((1 - tau) * e2 <= (1 - tau) * D) by (apply Rmult_le_compat_l; lra) end end.
        assert (tau0 * (beta * (1 - gamma) * D) <= tau * (beta * (1 - gamma) * D)) by (apply Rmult_le_compat_r; auto; apply Rmult_le_pos; lra). unfold rate, kappa in *. lra. }
    destruct (@never_worse os2 y2 (rate * D)) as (y' & R' & G' & N'); auto.
    + split; [apply Rmult_le_pos; lra|]. apply Rle_trans with (1 * D); [apply Rmult_le_compat_r; lra|lra].
    + intros; apply OK; apply in_or_app; right; now right.
    + rewrite Y3. discriminate.
    + exists y'. split; auto. split; auto. rewrite N', Y3. intuition discriminate.
  - destruct RD as [C NS]. destruct (@covered os y D HD G OK) as (y' & R & N & [SG (th & Q & L & E & EV) (targ & P & Lt & Et)]); auto. exists y'. split; auto. rewrite Ht in N. split; [|exact N].
    assert (Ht' : y_targ y' = None) by now apply N. unfold targ_params in P. rewrite Ht' in P. assert (targ = th) by (rewrite P in Q; now injection Q). subst targ. assert (EE : err_le th (rate * D)) by (intros s a Hs Ha; eapply Rle_trans; [apply EV; auto|]; apply Rmult_le_compat_r; lra).
    constructor; [assumption|exists th; split; [assumption|]; split; [assumption|]; split; [assumption|intros ? ? ? ? []]|]. exists th. unfold targ_params. rewrite Ht'. split; auto.
Qed.
Definition same_kind (y y' : sys) : Prop := y_targ y' = None <-> y_targ y = None.
Lemma round_kind : forall y y' os, same_kind y y' -> round y os -> round y' os.
Proof. intros y y' os N [OK RD]. split; auto. red in N. destruct (y_targ y), (y_targ y'); auto; destruct N as [N1 N2]; [specialize (N1 eq_refl); discriminate|specialize (N2 eq_refl); discriminate]. Qed.
Lemma rounds_good : forall rs y D, 0 <= D <= D0 -> good y D -> (forall os, In os rs -> round y os) -> exists y', yrun y (concat rs) = (y', Ok tt) /\ good y' (rate ^ length rs * D) /\ same_kind y y'.
Proof.
  induction rs as [|os rs IH]; intros y D HD G RD.
  - exists y. split; auto. split; [|red; tauto]. cbn [length pow]. now rewrite Rmult_1_l.
  - destruct (@round_good os y D HD G) as (y1 & R1 & G1 & N1); [apply RD; now left|]. pose proof beta_nonneg as Hb0. assert (K0 : 0 <= rate <= 1). { unfold rate. assert (X : 0 <= beta * (1 - gamma) <= 1 - gamma) by (split; [apply Rmult_le_pos; lra|]; rewrite <- (Rmult_1_l (1 - gamma)) at 2; apply Rmult_le_compat_r; lra). assert (0 <= tau0 * (beta * (1 - gamma)) <= 1 * (beta * (1 - gamma))) by (split; [apply Rmult_le_pos; lra|apply Rmult_le_compat_r; lra]). lra. }
    destruct (IH y1 (rate * D)) as (y' & R' & G' & N'); auto.
    + split; [apply Rmult_le_pos; lra|]. apply Rle_trans with (1 * D); [apply Rmult_le_compat_r; lra|lra].
    + intros os' I. apply (@round_kind y); auto. apply RD. now right.
    + exists y'. cbn [concat]. rewrite yrun_app, R1. split; auto. split; [|red in N'; red; tauto]. cbn [length pow]. replace (rate * rate ^ length rs * D) with (rate ^ length rs * (rate * D)) by ring. auto.
Qed.
End Runs.
