From Coq Require Import List Lia Bool Arith Reals Lra.
From Verif Require Import PyCommon CommonProofs UtilsModel UtilsSpec UtilsProofs2 UtilsProofs3 WrappersProofs DistModel DistSpec DistProofs DistProofs2 DistProofs3 LossModel LossSpec LossProofs QModel QProofs QProps TDModel TDSpec TDProofs TDProofs2 TDProofs3 TDProofs4 CoreModel CoreSpec CoreProofs LearnModel LearnSpec LearnProofs LearnProofs2 LearnProofs3 LearnProofs4 LearnProofs5 LearnProofs6 LearnProofs7 NoiseSpec NoiseProofs NoiseProofs2 NoiseProofs3 DblModel DblSpec DblProofs DblProofs2 DblProofs3 DblProofs4.
From Verif Require Import VtModel VtSpec VtProofs.
Import ListNotations.
Set Implicit Arguments.
Local Open Scope R_scope.

(** * The slopes of LogTransform *)
Section Log.
Variable c : R.
Hypothesis Hc : 0 < c.
Let f x := sign x * c * ln (1 + Rabs x / c).
Lemma log_slope_pos : forall H x y, 0 <= x -> x <= y -> y <= H -> c / (c + H) * (y - x) <= f y - f x <= 1 * (y - x).
Proof.
  intros H x y Hx Hxy HH. split; [|rewrite Rmult_1_l; exact (lt_compress_pos Hc Hx Hxy)].
  assert (FX : forall z, 0 <= z -> f z = c * ln (1 + z / c)). { intros z [Hz|<-]; [now apply (lt_f_pos Hc)|]. replace (f 0) with 0 by (symmetry; apply lt_f_0). replace (1 + 0 / c) with 1 by (field; lra). rewrite ln_1. lra. }
  rewrite !FX by lra. assert (I : 0 < / c) by now apply Rinv_0_lt_compat. assert (0 <= x / c) by (unfold Rdiv; nra). assert (0 <= y / c) by (unfold Rdiv; nra).
  assert (L : ln ((1 + x / c) / (1 + y / c)) <= (1 + x / c) / (1 + y / c) - 1) by (apply ln_le_minus1; apply Rdiv_lt_0_compat; lra). rewrite ln_div in L by lra.
  assert (E : 1 - (1 + x / c) / (1 + y / c) = (y - x) / (c + y)) by (field; lra).
  assert (c * ((y - x) / (c + y)) <= c * (ln (1 + y / c) - ln (1 + x / c))) by (apply Rmult_le_compat_l; lra).
  apply Rle_trans with (c * ((y - x) / (c + y))); [|lra]. replace (c / (c + H) * (y - x)) with (c * ((y - x) * / (c + H))) by (field; lra). apply Rmult_le_compat_l; [lra|]. apply Rmult_le_compat_l; [lra|]. apply Rinv_le_contravar; lra.
Qed.
Lemma log_slope : forall H x y, - H <= x -> x <= y -> y <= H -> c / (c + H) * (y - x) <= f y - f x <= 1 * (y - x).
Proof.
  intros H x y H1 H2 H3. assert (OD : forall z, f (- z) = - f z) by (intros z; exact (@lt_odd_f c z)). assert (Z : f 0 = 0) by apply lt_f_0.
  destruct (Rle_or_lt 0 x) as [Px|Px]; [now apply log_slope_pos|]. destruct (Rle_or_lt y 0) as [Py|Py].
  - pose proof (@log_slope_pos H (- y) (- x) ltac:(lra) ltac:(lra) ltac:(lra)) as L. rewrite !OD in L. replace (- x - - y) with (y - x) in L by ring. lra.
  - pose proof (@log_slope_pos H 0 y ltac:(lra) ltac:(lra) ltac:(lra)) as L1. pose proof (@log_slope_pos H 0 (- x) ltac:(lra) ltac:(lra) ltac:(lra)) as L2. rewrite OD in L2. rewrite Z in *.
    replace (c / (c + H) * (y - x)) with (c / (c + H) * (y - 0) + c / (c + H) * (- x - 0)) by ring. lra.
Qed.
Lemma log_slopes : forall nS nA q D, slopes nS nA f q D (c / (c + (bound nS nA q + D))) 1.
Proof.
  intros nS nA q D s a x y Hs Ha H1 H2 H3. pose proof (@bound_ok nS nA q s a Hs Ha) as B. apply log_slope; auto; revert B; unfold Rabs; destruct (Rcase_abs (q s a)); lra.
Qed.
End Log.
Lemma log_parts : forall scale f g, log_transform scale = Ok (f, g) -> 0 < scale /\ inverse_pair f g /\ increasing f /\ f = (fun x => sign x * scale * ln (1 + Rabs x / scale)).
Proof.
  intros scale f g E. unfold log_transform in E. destruct (Rlt_dec 0 scale) as [H|]; [|discriminate]. injection E as <- <-. split; auto. split; [now apply lt_inverse|]. split; [now apply lt_incr_f|reflexivity].
Qed.

(** * Any tables *)
Lemma called_start : forall nS nA net f g q th, inverse_pair f g -> increasing f -> tabular nS nA net -> length th = (nS * nA)%nat -> exists D, 0 <= D /\ called_within nS nA g net (Node [0%nat] [Node [0%nat] [Leaf th]]) q D.
Proof.
  intros nS nA net f g q th IV INC T L. exists (bound nS nA (fun s a => g (tq nA th s a) - q s a)). split; [apply bound_pos|]. exists th. split; auto. split; auto. intros s a Hs Ha. exists (g (tq nA th s a)). split; [now apply (tab_call_t g T)|]. exact (@bound_ok nS nA (fun s a => g (tq nA th s a) - q s a) s a Hs Ha).
Qed.
Lemma called_more : forall nS nA g net p q D D', called_within nS nA g net p q D -> D <= D' -> called_within nS nA g net p q D'.
Proof. intros nS nA g net p q D D' (th & E & L & H) HD. exists th. split; auto. split; auto. intros s a Hs Ha. destruct (H s a Hs Ha) as (x & X1 & X2). exists x. split; auto. lra. Qed.

(** * Gradients by a formula *)
Lemma analytic_q_t : forall nS nA net l l' dyn gamma f g, (1 <= nA)%nat -> tabular nS nA net -> (forall y h, derivable_pt_lim (l y) h (l' y h)) -> differentiates nS nA dyn gamma net (target_q_t nA net f g) (zip_loss l) (analytic nS nA l' (target_q_t nA net f g)).
Proof.
  intros nS nA net l l' dyn gamma f g HA T Dl th targ rows b L Lt GEN. destruct (genuine_states HA GEN) as [W S]. destruct (@target_q_t_boot nS nA HA net T f g th targ (fb_t b) Lt W S) as (G & TG & BG). destruct (genuine_boot_t HA GEN BG) as [LG _]. eapply analytic_gradient; eauto.
Qed.
Lemma target_expected_t_boot : forall nS nA net f g pi th0 targ b, (1 <= nA)%nat -> tabular nS nA net -> (forall s, length (pi s) = nA) -> length targ = (nS * nA)%nat -> well_formed b -> (forall s, In s (tb_Snext b) -> (s < nS)%nat) ->
  exists out, target_expected_t nA net f g pi th0 targ b = Ok out /\ bootstrapped f g b (fun _ s x => x = expectation nA (boltzmann nA (pi s)) (tq nA targ s)) out.
Proof.
  intros nS nA net f g pi th0 targ b HA T Hp L WF Hs. destruct (T _ L) as [W Q]. unfold target_expected_t, expected_sarsa. rewrite (@eval1_ok nat nA); auto.
  - cbn [bind]. rewrite (map_combine_self (fun s => softmax (pi s)) (fun sa => qat (net targ) (fst sa) (snd sa))). apply finish_rows; auto; [now rewrite map_length|]. intros k s Hk. assert (In s (tb_Snext b)) by (eapply nth_error_In; eauto). rewrite (nth_map_error _ _ _ Hk). cbn [fst snd]. rewrite Q by (auto; now rewrite softmax_length). now apply dot_softmax.
  - now rewrite map_length.
  - intros a Ha. apply in_map_iff in Ha. destruct Ha as (s & <- & _). now rewrite softmax_length.
Qed.
Lemma analytic_expected_t : forall nS nA net l l' dyn gamma f g pi, (1 <= nA)%nat -> tabular nS nA net -> (forall s, length (pi s) = nA) -> (forall y h, derivable_pt_lim (l y) h (l' y h)) -> differentiates nS nA dyn gamma net (target_expected_t nA net f g pi) (zip_loss l) (analytic nS nA l' (target_expected_t nA net f g pi)).
Proof.
  intros nS nA net l l' dyn gamma f g pi HA T Hp Dl th targ rows b L Lt GEN. destruct (genuine_states HA GEN) as [W S]. destruct (@target_expected_t_boot nS nA net f g pi th targ (fb_t b) HA T Hp Lt W S) as (G & TG & BG). destruct (genuine_boot_t HA GEN BG) as [LG _]. eapply analytic_gradient; eauto.
Qed.
Lemma target_soft_t_boot : forall nS nA net f g t th0 targ b, (1 <= nA)%nat -> tabular nS nA net -> length targ = (nS * nA)%nat -> well_formed b -> (forall s, In s (tb_Snext b) -> (s < nS)%nat) ->
  exists out, target_soft_t nA net f g t th0 targ b = Ok out /\ bootstrapped f g b (fun _ s x => x = soft_maximum nA t (tq nA targ s)) out.
Proof.
  intros nS nA net f g t th0 targ b HA T L WF Hs. destruct (T _ L) as [W Q]. unfold target_soft_t. destruct (@soft_rows nat nA HA f g t (net targ) b W WF) as (out & E & [Lo B]). exists out. split; auto. split; auto. intros k s Hk. destruct (B k s Hk) as (x & -> & Ex). eexists. split; [reflexivity|]. rewrite Ex. do 4 f_equal.
  unfold soft_maximum. do 2 f_equal. apply total_ext. intros a Ha. apply in_seq in Ha. rewrite (tab_qval T); auto; try lia. apply Hs. eapply nth_error_In; eauto.
Qed.
Lemma analytic_soft_t : forall nS nA net l l' dyn gamma f g t, (1 <= nA)%nat -> tabular nS nA net -> (forall y h, derivable_pt_lim (l y) h (l' y h)) -> differentiates nS nA dyn gamma net (target_soft_t nA net f g t) (zip_loss l) (analytic nS nA l' (target_soft_t nA net f g t)).
Proof.
  intros nS nA net l l' dyn gamma f g t HA T Dl th targ rows b L Lt GEN. destruct (genuine_states HA GEN) as [W S]. destruct (@target_soft_t_boot nS nA net f g t th targ (fb_t b) HA T Lt W S) as (G & TG & BG). destruct (genuine_boot_t HA GEN BG) as [LG _]. eapply analytic_gradient; eauto.
Qed.

(** * Tables that no update changes *)
Lemma update_fixed : forall nS nA net dyn gamma target loss grads sub lr wl B y th b, (1 <= nA)%nat -> tabular nS nA net -> loss = mse \/ (exists delta, 0 < delta /\ loss = huber delta) -> differentiates nS nA dyn gamma net target loss grads -> 0 < lr -> 0 < wl ->
  sgd_learner lr sub y -> q_params y = wrap th -> targ_params y = wrap th -> length th = (nS * nA)%nat -> op_ok nS nA dyn gamma lr wl B (YUpdate b) ->
  (forall rows, genuine nS nA dyn gamma rows b -> exists G, target th th (fb_t b) = Ok G /\ length G = length rows /\ forall i s a, nth_error rows i = Some (s, a) -> nth i G 0 = tq nA th s a) ->
  exists y', ystep nA net target loss grads sub y (YUpdate b) = (y', Ok tt) /\ sgd_learner lr sub y' /\ y_targ y' = y_targ y /\ q_params y' = wrap th /\ targ_params y' = wrap th.
Proof.
  intros nS nA net dyn gamma target loss grads sub lr wl B y th b HA T LS GR Hlr Hwl SG Q P L (rows & GEN & WF & LB) FX. destruct (FX rows GEN) as (G & TG & LG & EG).
  assert (PL : exists cl, pulls loss 1 cl). { destruct LS as [->|(d & Hd & ->)]; [exists 1; left; auto|]. exists (Rmin 1 d). right. exists d. repeat split; auto; try (apply Rmin_glb_lt; lra); try apply Rmin_l. rewrite Rmult_1_r. apply Rmin_r. }
  destruct PL as [cl PL].
  destruct (@mix_update nS nA HA net T dyn gamma target loss grads sub 1 cl lr wl B PL Hlr Hwl y th th rows b G (tq nA th) (tq nA th) SG Q L P GEN WF LB) as (y' & th' & Y1 & Y2 & Y3 & Y4 & Y5 & C); auto.
  { now apply GR with rows. }
  { intros i s a Hi. rewrite (EG i s a Hi). split; [lra|]. rewrite Rminus_eq_0, Rabs_R0. lra. }
  assert (TT : th' = th). { apply nth_ext with 0 0; [congruence|]. intros k Hk. rewrite Y5 in Hk. pose proof (Nat.div_mod k nA ltac:(lia)) as DM. pose proof (Nat.mod_upper_bound k nA ltac:(lia)) as MB. assert (DB : (k / nA < nS)%nat) by (apply Nat.div_lt_upper_bound; lia).
    destruct (C (k / nA)%nat (k mod nA)%nat DB MB) as (c & C1 & _ & C3). unfold LearnProofs.tq in C3. replace (k / nA * nA + k mod nA)%nat with k in C3 by lia. lra. }
  subst th'. exists y'. split; auto. split; auto. split; auto. split; auto. unfold targ_params in *. rewrite Y3. destruct (y_targ y); auto.
Qed.
Lemma run_fixed : forall nS nA net dyn gamma target loss grads sub lr wl B th os y, (1 <= nA)%nat -> tabular nS nA net -> loss = mse \/ (exists delta, 0 < delta /\ loss = huber delta) -> differentiates nS nA dyn gamma net target loss grads -> 0 < lr -> 0 < wl ->
  sgd_learner lr sub y -> q_params y = wrap th -> targ_params y = wrap th -> length th = (nS * nA)%nat -> (forall o, In o os -> op_ok nS nA dyn gamma lr wl B o) -> (y_targ y = None -> forall o, In o os -> exists b, o = YUpdate b) ->
  (forall b rows, genuine nS nA dyn gamma rows b -> exists G, target th th (fb_t b) = Ok G /\ length G = length rows /\ forall i s a, nth_error rows i = Some (s, a) -> nth i G 0 = tq nA th s a) ->
  exists y', yrun nA net target loss grads sub y os = (y', Ok tt) /\ q_params y' = wrap th.
Proof.
  intros nS nA net dyn gamma target loss grads sub lr wl B th os. induction os as [|o os IH]; intros y HA T LS GR Hlr Hwl SG Q P L OK NS FX; [exists y; auto|].
  assert (Z : exists y', ystep nA net target loss grads sub y o = (y', Ok tt) /\ sgd_learner lr sub y' /\ (y_targ y' = None -> y_targ y = None) /\ q_params y' = wrap th /\ targ_params y' = wrap th).
  { destruct o as [b|tau].
    - destruct (@update_fixed nS nA net dyn gamma target loss grads sub lr wl B y th b HA T LS GR Hlr Hwl SG Q P L (OK _ (or_introl eq_refl)) (FX b)) as (y' & Y1 & Y2 & Y3 & Y4 & Y5). exists y'. rewrite Y3. auto.
    - destruct (y_targ y) as [t|] eqn:E; [|destruct (NS eq_refl _ (or_introl eq_refl)); discriminate]. destruct (@ystep_sync nA net target loss grads sub lr y tau th th t SG E Q P eq_refl) as (y' & t' & Y1 & Y2 & Y3 & Y4 & Y5). exists y'. split; auto. split; auto. split; [rewrite Y3; discriminate|]. split; auto. rewrite Y5. f_equal.
      apply nth_ext with 0 0; [now rewrite map_length, seq_length|]. intros k Hk. rewrite map_length, seq_length in Hk. rewrite (@nth_map_any _ _ _ (seq 0 (length th)) k 0 0%nat) by (now rewrite seq_length). rewrite seq_nth by auto. cbn [Nat.add]. lra. }
  destruct Z as (y1 & Y1 & Y2 & Y3 & Y4 & Y5). cbn [yrun]. rewrite Y1. apply IH; auto; [intros; apply OK; now right|intros N o' Ho'; apply NS; auto; now right].
Qed.
