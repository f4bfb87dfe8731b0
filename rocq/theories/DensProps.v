(** Property C114: probabilities and densities of continuous actions. *)
From Coq Require Import List ZArith Lia Bool Reals Lra.
From Verif Require Import PyCommon UtilsModel WrappersModel DistModel DistSpec MeanSpec CompModel CompSpec2 CompProofs DensModel DensSpec DensProofs.
Import ListNotations.
Local Open Scope R_scope.

(** The box [0, 1] with mean 0 and log-variance 0. *)
Definition ex_axis : axis := mkA (Some 0, Some 1) 0 0.
Lemma ex_low : low ex_axis = 0. Proof. unfold low, lower. cbn. apply Rmax_left. lra. Qed.
Lemma ex_high : high ex_axis = 1. Proof. unfold high, upper. cbn. apply Rmin_left. lra. Qed.
Lemma ex_mk : mk (box_of [ex_axis]) = Ok (PNorm [(0, 1)]).
Proof. unfold box_of. cbn [map ex_axis a_bounds mk map_outcome fst snd]. unfold n_bounds. rewrite Rmax_left, Rmin_left by lra. destruct (Rlt_dec 0 1); [reflexivity|lra]. Qed.
Lemma ex_margin : 0 < margin ex_axis < 1 / 4.
Proof. unfold margin. rewrite ex_low, ex_high. assert (31 <= exp 30) by (pose proof (exp_ineq1 30); lra). split; [apply Rdiv_lt_0_compat; lra|]. apply Rmult_lt_reg_r with (1 + exp 30); [lra|]. unfold Rdiv. rewrite Rmult_assoc, Rinv_l; lra. Qed.
Lemma ex_lv : lv_used 0 = 0. Proof. unfold lv_used. rewrite Rmax_left, Rmin_left; lra. Qed.

(** C114: let every range [c, d] of the coordinates lie between the margins.  The draws for which the action falls into all ranges form a
    rectangle, and on each side of the rectangle the integral of the standard normal density equals the integral of [action_density] over
    the range.  So for independent standard normal draws the action has the density that is the product of the [action_density]s. *)
Theorem C114_probability : forall ks d ranges, mk (box_of ks) = Ok d ->
  Forall2 (fun k r => low k + margin k < fst r /\ fst r <= snd r /\ snd r < high k - margin k) ks ranges ->
  exists sides qs,
    (forall us, length us = length ks -> exists x, c_draw d (params_of ks) us [] = Ok (CVec x) /\ length x = length ks /\ (Forall2 within x ranges <-> Forall2 within us sides)) /\
    Forall2 (fun s q => integral bell (fst s) (snd s) q) sides qs /\
    Forall2 (fun kr q => integral (action_density (fst kr)) (fst (snd kr)) (snd (snd kr)) q) (combine ks ranges) qs.
Proof.
  intros ks d ranges HM F. destruct (@box_made ks d HM) as [_ H]. destruct (@rect_prob ks ranges H F) as (qs & I1 & I2). eexists _, qs. split; [|split; [exact I1|exact I2]].
  intros us L. exists (points ks us). split; [now apply box_draw|]. split; [unfold points; rewrite map_length, combine_length; lia|]. exact (@rect_iff ks ranges H F us L).
Qed.
Print Assumptions C114_probability.
Example C114_probability_ex : mk (box_of [ex_axis]) = Ok (PNorm [(0, 1)]) /\
  Forall2 (fun k r => low k + margin k < fst r /\ fst r <= snd r /\ snd r < high k - margin k) [ex_axis] [(1/4, 3/4)].
Proof. split; [exact ex_mk|]. constructor; [|constructor]. rewrite ex_low, ex_high. pose proof ex_margin. cbn. lra. Qed.

(** C114: log_proba(dist_params, preprocess_variate(a)) is the logarithm of the density of the action minus the logarithm of the product of the
    factors [stretch]. *)
Theorem C114_logp : forall ks d xs, mk (box_of ks) = Ok d -> Forall2 (fun k x => low k + margin k <= x <= high k - margin k) ks xs ->
  0 < prod (densities ks xs) /\ 0 < prod (stretches ks xs) /\
  exists Y, c_pre d (CVec xs) = Ok Y /\ c_log_proba d (params_of ks) Y = Ok (ln (prod (densities ks xs)) - ln (prod (stretches ks xs))).
Proof.
  intros ks d xs HM F. destruct (@box_made ks d HM) as [_ H].
  assert (SP : 0 < prod (stretches ks xs)). { apply prod_pos. unfold stretches. intros y Hy. apply in_map_iff in Hy. destruct Hy as ([k x] & <- & I). cbn [fst snd]. clear HM. induction F as [|k' x' ks xs B F IH]; [contradiction|]. destruct I as [E|I]; [injection E as -> ->; pose proof (@margin_pos k (H k (or_introl eq_refl))); apply stretch_pos; lra|]. apply IH; auto. intros; apply H; now right. }
  rewrite dens_prod. pose proof (gausses_pos ks (map (fun kx => raw (fst kx) (snd kx)) (combine ks xs))) as GP. split; [now apply Rmult_lt_0_compat|]. split; auto.
  eexists. split; [exact (@box_pre ks d xs HM F)|]. rewrite (@box_logp ks d _ HM) by (rewrite map_length, combine_length; rewrite (Forall2_len F); lia). f_equal. rewrite ln_mult by auto. lra.
Qed.
Print Assumptions C114_logp.
Example C114_logp_ex : Forall2 (fun k x => low k + margin k <= x <= high k - margin k) [ex_axis] [1/2] /\ prod (stretches [ex_axis] [1/2]) = 4.
Proof.
  split; [constructor; [|constructor]; rewrite ex_low, ex_high; pose proof ex_margin; lra|]. unfold stretches, prod. cbn [combine map fold_right fst snd]. unfold stretch. rewrite ex_low, ex_high. lra.
Qed.

(** C114: it is not the logarithm of the density of the action: at the centre of the box [0, 1] the density is 4 times as large. *)
Theorem C114_logp_refuted : exists ks d xs Y r, mk (box_of ks) = Ok d /\ c_pre d (CVec xs) = Ok Y /\ c_log_proba d (params_of ks) Y = Ok r /\ prod (densities ks xs) = 4 * exp r.
Proof.
  destruct C114_logp_ex as [F S]. destruct (C114_logp _ _ _ ex_mk F) as (P1 & P2 & Y & E1 & E2). eexists _, _, _, Y, _. split; [exact ex_mk|]. split; [exact E1|]. split; [exact E2|].
  unfold Rminus. rewrite exp_plus, exp_Ropp, !exp_ln, S by auto. field.
Qed.
Print Assumptions C114_logp_refuted.

(** C114: the ratio of the exponentials of log_proba under two sets of parameters is the exact ratio of the densities of the action. *)
Theorem C114_ratio : forall ks ks' d xs Y r r', mk (box_of ks) = Ok d -> map a_bounds ks' = map a_bounds ks -> Forall2 (fun k x => low k + margin k <= x <= high k - margin k) ks xs ->
  c_pre d (CVec xs) = Ok Y -> c_log_proba d (params_of ks) Y = Ok r -> c_log_proba d (params_of ks') Y = Ok r' -> exp (r' - r) = prod (densities ks' xs) / prod (densities ks xs).
Proof.
  intros ks ks' d xs Y r r' HM EB F EY ER ER'. assert (HM' : mk (box_of ks') = Ok d) by (unfold box_of; now rewrite EB).
  assert (F' : Forall2 (fun k x => low k + margin k <= x <= high k - margin k) ks' xs /\ stretches ks' xs = stretches ks xs).
  { clear - EB F. revert ks' EB. induction F as [|k x ks xs B F IH]; intros [|k' ks'] EB; try discriminate; [split; [constructor|reflexivity]|]. injection EB as E1 E2. destruct (IH ks' E2) as [I1 I2]. unfold stretches in *. cbn [combine map fst snd]. rewrite I2. unfold margin, stretch, low, high in *. rewrite E1. split; [constructor; auto; rewrite E1; auto|reflexivity]. }
  destruct F' as [F' ES]. destruct (C114_logp _ _ _ HM F) as (P1 & P2 & Y1 & E1 & E2). destruct (C114_logp _ _ _ HM' F') as (P3 & P4 & Y2 & E3 & E4).
  assert (Y1 = Y) by congruence. assert (Y2 = Y) by congruence. subst. rewrite E2 in ER. rewrite E4 in ER'. injection ER as <-. injection ER' as <-. rewrite ES in *.
  replace (ln (prod (densities ks' xs)) - ln (prod (stretches ks xs)) - (ln (prod (densities ks xs)) - ln (prod (stretches ks xs)))) with (ln (prod (densities ks' xs)) + - ln (prod (densities ks xs))) by lra.
  rewrite exp_plus, exp_Ropp, !exp_ln by auto. reflexivity.
Qed.
Print Assumptions C114_ratio.
Example C114_ratio_ex : exists Y r r', c_pre (PNorm [(0, 1)]) (CVec [1/2]) = Ok Y /\ c_log_proba (PNorm [(0, 1)]) (params_of [ex_axis]) Y = Ok r /\ c_log_proba (PNorm [(0, 1)]) (params_of [mkA (Some 0, Some 1) 3 1]) Y = Ok r' /\
  exp (r' - r) = prod (densities [mkA (Some 0, Some 1) 3 1] [1/2]) / prod (densities [ex_axis] [1/2]).
Proof.
  destruct C114_logp_ex as [F _]. destruct (C114_logp _ _ _ ex_mk F) as (_ & _ & Y & E1 & E2). assert (F' : Forall2 (fun k x => low k + margin k <= x <= high k - margin k) [mkA (Some 0, Some 1) 3 1] [1/2]) by (inversion F; subst; constructor; auto). destruct (C114_logp [mkA (Some 0, Some 1) 3 1] _ _ ex_mk F') as (_ & _ & Y' & E3 & E4). assert (Y' = Y) by congruence. subst.
  eexists Y, _, _. split; [exact E1|]. split; [exact E2|]. split; [exact E4|]. eapply (C114_ratio [ex_axis] [mkA (Some 0, Some 1) 3 1]); eauto using ex_mk.
Qed.

(** C114: the call with return_logp=True returns the action of the call without, together with the logarithm of the density of the raw draw;
    if no raw coordinate is beyond [-30, 30], that is log_proba of the preprocessed action. *)
Theorem C114_call : forall ks d us, mk (box_of ks) = Ok d -> length us = length ks -> exists x r, c_call d (params_of ks) us [] = Ok (CVec x, r) /\ c_draw d (params_of ks) us [] = Ok (CVec x) /\
  r = fold_right Rplus 0 (map (fun ku => ln (bell (snd ku)) - lv_used (a_lv (fst ku)) / 2) (combine ks us)) /\
  (Forall2 (fun k u => -30 <= a_mu k + exp (lv_used (a_lv k) / 2) * u <= 30) ks us -> exists Y, c_pre d (CVec x) = Ok Y /\ c_log_proba d (params_of ks) Y = Ok r).
Proof.
  intros ks d us HM L. exists (points ks us), (ln (prod (gausses ks (raws ks us)))). split; [|split; [now apply box_draw|split; [exact (@gausses_logs ks us L)|]]].
  - unfold c_call. rewrite (@box_sample ks d us HM L). cbn [bind fst]. rewrite (@box_logp ks d _ HM) by now apply raws_len. cbn [bind]. rewrite (@box_post ks d us [] HM L). reflexivity.
  - intros F. eexists. split; [exact (@box_pre_points ks d us HM L)|]. replace (map (fun y => clip y (-30) 30) (raws ks us)) with (raws ks us); [apply box_logp; auto; now apply raws_len|].
    clear - F. unfold raws. induction F as [|k u ks us B F IH]; [reflexivity|]. cbn [combine map fst snd]. rewrite <- IH. f_equal. unfold sd, clip. rewrite Rmax_left, Rmin_left; lra.
Qed.
Print Assumptions C114_call.
Example C114_call_ex : Forall2 (fun k u => -30 <= a_mu k + exp (lv_used (a_lv k) / 2) * u <= 30) [ex_axis] [2].
Proof. constructor; [|constructor]. cbn. rewrite ex_lv. replace (0 / 2) with 0 by lra. rewrite exp_0. lra. Qed.

(** C114: beyond [-30, 30] the returned log-probability is not log_proba of the preprocessed action. *)
Theorem C114_call_refuted : exists ks d us x r Y r', mk (box_of ks) = Ok d /\ length us = length ks /\ c_call d (params_of ks) us [] = Ok (x, r) /\ c_pre d x = Ok Y /\ c_log_proba d (params_of ks) Y = Ok r' /\ r' = r + 350.
Proof.
  exists [ex_axis], (PNorm [(0, 1)]), [40]. destruct (C114_call [ex_axis] _ [40] ex_mk eq_refl) as (x & r & E1 & E2 & E3 & _). exists (CVec x), r. eexists _, _. split; [exact ex_mk|]. split; [reflexivity|]. split; [exact E1|].
  rewrite (@box_draw [ex_axis] _ [40] ex_mk eq_refl) in E2. injection E2 as <-. split; [exact (@box_pre_points [ex_axis] _ [40] ex_mk eq_refl)|]. split; [eapply (@box_logp [ex_axis] _ _ ex_mk); reflexivity|].
  rewrite E3. cbn [raws combine map fst snd gausses prod fold_right]. unfold sd. cbn [a_mu a_lv ex_axis]. rewrite ex_lv. replace (0 / 2) with 0 by lra. rewrite exp_0. replace (clip (0 + 1 * 40) (-30) 30) with 30 by (unfold clip; rewrite Rmax_left, Rmin_right; lra).
  unfold bell, gauss. rewrite !Rmult_1_r. pose proof PI_RGT_0 as P. assert (S : 0 < sqrt (2 * PI)) by (apply sqrt_lt_R0; lra). unfold Rdiv. rewrite !ln_mult by (try apply exp_pos; apply Rinv_0_lt_compat; auto). rewrite !ln_exp. lra.
Qed.
Print Assumptions C114_call_refuted.
